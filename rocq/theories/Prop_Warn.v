(** C141: what the log of the EKF localizer says about measurements that are not used. *)
From Coq Require Import String List ZArith Bool Lia.
From Verif Require Import Base Arith EkfModel WarnModel SpecWarn WarnProofs.
Import ListNotations.
Open Scope Z_scope.

Section Warn.
Variable A : arith.
Variable roundf : D A -> option Z.
Variable sin cos : D A -> D A.
Variable atan2 : D A -> D A -> D A.
Variable Orient : Type.
Variable get_yaw : Orient -> D A.
Variable K : kalman A.
Variable prm : params A.
Notation handled := (handled A Orient K).
Notation handle := (handle A roundf sin cos atan2 Orient get_yaw K prm).
Notation raised := (raised A roundf sin cos atan2 Orient get_yaw K prm).
Notation outcome_of := (outcome_of A roundf sin cos atan2 Orient get_yaw K prm).
Notation justified := (justified A roundf sin cos atan2 Orient get_yaw K prm).
Notation fused := (fused A roundf sin cos atan2 Orient get_yaw K prm).
Notation filter_of := (filter_of A Orient K).

(** A measurement is fused, or the filter stays as it is and a warning is raised whose
    reason is one for dropping it and is true. *)
Theorem C141_raised : forall h f', outcome_of h = Ok f' ->
  fused h f' \/ (f' = filter_of h /\ exists ms r, In (ms, r) (raised [h]) /\ dropping r /\ justified r h).
Proof.
  intros h f' E. rewrite <- handle_refines in E. destruct (handle_dropped _ _ _ _ _ _ _ _ _ h f' E) as [H|[H1 (ms & r & I & Dr)]]; [left; exact H|].
  right. split; [exact H1|]. exists ms, r. split; [unfold WarnModel.raised; cbn; rewrite app_nil_r; exact I|]. split; [exact Dr|].
  exact (proj2 (handle_known _ _ _ _ _ _ _ _ _ h ms r I)).
Qed.
(** Whatever the log says is true of a measurement that was handled. *)
Theorem C141_true : forall period clock hs t r, In (t, r) (log_from_start period clock (raised hs)) -> exists h, In h hs /\ justified r h.
Proof.
  intros period clock hs t r H. apply log_in in H. destruct H as (k & ms & E & _). apply nth_error_In in E. unfold WarnModel.raised in E.
  apply in_flat_map in E. destruct E as (h & Hh & E). exists h. split; [exact Hh|]. exact (proj2 (handle_known _ _ _ _ _ _ _ _ _ h ms r E)).
Qed.

(** The call of [c] while h is handled after [before]. *)
Lemma raised_app a b : raised (a ++ b) = raised a ++ raised b.
Proof. unfold WarnModel.raised. apply flat_map_app. Qed.
Lemma call_at before h after c : In c (raised [h]) ->
  exists i, (length (raised before) <= i < length (raised (before ++ [h])))%nat /\ nth_error (raised (before ++ h :: after)) i = Some c.
Proof.
  intros H. apply In_nth_error in H. destruct H as [k E]. exists (length (raised before) + k)%nat. assert (L : (k < length (raised [h]))%nat) by (apply nth_error_Some; congruence).
  split; [rewrite raised_app, app_length; lia|]. change (before ++ h :: after) with (before ++ ([h] ++ after)). rewrite !raised_app.
  rewrite nth_error_app2 by lia. replace (length (raised before) + k - length (raised before))%nat with k by lia. rewrite nth_error_app1 by lia. exact E.
Qed.

(** While the clock does not go backwards and is past its first two seconds: when a
    measurement is handled and not fused, some line was written in the two seconds before. *)
Theorem C141_some_line_partial : forall period clock before h after f',
  usual_period period -> (forall a b, (a <= b)%nat -> clock a <= clock b) -> 2000000000 <= clock 0%nat ->
  outcome_of h = Ok f' ->
  fused h f' \/
  exists i t r, (length (raised before) <= i < length (raised (before ++ [h])))%nat /\
    In (t, r) (log_from_start period clock (raised (before ++ h :: after))) /\ clock i - 2000000000 < t <= clock i.
Proof.
  intros period clock before h after f' U M B E. destruct (C141_raised h f' E) as [F|[_ (ms & r & I & _)]]; [left; exact F|]. right.
  destruct (call_at before h after _ I) as (i & Bi & Ei). assert (Kn := raised_known A roundf sin cos atan2 Orient get_yaw K prm (before ++ h :: after)).
  destruct (log_recent period clock _ U M Kn 0 0 i _ Ei) as [(t & q & I2 & B2)|B2].
  - exists i, t, q. auto.
  - exfalso. specialize (M 0%nat i ltac:(lia)). cbn [plus] in B2. lia.
Qed.
(** If in these two seconds no warning was raised for another reason than r, the line says
    r, and r is why this measurement was dropped. *)
Theorem C141_only_reason_partial : forall period clock before h after f' r,
  usual_period period -> (forall a b, (a <= b)%nat -> clock a <= clock b) -> 2000000000 <= clock 0%nat ->
  outcome_of h = Ok f' ->
  (forall i j ms q, (length (raised before) <= i < length (raised (before ++ [h])))%nat -> clock i - 2000000000 < clock j <= clock i ->
     nth_error (raised (before ++ h :: after)) j = Some (ms, q) -> q = r) ->
  fused h f' \/
  (dropping r /\ justified r h /\
   exists i t, (length (raised before) <= i < length (raised (before ++ [h])))%nat /\
    In (t, r) (log_from_start period clock (raised (before ++ h :: after))) /\ clock i - 2000000000 < t <= clock i).
Proof.
  intros period clock before h after f' r U M B E O. destruct (C141_raised h f' E) as [F|[_ (ms & q & I & Dq & Jq)]]; [left; exact F|].
  destruct (call_at before h after _ I) as (i & Bi & Ei).
  assert (q = r) as -> by (apply (O i i ms q Bi ltac:(lia) Ei)).
  destruct (C141_some_line_partial period clock before h after f' U M B E) as [F|(i2 & t & r2 & Bi2 & I2 & T2)]; [left; exact F|]. right. split; [exact Dq|]. split; [exact Jq|].
  exists i2, t. split; [exact Bi2|]. split; [|exact T2]. assert (I3 := I2). apply log_in in I3. destruct I3 as (j & m2 & Ej & ->).
  rewrite <- (O i2 j m2 r2 Bi2 T2 Ej). exact I2.
Qed.
(** Values that are not finite and failed updates are reported every time. *)
Theorem C141_every_time_partial : forall period clock before h after ms r, r = NotFinite \/ r = UpdateFailed -> In (ms, r) (raised [h]) ->
  exists i, (length (raised before) <= i < length (raised (before ++ [h])))%nat /\
    In (clock i, r) (log_from_start period clock (raised (before ++ h :: after))).
Proof.
  intros period clock before h after ms r Hr I.
  assert (ms = None) as ->.
  { unfold WarnModel.raised in I. cbn in I. rewrite app_nil_r in I. apply (known_always ms r); [|exact Hr]. exact (proj1 (handle_known _ _ _ _ _ _ _ _ _ h ms r I)). }
  destruct (call_at before h after _ I) as (i & Bi & Ei). exists i. split; [exact Bi|]. exact (log_always period clock _ 0 0 i r Ei).
Qed.

(** A measurement from slightly ahead of the clock that is outside the gate. *)
Definition ahead_and_outside (h : handled) : Prop :=
  justified FutureStamp h /\ justified OverGate h /\ ~ justified WrongFrame h /\ ~ justified TooOld h /\ ~ justified NotFinite h /\
  outcome_of h = Ok (filter_of h).
Lemma no_warn_finite y : (~ exists v, In v y /\ d_trunc A v = None) -> all_finite A y = true.
Proof. intros H. destruct (all_finite A y) eqn:E; [reflexivity|]. exfalso. exact (H (not_finite A y E)). Qed.
Lemma ahead_calls h : ahead_and_outside h -> fst (handle h) = [show_delay_time; show_gate].
Proof.
  destruct h as [f now dt m|f now dt m]; intros (J1 & (d & s & Jc & Jx & Jg) & J3 & J4 & J5 & J6); unfold SpecWarn.cycles in *; cbn [SpecWarn.justified SpecWarn.outcome_of WarnModel.handle SpecWarn.filter_of SpecWarn.interval_of] in *;
    unfold pose_warn, twist_warn, pose_body, twist_body in *.
  - destruct (time_of _) as [t| | | | |] eqn:ET; try discriminate J6. apply time_same in ET. subst t. clear J6.
    unfold say. cbn [andthen fst snd]. change (compute_delay_time A now (p_stamp A Orient m)) with (age A Orient K (HPose A Orient K f now dt m)).
    rewrite J1, Jc. cbn [andthen fst snd].
    replace (check_frame_id _ _) with true by (symmetry; apply String.eqb_eq; destruct (String.eqb_spec (p_frame A Orient m) (pose_frame_id A prm)); [assumption|contradiction]).
    replace (check_delay_step d _) with true by (symmetry; unfold check_delay_step; cbn; apply Z.ltb_lt; destruct (Z_lt_le_dec d (extend_state_step A prm)); [assumption|exfalso; apply J4; exists d; split; assumption]).
    cbn [negb warn_unless fst snd app].
    rewrite (no_warn_finite _ J5 : all_finite A (pose_measurement_vector A sin cos atan2 Orient get_yaw m) = true). cbn [negb warn_unless fst snd app]. rewrite Jx. cbn [andthen fst snd].
    change (gate A K _ _ _ _) with (gate A K (allowed A Orient K prm (HPose A Orient K f now dt m)) (compared A Orient K (HPose A Orient K f now dt m) s)
      (values A sin cos atan2 Orient get_yaw K (HPose A Orient K f now dt m)) (spread A Orient K (HPose A Orient K f now dt m))). rewrite Jg. reflexivity.
  - destruct (time_of _) as [t| | | | |] eqn:ET; try discriminate J6. apply time_same in ET. subst t. clear J6.
    unfold say. cbn [andthen fst snd]. change (compute_delay_time A now (t_stamp A m)) with (age A Orient K (HTwist A Orient K f now dt m)).
    rewrite J1, Jc. cbn [andthen fst snd].
    replace (check_frame_id _ _) with true by (symmetry; apply String.eqb_eq; destruct (String.eqb_spec (t_frame A m) "base_link"); [assumption|contradiction]).
    replace (check_delay_step d _) with true by (symmetry; unfold check_delay_step; cbn; apply Z.ltb_lt; destruct (Z_lt_le_dec d (extend_state_step A prm)); [assumption|exfalso; apply J4; exists d; split; assumption]).
    cbn [negb warn_unless fst snd app].
    rewrite (no_warn_finite _ J5 : all_finite A (twist_measurement_vector A m) = true). cbn [negb warn_unless fst snd app]. rewrite Jx. cbn [andthen fst snd].
    change (gate A K _ _ _ _) with (gate A K (allowed A Orient K prm (HTwist A Orient K f now dt m)) (compared A Orient K (HTwist A Orient K f now dt m) s)
      (values A sin cos atan2 Orient get_yaw K (HTwist A Orient K f now dt m)) (spread A Orient K (HTwist A Orient K f now dt m))). rewrite Jg. reflexivity.
Qed.
(** However many such measurements are dropped, one after the other and for however long,
    the log never says that they are outside the gate.  Between the two warnings of one
    measurement less time passes than their periods differ by (none, where the clock is
    simulated). *)
Theorem C141_masked_refuted : forall period clock hs, 0 < period 1000 ->
  (forall k, clock (2 * k + 1)%nat - clock (2 * k)%nat + period 1000 <= period 2000) ->
  Forall ahead_and_outside hs ->
  forall t r, In (t, r) (log_from_start period clock (raised hs)) -> r = FutureStamp.
Proof.
  intros period clock hs P G Hs t r H.
  assert (E : raised hs = flat_map (fun _ => [(Some 1000, FutureStamp); (Some 2000, OverGate)]) (repeat tt (length hs))).
  { clear H. unfold WarnModel.raised. induction Hs as [|h hs Hh Hs IH]; [reflexivity|]. cbn [flat_map length repeat]. rewrite (ahead_calls h Hh), IH. reflexivity. }
  rewrite E in H. exact (log_pairs period clock (length hs) 0 0 _ _ P G t r H).
Qed.
(** After the clock was set back, nothing is said about dropped measurements (but values
    that are not finite and failed updates) until it is again where it was. *)
Theorem C141_backwards_refuted : forall period clock hs1 hs2 t0 r0, usual_period period ->
  In (t0, r0) (log_from_start period clock (raised hs1)) -> r0 <> NotFinite -> r0 <> UpdateFailed ->
  (forall j, (length (raised hs1) <= j)%nat -> clock j <= t0) ->
  exists later, log_from_start period clock (raised (hs1 ++ hs2)) = log_from_start period clock (raised hs1) ++ later /\
    forall t r, In (t, r) later -> r = NotFinite \/ r = UpdateFailed.
Proof.
  intros period clock hs1 hs2 t0 r0 U I N1 N2 B. rewrite raised_app. unfold log_from_start. rewrite log_app. eexists. split; [reflexivity|].
  apply log_quiet; [exact U|apply raised_known|]. intros j Hj. etransitivity; [apply B; exact Hj|].
  eapply last_shown; eauto. apply raised_known.
Qed.
End Warn.

(** ** Concrete cases *)
From Coq Require Import Reals Lra.
From Flocq Require Import Core.
From Verif Require Import SpecReal AngleProofs EkfProofs KalmanModel SpecKalman IntervalProofs Prop_Interval Prop_Kalman Prop_EkfMore.
Local Close Scope R_scope.
Local Open Scope Z_scope.

Notation ex_K := (ekf_kalman exact some_inverse (fun _ _ => 0%R)).
(** A gate of two standard deviations; the estimate is the origin with unit covariance. *)
Definition ex_params : params exact := Params exact 50%R 1 "map" 5 2%R 2%R 2 1%R true 1%R 1%R 1%R.
Definition ex_measured (stamp now : Z) (yaw : R) : handled exact R ex_K :=
  HPose exact R ex_K (facing 0) now (1 / 50)%R (PoseMsg exact R "map" stamp 0%R 0%R 0%R yaw (repeat 1%R 36)).
Notation ex_justified := (justified exact roundf_exact Rtrigo_def.sin Rtrigo_def.cos SpecReal.atan2 R (fun r => r) ex_K ex_params).
Notation ex_outcome := (outcome_of exact roundf_exact Rtrigo_def.sin Rtrigo_def.cos SpecReal.atan2 R (fun r => r) ex_K ex_params).
Notation ex_raised := (raised exact roundf_exact Rtrigo_def.sin Rtrigo_def.cos SpecReal.atan2 R (fun r => r) ex_K ex_params).
Lemma early_cycles (a dt : R) : (a <= 0)%R -> compute_delay_step exact roundf_exact a dt = Ok 0.
Proof.
  intros H. unfold compute_delay_step. assert (M : d_max exact a (d_of_Z exact 0) = 0%R).
  { unfold d_max. cbn. unfold Rltb. destruct (Rlt_dec a 0) as [L|L]; [reflexivity|lra]. }
  rewrite M. cbn [d_div exact]. unfold roundf_exact. replace (0 / dt)%R with (IZR 0) by (unfold Rdiv; ring). rewrite ZnearestA_IZR. reflexivity.
Qed.
Lemma three : normalize_yaw exact Rtrigo_def.sin Rtrigo_def.cos SpecReal.atan2 3%R = 3%R.
Proof. pose proof PI2_3_2. apply norm_yaw_unique with 0%Z; lra. Qed.
Lemma three_outside : gate exact ex_K 2%R [0%R; 0%R; 0%R] [0%R; 0%R; 3%R] [[1%R; 0%R; 0%R]; [0%R; 1%R; 0%R]; [0%R; 0%R; 1%R]] = false.
Proof.
  cbn [gate ekf_kalman length]. destruct (mahalanobis_gate _ _ _ _ _ _ _) eqn:G; [|reflexivity].
  apply (gate_diag some_inverse some_inverse_inverts 1 0 3 2) in G; lra.
Qed.
(** Three radians off: rejected, whether it is ahead of the clock or on time. *)
Lemma ex_rejected stamp now : 0 <= stamp -> now <= stamp ->
  ex_outcome (ex_measured stamp now 3%R) = Ok (facing 0) /\ ex_justified OverGate (ex_measured stamp now 3%R).
Proof.
  intros H0 H. assert (Ag : (age exact R ex_K (ex_measured stamp now 3%R) <= 0)%R).
  { cbn. apply IZR_le in H. rewrite minus_IZR. unfold Rdiv. nra. }
  assert (Cy := early_cycles _ (1 / 50)%R Ag). split.
  - unfold ex_measured. cbn [SpecWarn.outcome_of]. unfold pose_body. cbn [p_stamp]. unfold time_of. replace (stamp <? 0) with false by lia. cbn [bind].
    change (compute_delay_time exact now stamp) with (age exact R ex_K (ex_measured stamp now 3%R)). rewrite Cy. cbn [bind].
    change (check_delay_step 0 _) with true. cbn [negb]. change (all_finite _ _) with true. cbn [negb].
    change (kf_get_x exact ex_K (facing 0) 0) with (Ok (State exact 0%R 0%R 0%R 0%R 0%R 0%R)). cbn [bind].
    match goal with |- context [gate ?a ?k ?d ?x ?y ?c] => replace (gate a k d x y c) with false; [reflexivity|] end.
    symmetry. unfold pose_measurement_vector. cbn [p_x p_y p_orient]. rewrite three. exact three_outside.
  - exists 0, (State exact 0%R 0%R 0%R 0%R 0%R 0%R). split; [exact Cy|]. split; [reflexivity|].
    unfold ex_measured. cbn [allowed compared values spread filter_of p_x p_y p_orient].
    change (SpecReal.atan2 (Rtrigo_def.sin 3) (Rtrigo_def.cos 3)) with (normalize_yaw exact Rtrigo_def.sin Rtrigo_def.cos SpecReal.atan2 3%R). rewrite three. exact three_outside.
Qed.
Lemma ex_ahead t : 0 <= t ->
  ahead_and_outside exact roundf_exact Rtrigo_def.sin Rtrigo_def.cos SpecReal.atan2 R (fun r => r) ex_K ex_params (ex_measured (t + 5000000) t 3%R).
Proof.
  intros Ht. destruct (ex_rejected (t + 5000000) t ltac:(lia) ltac:(lia)) as [Q1 Q2].
  assert (Ag : (age exact R ex_K (ex_measured (t + 5000000) t 3) < 0)%R).
  { unfold age, ex_measured. cbn [p_stamp]. replace (t - (t + 5000000)) with (- 5000000) by lia. cbn [d_div d_of_Z exact]. rewrite ?opp_IZR. lra. }
  split; [|split; [exact Q2|split; [|split; [|split; [|exact Q1]]]]].
  - unfold justified. apply not_true_is_false. intros L. cbn [d_leb d_of_Z exact] in L. apply Rleb_true in L. exact (Rlt_not_le _ _ Ag L).
  - intros N. apply N. reflexivity.
  - intros (d & Cy & L). unfold cycles in Cy. rewrite early_cycles in Cy by (apply Rlt_le; exact Ag). injection Cy as <-. cbn [extend_state_step ex_params] in L. lia.
  - intros (v & _ & E). discriminate E.
Qed.
(** Five milliseconds ahead, 50 times a second, 0.1 ms between the two warnings, from the
    time t on. *)
Definition ex_stream (t : Z) (n : nat) : list (handled exact R ex_K) :=
  map (fun k => ex_measured (t + 20000000 * Z.of_nat k + 5000000) (t + 20000000 * Z.of_nat k) 3%R) (seq 0 n).
Definition ex_real (t : Z) (i : nat) : Z := t + 20000000 * Z.of_nat (i / 2) + 100000 * Z.of_nat (i mod 2).
Definition ex_simulated (t : Z) (i : nat) : Z := t + 20000000 * Z.of_nat (i / 2).
Lemma half_odd k : ((2 * k + 1) / 2 = k)%nat.
Proof. rewrite Nat.mul_comm, Nat.div_add_l by lia. rewrite Nat.add_0_r. reflexivity. Qed.
Lemma half_even k : ((2 * k) / 2 = k)%nat.
Proof. rewrite Nat.mul_comm. apply Nat.div_mul. lia. Qed.
Example C141_masked_case : forall t n, 1000000000 <= t ->
  Forall (fun h => ex_outcome h = Ok (facing 0) /\ ex_justified OverGate h) (ex_stream t (S n)) /\
  (forall u r, In (u, r) (log_from_start as_asked (ex_real t) (ex_raised (ex_stream t (S n)))) -> r = FutureStamp) /\
  In (t, FutureStamp) (log_from_start as_asked (ex_real t) (ex_raised (ex_stream t (S n)))) /\
  (forall u r, In (u, r) (log_from_start as_first_asked (ex_simulated t) (ex_raised (ex_stream t (S n)))) -> r = FutureStamp).
Proof.
  intros t n Ht.
  assert (P : Forall (ahead_and_outside exact roundf_exact Rtrigo_def.sin Rtrigo_def.cos SpecReal.atan2 R (fun r => r) ex_K ex_params) (ex_stream t (S n))).
  { apply Forall_forall. intros h H. apply in_map_iff in H. destruct H as (k & <- & _). apply ex_ahead. lia. }
  split; [|split; [|split]].
  - apply Forall_forall. intros h H. apply in_map_iff in H. destruct H as (k & <- & _). apply ex_rejected; lia.
  - apply C141_masked_refuted; [reflexivity| |exact P]. intros k. unfold ex_real, as_asked. rewrite half_odd, half_even. pose proof (Nat.mod_upper_bound (2 * k + 1) 2). lia.
  - assert (P1 := Forall_inv P). unfold ex_stream in *. cbn [seq map] in *. unfold raised. cbn [flat_map].
    rewrite (ahead_calls _ _ _ _ _ _ _ _ _ _ P1). cbn [app]. unfold log_from_start, show_delay_time. cbn [log]. 
    assert (E : ex_real t 0 = t) by (unfold ex_real; change (0 / 2)%nat with 0%nat; change (0 mod 2)%nat with 0%nat; lia). rewrite E.
    replace (0 + as_asked 1000 <=? t) with true by (symmetry; apply Z.leb_le; unfold as_asked; lia). left. reflexivity.
  - apply C141_masked_refuted; [reflexivity| |exact P]. intros k. unfold ex_simulated, as_first_asked. rewrite half_odd, half_even. lia.
Qed.
(** The same measurement on time: rejected, and the log says so. *)
Lemma ex_on_time t : 0 <= t -> ex_raised [ex_measured t t 3%R] = [show_gate].
Proof.
  intros Ht. unfold raised. cbn [flat_map]. rewrite app_nil_r. unfold ex_measured. cbn [handle]. unfold pose_warn. cbn [p_stamp]. unfold time_of. replace (t <? 0) with false by lia. cbn [andthen].
  assert (Z0 : compute_delay_time exact t t = 0%R) by (unfold compute_delay_time, seconds; rewrite Z.sub_diag; cbn; unfold Rdiv; ring).
  rewrite Z0, early_cycles by lra. unfold say. cbn [andthen fst snd]. change (check_delay_step 0 _) with true. change (check_frame_id _ _) with true.
  replace (d_leb exact (d_of_Z exact 0) 0%R) with true by (symmetry; apply Rleb_true; cbn; lra). cbn [negb warn_unless app fst snd].
  change (all_finite _ _) with true. cbn [negb warn_unless app fst snd]. change (kf_get_x exact ex_K (facing 0) 0) with (Ok (State exact 0%R 0%R 0%R 0%R 0%R 0%R)). cbn [andthen].
  match goal with |- context [gate ?a ?k ?d ?x ?y ?c] => replace (gate a k d x y c) with false; [reflexivity|] end.
  symmetry. unfold pose_measurement_vector. cbn [p_x p_y p_orient]. rewrite three. exact three_outside.
Qed.
Example C141_only_reason_case : forall t, 2000000000 <= t ->
  (exists f', ex_outcome (ex_measured t t 3%R) = Ok f') /\
  (forall j ms q, nth_error (ex_raised [ex_measured t t 3%R]) j = Some (ms, q) -> q = OverGate) /\
  log_from_start as_asked (fun _ => t) (ex_raised [ex_measured t t 3%R]) = [(t, OverGate)].
Proof.
  intros t Ht. split; [eexists; apply ex_rejected; lia|]. rewrite ex_on_time by lia. split.
  - intros [|[|j]] ms q H; cbn in H; [injection H as _ <-; reflexivity|discriminate|discriminate].
  - cbn. replace (2000000000 <=? t) with true by (symmetry; apply Z.leb_le; lia). reflexivity.
Qed.
Example C141_period_cases : usual_period as_asked /\ usual_period as_first_asked.
Proof. split; intros ms [->| ->]; unfold as_asked, as_first_asked; lia. Qed.
(** Clock set back by ten seconds: the next rejections are not in the log. *)
Example C141_backwards_case : forall t, 20000000000 <= t ->
  let clock i := match i with 0%nat => t | _ => t - 10000000000 end in
  log_from_start as_asked clock (ex_raised [ex_measured t t 3%R; ex_measured (t - 10000000000) (t - 10000000000) 3%R]) = [(t, OverGate)] /\
  ex_outcome (ex_measured (t - 10000000000) (t - 10000000000) 3%R) = Ok (facing 0).
Proof.
  intros t Ht clock. split; [|apply ex_rejected; lia].
  change [ex_measured t t 3%R; ex_measured (t - 10000000000) (t - 10000000000) 3%R] with ([ex_measured t t 3%R] ++ [ex_measured (t - 10000000000) (t - 10000000000) 3%R]).
  rewrite raised_app, !ex_on_time by lia. cbn. replace (2000000000 <=? t) with true by (symmetry; apply Z.leb_le; lia).
  replace (t + 2000000000 <=? t - 10000000000) with false by (symmetry; apply Z.leb_gt; lia). reflexivity.
Qed.
(** A pose that is not a number, in floating point, whatever the filter. *)
Example C141_nan_case : forall acosf sin cos atan2 (K : kalman (ieee acosf)) (f : Filter _ K) g,
  let prm := Params (ieee acosf) (of_Z64 50) 1 "map" 5 (of_Z64 2) (of_Z64 2) 2 (of_Z64 1) true (of_Z64 1) (of_Z64 1) (of_Z64 1) in
  raised (ieee acosf) roundf64 sin cos atan2 unit g K prm
    [HPose (ieee acosf) unit K f 0 (of_Z64 1) (PoseMsg (ieee acosf) unit "map" 0 BinarySingleNaN.B754_nan (of_Z64 0) (of_Z64 0) tt [])] = [show_nan_inf].
Proof.
  intros. unfold raised. cbn [flat_map]. rewrite app_nil_r. cbn [handle]. unfold pose_warn. cbn [p_stamp].
  replace (compute_delay_step (ieee acosf) roundf64 (compute_delay_time (ieee acosf) 0 0) (of_Z64 1)) with (Ok 0) by (vm_compute; reflexivity).
  replace (d_leb (ieee acosf) (d_of_Z (ieee acosf) 0) (compute_delay_time (ieee acosf) 0 0)) with true by (vm_compute; reflexivity).
  reflexivity.
Qed.

Print Assumptions C141_raised.
Print Assumptions C141_true.
Print Assumptions C141_some_line_partial.
Print Assumptions C141_only_reason_partial.
Print Assumptions C141_every_time_partial.
Print Assumptions C141_masked_refuted.
Print Assumptions C141_backwards_refuted.
