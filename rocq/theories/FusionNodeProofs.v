(** Proofs about ticks and histories of the EKF localizer (C88-C91). *)
From Coq Require Import Reals Lra Lia PeanoNat List Bool ZArith String.
From Flocq Require Import Core.
From Coquelicot Require Import Coquelicot.
From Verif Require Import Base Arith SpecReal AngleProofs EkfModel SpecEkf EkfProofs KalmanModel SpecKalman SpecFusion SpecCycle StackProofs KalmanProofs2 KalmanProofs3
  IntervalProofs QueueProofs Prop_Interval Prop_Queue EkfNodeProofs Prop_EkfNode Prop_Kalman Prop_Ekf Prop_EkfMore FusionProofs.
Import ListNotations.
Local Open Scope R_scope.

(** ** Loops *)
Section Loops.
Context {Msg : Type}.
Variable good : Msg -> Prop.
Lemma loop_keeps {S} (body : S -> Msg -> outcome S) max_age fuel : forall i q s q' s', wf q -> Forall good (msgs q) ->
  update_loop body max_age fuel i q s = Ok (q', s') -> wf q' /\ Forall good (msgs q').
Proof.
  induction fuel as [|k IH]; intros i q s q' s' W G E; cbn [update_loop] in E; destruct (Z.ltb_spec i (q_size q)) as [LT|GE]; try discriminate; try (injection E as <- <-; auto).
  pose proof (pop_items max_age q W) as P. pose proof (items_msgs q W) as IM. destruct (items q) as [|[m a] r] eqn:EI.
  - rewrite P in E. discriminate.
  - destruct P as [q1 [P1 [W1 P2]]]. rewrite P1 in E. cbn [bind] in E. rewrite <- IM in G. cbn [map fst] in G. inversion G as [|? ? Gm Gr]; subst.
    destruct (body s m) as [s1| | | | |]; try discriminate. cbn [bind] in E. pose proof (items_msgs q1 W1) as IM1. eapply IH; [exact W1| |exact E].
    rewrite <- IM1, P2. destruct (a + 1 <? max_age)%Z; auto. rewrite map_app. apply Forall_app. split; auto. constructor; auto.
Qed.
Lemma fold_in_turn {E S} (ok : S -> Prop) (view : S -> E) (step : Msg -> E -> E -> Prop) (body : S -> Msg -> outcome S) :
  (forall s m s', ok s -> good m -> body s m = Ok s' -> step m (view s) (view s') /\ ok s') ->
  forall l s s', Forall good l -> ok s -> foldM body s l = Ok s' -> in_turn step l (view s) (view s') /\ ok s'.
Proof.
  intros H. induction l as [|m l IH]; intros s s' G O F; cbn [foldM] in F.
  - injection F as <-. split; [constructor|exact O].
  - inversion G as [|? ? Gm Gl]; subst. destruct (body s m) as [s1| | | | |] eqn:B; try discriminate. cbn [bind] in F.
    destruct (H _ _ _ O Gm B) as [S1 O1]. destruct (IH _ _ Gl O1 F) as [S2 O2]. split; [econstructor; eassumption|exact O2].
Qed.
Lemma loop_in_turn {E S} (ok : S -> Prop) (view : S -> E) (step : Msg -> E -> E -> Prop) (body : S -> Msg -> outcome S) max_age q s q' s' :
  (forall s m s', ok s -> good m -> body s m = Ok s' -> step m (view s) (view s') /\ ok s') ->
  wf q -> Forall good (msgs q) -> ok s -> update_loop body max_age (List.length (msgs q)) 0 q s = Ok (q', s') ->
  ok s' /\ wf q' /\ Forall good (msgs q') /\
  exists k, (k <= List.length (msgs q) <= 2 * k)%nat /\ in_turn step (firstn k (msgs q)) (view s) (view s').
Proof.
  intros H W G O U. destruct (loop_keeps body max_age _ _ _ _ _ _ W G U) as [W' G'].
  rewrite loop_runs in U by (auto using size_fuel; lia).
  destruct (cycle_prefix max_age q W) as (P1 & _ & P3 & P4). cbv zeta in *. set (c := cycle max_age (List.length (msgs q)) 0 q) in *.
  destruct (foldM body s (fst c)) as [s1| | | | |] eqn:F; try discriminate. cbn [bind] in U. injection U as _ <-.
  assert (Gc : Forall good (fst c)). { rewrite P1. apply Forall_forall. intros x Hx. rewrite Forall_forall in G. apply G. rewrite <- (firstn_skipn (List.length (fst c))). apply in_or_app. auto. }
  destruct (fold_in_turn ok view step body H _ _ _ Gc O F) as [T O']. split; [exact O'|]. split; [exact W'|]. split; [exact G'|].
  exists (List.length (fst c)). unfold q_size, zlen in *. split; [lia|]. rewrite <- P1. exact T.
Qed.
End Loops.

(** ** Covariances in messages *)
Lemma placed_pose_psd P : positive_semidefinite 6 P -> positive_semidefinite 6 (square (placed [0; 1; 5]%nat [0; 1; 2]%nat P)).
Proof.
  intros [S V]. split.
  - intros i j Hi Hj. assert (X : forall a b, (a < 6)%nat -> (b < 6)%nat -> P a b = P b a) by (intros; apply S; assumption).
    do 6 (destruct i as [|i]; [do 6 (destruct j as [|j]; [cbn; first [reflexivity|apply X; lia]|]); lia|]). lia.
  - intros v. specialize (V (fun i => match i with 0%nat => v 0%nat | 1%nat => v 1%nat | 2%nat => v 5%nat | _ => 0 end)).
    eapply Rle_trans; [exact V|]. right. unfold variance_along, square, placed. cbn. ring.
Qed.
Lemma placed_twist_psd P : positive_semidefinite 6 P -> positive_semidefinite 6 (square (placed [0; 5]%nat [4; 5]%nat P)).
Proof.
  intros [S V]. split.
  - intros i j Hi Hj. assert (X : forall a b, (a < 6)%nat -> (b < 6)%nat -> P a b = P b a) by (intros; apply S; assumption).
    do 6 (destruct i as [|i]; [do 6 (destruct j as [|j]; [cbn; first [reflexivity|apply X; lia]|]); lia|]). lia.
  - intros v. specialize (V (fun i => match i with 4%nat => v 0%nat | 5%nat => v 5%nat | _ => 0 end)).
    eapply Rle_trans; [exact V|]. right. unfold variance_along, square, placed. cbn. ring.
Qed.

Lemma noise_scaled m k : (0 < k)%Z -> forall n, positive_definite n (noise_of m 1) -> positive_definite n (noise_of m k).
Proof.
  intros K n [S V]. assert (E : forall i j, noise_of m k i j = IZR k * noise_of m 1 i j) by (intros; unfold noise_of; ring).
  assert (KP : 0 < IZR k) by (apply IZR_lt; lia). split.
  - intros i j Hi Hj. rewrite !E, (S i j Hi Hj). reflexivity.
  - intros v Hv. specialize (V v Hv). replace (variance_along n (noise_of m k) v) with (IZR k * variance_along n (noise_of m 1) v); [apply Rmult_lt_0_compat; assumption|].
    unfold variance_along. rewrite <- total_scal. apply total_ext. intros i Hi. rewrite <- total_scal. apply total_ext. intros j Hj. rewrite E. ring.
Qed.

(** ** Dead reckoning *)
Lemma bounded_slope (c : R) (g : R -> R) dt : 0 <= dt -> 0 <= c -> g 0 = 0 -> (forall t, 0 <= t <= dt -> exists l, is_derive g t l /\ Rabs l <= c * t) -> Rabs (g dt) <= c * (dt * dt) / 2.
Proof.
  intros H C G0 HD. destruct (Req_dec dt 0) as [->|N]; [rewrite G0, Rabs_R0; lra|].
  assert (UP : forall sgn, sgn = 1 \/ sgn = -1 -> sgn * g dt <= c * (dt * dt) / 2).
  { intros sgn Hs. set (k := fun t => c * (t * t) / 2 - sgn * g t).
    assert (DK : forall t, 0 <= t <= dt -> exists l, is_derive g t l /\ Rabs l <= c * t /\ is_derive k t (c * t - sgn * l)).
    { intros t Ht. destruct (HD t Ht) as (l & L1 & L2). exists l. split; [exact L1|]. split; [exact L2|]. unfold k.
      apply (is_derive_ext (fun t => Hierarchy.minus (c * (t * t) / 2) (sgn * g t))); [reflexivity|].
      replace (c * t - sgn * l) with (Hierarchy.minus (c * t) (sgn * l)) by reflexivity.
      apply (is_derive_minus (fun t => c * (t * t) / 2) (fun t => sgn * g t)).
      - auto_derive; [exact I|]. field.
      - apply (is_derive_scal g t sgn l). exact L1. }
    destruct (MVT_gen k 0 dt (fun t => Derive k t)) as (xi & X1 & X2).
    - intros x Hx. rewrite Rmin_left, Rmax_right in Hx by lra. destruct (DK x ltac:(lra)) as (l & _ & _ & K1). apply Derive_correct. exists (c * x - sgn * l). exact K1.
    - intros x Hx. rewrite Rmin_left, Rmax_right in Hx by lra. destruct (DK x ltac:(lra)) as (l & _ & _ & K1). apply continuity_pt_filterlim. apply (ex_derive_continuous k). exists (c * x - sgn * l). exact K1.
    - rewrite Rmin_left, Rmax_right in X1 by lra. destruct (DK xi ltac:(lra)) as (l & _ & L2 & K1). apply is_derive_unique in K1. rewrite K1 in X2.
      unfold k in X2 at 1 2. rewrite G0 in X2. apply Rabs_le_between in L2.
      assert (0 <= (c * xi - sgn * l) * (dt - 0)) by (apply Rmult_le_pos; [destruct Hs; subst sgn; lra|lra]). lra. }
  apply Rabs_le. split; [specialize (UP (-1) ltac:(auto)); lra|specialize (UP 1 ltac:(auto)); lra].
Qed.
Lemma same_cos a b : same_heading a b -> cos a = cos b. Proof. intros [k ->]. apply cos_shift. Qed.
Lemma same_sin a b : same_heading a b -> sin a = sin b. Proof. intros [k ->]. apply cos_shift. Qed.
Lemma heading_refl a : same_heading a a. Proof. exists 0%Z. lra. Qed.
Lemma heading_sym a b : same_heading a b -> same_heading b a. Proof. intros [k ->]. exists (- k)%Z. rewrite opp_IZR. lra. Qed.
Lemma heading_trans a b c : same_heading a b -> same_heading b c -> same_heading a c. Proof. intros [k ->] [j ->]. exists (k + j)%Z. rewrite plus_IZR. lra. Qed.
Lemma heading_plus a b c : same_heading a b -> same_heading (a + c) (b + c). Proof. intros [k ->]. exists k. lra. Qed.
Lemma cos_lipschitz a b : Rabs (cos a - cos b) <= Rabs (a - b).
Proof.
  destruct (MVT_gen cos b a (fun t => - sin t)) as (xi & _ & E).
  - intros x _. auto_derive; [exact I|]. ring.
  - intros x _. apply continuity_cos.
  - rewrite E, Rabs_mult, Rabs_Ropp. pose proof (SIN_bound xi) as S. assert (Rabs (sin xi) <= 1) by (apply Rabs_le; lra). pose proof (Rabs_pos (a - b)). nra.
Qed.
Lemma sin_lipschitz a b : Rabs (sin a - sin b) <= Rabs (a - b).
Proof. rewrite <- (Rtrigo1.cos_shift a), <- (Rtrigo1.cos_shift b). replace (a - b) with (- ((PI / 2 - a) - (PI / 2 - b))) by ring. rewrite Rabs_Ropp. apply cos_lipschitz. Qed.

(** One step of a coordinate. *)
Lemma one_move component v w phi x0 X dt : (component = cos \/ component = sin) -> moves component v w phi x0 X -> 0 <= dt ->
  Rabs (X dt - (x0 + v * dt * component phi)) <= Rabs (v * w) * (dt * dt) / 2.
Proof.
  intros HC [X0 XD] H.
  set (g := fun t => X t - (x0 + v * t * component phi)).
  apply (bounded_slope (Rabs (v * w)) g dt H (Rabs_pos _)); [unfold g; rewrite X0; ring|].
  intros t Ht. exists (v * component (phi + w * t) - v * component phi). split.
  - unfold g. apply (is_derive_ext (fun t => Hierarchy.minus (X t) (x0 + v * t * component phi))); [reflexivity|].
    apply (is_derive_minus X (fun t => x0 + v * t * component phi)); [apply XD|]. auto_derive; [exact I|]. ring.
  - replace (v * component (phi + w * t) - v * component phi) with (v * (component (phi + w * t) - component phi)) by ring.
    rewrite !Rabs_mult, Rmult_assoc. apply Rmult_le_compat_l; [apply Rabs_pos|].
    rewrite <- (Rabs_right t) at 2 by lra. rewrite <- Rabs_mult. replace (w * t) with (phi + w * t - phi) at 2 by ring. destruct HC as [->| ->]; [apply cos_lipschitz|apply sin_lipschitz].
Qed.
Lemma moves_later component v w phi x0 X dt : moves component v w phi x0 X -> moves component v w (phi + w * dt) (X dt) (fun t => X (dt + t)).
Proof.
  intros [X0 XD]. split; [f_equal; ring|]. intros t. replace (phi + w * dt + w * t) with (phi + w * (dt + t)) by ring.
  replace (v * component (phi + w * (dt + t))) with (scal 1 (v * component (phi + w * (dt + t)))) by (unfold scal; cbn; unfold mult; cbn; ring).
  apply (is_derive_comp X (fun t => dt + t)); [apply XD|]. auto_derive; [exact I|]. ring.
Qed.

(** The sum of the intervals. *)
Definition duration (dts : list R) : R := fold_right Rplus 0 dts.
Lemma coast blocks noise dts : forall s s', in_turn (fun dt => predicts blocks dt noise) dts s s' ->
  fst s' 3%nat = fst s 3%nat /\ fst s' 4%nat = fst s 4%nat /\ fst s' 5%nat = fst s 5%nat /\
  same_heading (fst s' 2%nat) (fst s 2%nat + fst s 5%nat * duration dts).
Proof.
  induction dts as [|dt dts IH]; intros s s' T; inversion T as [|m l a b c P R]; subst.
  - repeat split. cbn. replace (fst s' 2%nat + fst s' 5%nat * 0) with (fst s' 2%nat) by ring. apply heading_refl.
  - destruct P as (P1 & P2 & _). destruct (IH _ _ R) as (I3 & I4 & I5 & IHd).
    assert (Q3 := P1 3%nat ltac:(lia) ltac:(lia)). assert (Q4 := P1 4%nat ltac:(lia) ltac:(lia)). assert (Q5 := P1 5%nat ltac:(lia) ltac:(lia)). cbn in Q3, Q4, Q5, P2.
    split; [congruence|]. split; [congruence|]. split; [congruence|].
    eapply heading_trans; [exact IHd|]. rewrite Q5. cbn [duration fold_right]. fold (duration dts).
    replace (fst s 2%nat + fst s 5%nat * (dt + duration dts)) with (fst s 2%nat + fst s 5%nat * dt + fst s 5%nat * duration dts) by ring.
    apply heading_plus. apply heading_sym. exact P2.
Qed.
Lemma coast_position blocks noise component i g : (component = cos /\ i = 0%nat) \/ (component = sin /\ i = 1%nat) -> 0 <= g ->
  forall dts s s' phi x0 X e, in_turn (fun dt => predicts blocks dt noise) dts s s' -> Forall (fun d => 0 <= d <= g) dts ->
  same_heading (fst s 2%nat + fst s 3%nat) phi -> moves component (fst s 4%nat) (fst s 5%nat) phi x0 X -> Rabs (fst s i - x0) <= e ->
  Rabs (fst s' i - X (duration dts)) <= e + Rabs (fst s 4%nat * fst s 5%nat) * g * duration dts / 2.
Proof.
  intros HC Hg. induction dts as [|dt dts IH]; intros s s' phi x0 X e T F HD M E; inversion T as [|m l a b c P R]; subst.
  - cbn. destruct M as [X0 _]. rewrite X0. lra.
  - inversion F as [|? ? [F1 F2] FR]; subst. destruct P as (P1 & P2 & _).
    assert (Q3 := P1 3%nat ltac:(lia) ltac:(lia)). assert (Q4 := P1 4%nat ltac:(lia) ltac:(lia)). assert (Q5 := P1 5%nat ltac:(lia) ltac:(lia)). cbn in Q3, Q4, Q5, P2.
    assert (QI : fst b i = fst s i + fst s 4%nat * dt * component phi).
    { destruct HC as [[-> ->]|[-> ->]]; [rewrite (P1 0%nat) by lia; cbn; rewrite (same_cos _ _ HD); reflexivity|rewrite (P1 1%nat) by lia; cbn; rewrite (same_sin _ _ HD); reflexivity]. }
    set (v := fst s 4%nat) in *. set (w := fst s 5%nat) in *.
    assert (O := one_move component v w phi x0 X dt ltac:(destruct HC as [[-> _]|[-> _]]; auto) M F1).
    assert (IH' := IH b s' (phi + w * dt) (X dt) (fun t => X (dt + t)) (e + Rabs (v * w) * (dt * dt) / 2) R FR).
    rewrite Q4, Q5, Q3 in IH'.
    cbn [duration fold_right]. fold (duration dts).
    assert (A0 := Rabs_pos (v * w)).
    eapply Rle_trans; [apply IH'|].
    + replace (fst b 2%nat + fst s 3%nat) with (fst b 2%nat + fst s 3%nat) by ring. apply heading_trans with (fst s 2%nat + w * dt + fst s 3%nat).
      * apply heading_plus. apply heading_sym. exact P2.
      * replace (fst s 2%nat + w * dt + fst s 3%nat) with (fst s 2%nat + fst s 3%nat + w * dt) by ring. apply heading_plus. exact HD.
    + exact (moves_later _ _ _ _ _ _ dt M).
    + rewrite QI. replace (fst s i + v * dt * component phi - X dt) with ((fst s i - x0) - (X dt - (x0 + v * dt * component phi))) by ring.
      eapply Rle_trans; [apply Rabs_triang|]. rewrite Rabs_Ropp. lra.
    + assert (dt * dt <= g * dt) by nra. nra.
Qed.

Section Ticks.
Variable inverse : nat -> (nat -> nat -> R) -> option (nat -> nat -> R).
Hypothesis Hinv : inverts inverse.
Variable junk : nat -> nat -> R.
Variable Orient : Type.
Variable get_yaw get_roll get_pitch : Orient -> R.
Variable prm : params exact.
Hypothesis Hprm : sound_params prm.
Notation K := (ekf_kalman exact inverse junk).
Notation step := (node_step exact roundf_exact sin cos atan2 Ropp Orient get_yaw get_roll get_pitch K prm).
Notation run := (node_run exact roundf_exact sin cos atan2 Ropp Orient get_yaw get_roll get_pitch K prm).
Notation tick := (timer_callback exact roundf_exact sin cos atan2 Ropp Orient get_yaw K prm).

Lemma interval_tick last t1 : (forall l, last = Some l -> l < in_seconds t1) ->
  exists dt, interval_compute exact (default_frequency _ prm) last (seconds exact t1) = (Ok dt, Some (in_seconds t1)) /\ interval_is prm last t1 dt /\ 0 < dt.
Proof.
  destruct last as [l|]; intros H.
  - specialize (H l eq_refl). exists (Rmin (in_seconds t1 - l) 10). split; [apply C65_is_elapsed_time; exact H|]. split; [reflexivity|].
    apply Rmin_glb_lt; lra.
  - exists (/ Rmax (default_frequency _ prm) (1 / 10)). split.
    + unfold interval_compute, compute_interval, d_max, tenth. cbn [d_div d_of_Z exact d_ltb D]. f_equal. f_equal.
      unfold Rdiv at 1. rewrite Rmult_1_l. f_equal. destruct (Rltb (default_frequency exact prm) (1 / 10)) eqn:E.
      * apply Rltb_spec in E. rewrite Rmax_right; lra.
      * rewrite Rmax_left; [reflexivity|]. destruct (Rle_or_lt (1 / 10) (default_frequency exact prm)) as [L|L]; [exact L|]. apply Rltb_spec in L. congruence.
    + split; [reflexivity|]. apply Rinv_0_lt_compat. pose proof (Rmax_r (default_frequency exact prm) (1 / 10)). lra.
Qed.

Notation ok := (sane (blocks prm)).
Lemma blocks_Z : extend_state_step _ prm = Z.of_nat (blocks prm). Proof. destruct Hprm as [H _]. unfold blocks. lia. Qed.

Lemma tick_does (n : node exact Orient K) t1 t2 t3 t4 t5 (n' : node exact Orient K) (f : tdkf exact) : n_ekf _ _ _ n = Some f -> ok f -> wf (n_pose _ _ _ n) -> wf (n_twist _ _ _ n) ->
  Forall (sound_pose Orient) (msgs (n_pose _ _ _ n)) -> Forall sound_twist (msgs (n_twist _ _ _ n)) ->
  (forall l, n_last _ _ _ n = Some l -> l < in_seconds t1) -> tick n t1 t2 t3 t4 t5 = Ok n' ->
  exists f' published, n_ekf _ _ _ n' = Some f' /\ ok f' /\ wf (n_pose _ _ _ n') /\ wf (n_twist _ _ _ n') /\
    Forall (sound_pose Orient) (msgs (n_pose _ _ _ n')) /\ Forall sound_twist (msgs (n_twist _ _ _ n')) /\
    n_last _ _ _ n' = Some (in_seconds t1) /\ (n_z _ _ _ n' = n_z _ _ _ n /\ n_roll _ _ _ n' = n_roll _ _ _ n /\ n_pitch _ _ _ n' = n_pitch _ _ _ n) /\ n_out _ _ _ n' = n_out _ _ _ n ++ published /\
    tick_effect Orient get_yaw prm (n_last _ _ _ n) (msgs (n_pose _ _ _ n)) (msgs (n_twist _ _ _ n))
      (f_x _ (n_z _ _ _ n)) (f_x _ (n_roll _ _ _ n)) (f_x _ (n_pitch _ _ _ n)) t1 t2 t3 t4 t5 (est f) (est f') published.
Proof.
  intros EF SF W1 W2 G1 G2 HL. unfold timer_callback. rewrite EF. destruct (interval_tick _ _ HL) as (dt & -> & I1 & I2).
  cbn [kf_predict ekf_kalman bind kf_latest_x].
  change (td_predict exact junk f (to_vector exact (predict_next_state exact sin cos atan2 (of_vector exact (td_latest_x exact f)) dt))
    (create_state_transition_matrix exact sin cos Ropp (of_vector exact (td_latest_x exact f)) dt) (process_noise exact prm dt)) with (prediction junk f dt (noise prm)).
  destruct (prediction_predicts junk (blocks prm) f dt (noise prm) SF) as [PP SP]. set (f1 := prediction junk f dt (noise prm)) in *.
  destruct Hprm as (_ & HS1 & HS2).
  destruct (pose_update _ _ _ _ _ _ _ _ _ _ _ _ _) as [[pq f2]| | | | |] eqn:EP; try discriminate. cbn [bind].
  destruct (twist_update _ _ _ _ _ _ _ _) as [[tq f3]| | | | |] eqn:ET; try discriminate. cbn [bind]. cbv zeta. intros H. injection H as <-.
  unfold pose_update in EP. unfold twist_update in ET.
  set (pstep := fun m a b => exists yaw, yaw_of Orient get_yaw m yaw /\
        treats 3 (blocks prm) (pose_smoothing_steps _ prm) (pose_gate_dist _ prm) t2 dt (pose_as Orient m yaw) a b).
  assert (HP : forall s m s', ok s -> sound_pose Orient m -> pose_body exact roundf_exact sin cos atan2 Orient get_yaw K (pose_params exact prm) t2 dt s m = Ok s' -> pstep m (est s) (est s') /\ ok s').
  { intros s m s' Os [L36 PD] B. set (yaw := norm_yaw (get_yaw (p_orient _ _ m))). destruct (norm_yaw_spec (get_yaw (p_orient _ _ m))) as [Y1 Y2].
    destruct (pose_treated inverse Hinv junk Orient get_yaw (pose_params exact prm) t2 dt s m s' (blocks prm) yaw) as [T O']; auto.
    - apply blocks_Z.
    - apply noise_scaled; [apply HS1|exact PD].
    - split; [|exact O']. exists yaw. split; [split; assumption|exact T]. }
  set (tstep := fun m => treats 2 (blocks prm) (twist_smoothing_steps _ prm) (twist_gate_dist _ prm) t3 dt (twist_as m)).
  assert (HT : forall s m s', ok s -> sound_twist m -> twist_body exact roundf_exact K (twist_params exact prm) t3 dt s m = Ok s' -> tstep m (est s) (est s') /\ ok s').
  { intros s m s' Os [L36 PD] B.
    eapply (twist_treated inverse Hinv junk (twist_params exact prm) t3 dt s m s' (blocks prm)); auto.
    - apply blocks_Z.
    - apply noise_scaled; [apply HS2|exact PD]. }
  destruct (loop_in_turn (sound_pose Orient) ok est pstep _ _ _ _ _ _ HP W1 G1 SP EP) as (S2 & W1' & G1' & kp & Hkp & TP).
  destruct (loop_in_turn sound_twist ok est tstep _ _ _ _ _ _ HT W2 G2 S2 ET) as (S3 & W2' & G2' & kt & Hkt & TT).
  exists f3. eexists. split; [reflexivity|]. split; [exact S3|]. split; [exact W1'|]. split; [exact W2'|]. split; [exact G1'|]. split; [exact G2'|].
  split; [reflexivity|]. split; [repeat split|]. split; [reflexivity|].
  exists dt, (est f1), (est f2), kp, kt. split; [exact I1|]. split; [exact I2|]. split; [exact PP|]. split; [exact Hkp|]. split; [exact TP|].
  split; [exact Hkt|]. split; [exact TT|]. reflexivity.
Qed.

(** The covariances of an odometry message. *)
Definition published_psd (o : output exact) : Prop :=
  match o with
  | OutTransform _ _ _ => True
  | OutOdometry _ _ _ pc _ _ tc => positive_semidefinite 6 (square pc) /\ positive_semidefinite 6 (square tc)
  end.
Definition inv (h : list (event exact Orient)) (n : node exact Orient K) : Prop :=
  (forall f, n_ekf _ _ _ n = Some f -> ok f) /\ wf (n_pose _ _ _ n) /\ wf (n_twist _ _ _ n) /\
  Forall (sound_pose Orient) (msgs (n_pose _ _ _ n)) /\ Forall sound_twist (msgs (n_twist _ _ _ n)) /\
  (forall l, n_last _ _ _ n = Some l -> exists t, In t (readings Orient h) /\ l = in_seconds t) /\ Forall published_psd (n_out _ _ _ n).

Lemma start_sane (n : node exact Orient K) m tf (n' : node exact Orient K) : sound_pose Orient m -> callback_initial_pose exact Orient get_yaw get_roll get_pitch K prm n m tf = Ok n' ->
  exists f, n_ekf _ _ _ n' = Some f /\ ok f.
Proof.
  intros [L36 [_ V]]. unfold callback_initial_pose. destruct (erase_begin_slash (pose_frame_id _ prm)); try discriminate. cbn [bind].
  destruct (erase_begin_slash (p_frame _ _ m)); try discriminate. cbn [bind]. destruct tf as [tr|]; [|discriminate]. cbv zeta.
  destruct (init_covariance _ _) as [P| | | | |] eqn:EC; try discriminate. cbn [bind].
  destruct (kf_new _ _ _ _ _) as [f| | | | |] eqn:EF; try discriminate. cbn [bind].
  destruct (update_simple_filters _ _ _ _ _ _ _) as [n2| | | | |] eqn:EU; try discriminate. cbn [bind]. intros H. injection H as <-.
  apply update_simple_frame in EU. destruct EU as [E1 _]. cbn. rewrite E1. cbn. exists f. split; [reflexivity|].
  cbn in EF. unfold td_new in EF. destruct (0 <? extend_state_step _ prm)%Z eqn:E0; [|discriminate]. injection EF as <-. apply Z.ltb_lt in E0.
  unfold sane. cbn [td_max td_dim td_P]. split; [unfold blocks; lia|]. split; [unfold blocks; lia|]. split; [reflexivity|].
  apply init_p_psd. unfold init_covariance in EC.
  destruct (vat (p_cov _ _ m) 0) as [c0| | | | |] eqn:V0; try discriminate. destruct (vat (p_cov _ _ m) 7) as [c1| | | | |] eqn:V1; try discriminate.
  destruct (vat (p_cov _ _ m) 35) as [c2| | | | |] eqn:V2; try discriminate. cbn [bind] in EC. injection EC as <-.
  apply vat_nth in V0, V1, V2. change (Z.to_nat 0) with 0%nat in V0. change (Z.to_nat 7) with 7%nat in V1. change (Z.to_nat 35) with 35%nat in V2.
  apply diagonal_psd.
  assert (DD : forall k, (k < 3)%nat -> 0 < variance_along 3 (noise_of (pose_as Orient m 0) 1) (fun i => if Nat.eqb i k then 1 else 0)).
  { intros k Hk. apply V. exists k. split; [exact Hk|]. rewrite Nat.eqb_refl. lra. }
  assert (D0 := DD 0%nat ltac:(lia)). assert (D1 := DD 1%nat ltac:(lia)). assert (D2 := DD 2%nat ltac:(lia)).
  unfold variance_along, noise_of, pose_as in D0, D1, D2. cbn [total Nat.eqb slots array nth Nat.mul Nat.add] in D0, D1, D2.
  rewrite <- V0 in D0. rewrite <- V1 in D1. rewrite <- V2 in D2. change (D exact) with R in *.
  assert (0 <= c0) by (clear - D0; nra). assert (0 <= c1) by (clear - D1; nra). assert (0 <= c2) by (clear - D2; nra).
  intros i. unfold lit_0001, lit_01. cbn [d_div d_of_Z exact]. destruct i as [|[|[|[|[|[|i]]]]]]; cbn [nth]; try assumption; try lra. destruct i; lra.
Qed.

Lemma corner f : ok f -> positive_semidefinite 6 (td_P exact f).
Proof. intros (B & _ & _ & P). eapply corner_psd; [|exact P]. lia. Qed.

Lemma inv_step h n e n' : inv h n -> sound_event Orient e -> (forall t, In t (readings Orient [e]) -> ~ In t (readings Orient h)) -> step n e = Ok n' -> inv (h ++ [e]) n'.
Proof.
  intros I SE ND E. pose proof I as (I1 & I2 & I3 & I4 & I5 & I6 & I7).
  assert (RD : forall t, In t (readings Orient h) -> In t (readings Orient (h ++ [e]))) by (intros t H; unfold readings; rewrite flat_map_app; apply in_or_app; auto).
  assert (RL : forall l, n_last _ _ _ n = Some l -> exists t, In t (readings Orient (h ++ [e])) /\ l = in_seconds t).
  { intros l Hl. destruct (I6 l Hl) as (t & T1 & T2). exists t. split; [apply RD; exact T1|exact T2]. }
  destruct e as [t1 t2 t3 t4 t5|m tf|m|m]; cbn [node_step] in E.
  - destruct (n_ekf _ _ _ n) as [f|] eqn:EF.
    2: { rewrite tick_none in E by exact EF. injection E as <-. split; [intros f Hf; congruence|]. auto 10. }
    destruct (n_last _ _ _ n) as [l|] eqn:EL.
    + destruct (I6 l eq_refl) as (t & T1 & T2).
      assert (NE : l <> in_seconds t1).
      { intros X. rewrite T2 in X. unfold in_seconds in X. assert (Y : IZR t = IZR t1) by lra. apply eq_IZR in Y. subst t. apply (ND t1); [cbn; auto|exact T1]. }
      destruct (Rlt_or_le (in_seconds t1) l) as [LT|GE].
      * assert (B : step n (EvTimer _ _ t1 t2 t3 t4 t5) = Ok n) by (eapply C71_backwards_unchanged; [exact EL|apply Rltb_spec; exact LT]).
        cbn [node_step] in B. rewrite B in E. injection E as <-. split; [intros g Hg; apply I1; congruence|]. rewrite EL. auto 10.
      * destruct (tick_does n t1 t2 t3 t4 t5 n' f EF (I1 f eq_refl) I2 I3 I4 I5 ltac:(intros l0 Hl0; rewrite EL in Hl0; injection Hl0 as <-; lra) E)
          as (f' & pub & Q1 & Q2 & Q3 & Q4 & Q5 & Q6 & Q7 & _ & Q8 & Q9).
        split; [intros g Hg; congruence|]. repeat (split; [assumption|]). split.
        { intros l0 Hl0. rewrite Q7 in Hl0. injection Hl0 as <-. exists t1. split; [unfold readings; rewrite flat_map_app; apply in_or_app; right; cbn; auto|reflexivity]. }
        rewrite Q8. apply Forall_app. split; [exact I7|]. destruct Q9 as (dt & s1 & s2 & kp & kt & _ & _ & _ & _ & _ & _ & _ & ->).
        constructor; [exact Logic.I|]. constructor; [|constructor]. cbn [published_psd est snd]. split; [apply placed_pose_psd|apply placed_twist_psd]; apply corner; exact Q2.
    + destruct (tick_does n t1 t2 t3 t4 t5 n' f EF (I1 f eq_refl) I2 I3 I4 I5 ltac:(intros l0 Hl0; congruence) E)
          as (f' & pub & Q1 & Q2 & Q3 & Q4 & Q5 & Q6 & Q7 & _ & Q8 & Q9).
      split; [intros g Hg; congruence|]. repeat (split; [assumption|]). split.
      { intros l0 Hl0. rewrite Q7 in Hl0. injection Hl0 as <-. exists t1. split; [unfold readings; rewrite flat_map_app; apply in_or_app; right; cbn; auto|reflexivity]. }
      rewrite Q8. apply Forall_app. split; [exact I7|]. destruct Q9 as (dt & s1 & s2 & kp & kt & _ & _ & _ & _ & _ & _ & _ & ->).
      constructor; [exact Logic.I|]. constructor; [|constructor]. cbn [published_psd est snd]. split; [apply placed_pose_psd|apply placed_twist_psd]; apply corner; exact Q2.
  - destruct (start_sane n m tf n' SE E) as (f & F1 & F2). apply initial_clears in E. unfold inv. destruct E as (_ & -> & -> & -> & ->).
    split; [intros g Hg; congruence|]. split; [reflexivity|]. split; [reflexivity|]. split; [constructor|]. split; [constructor|]. split; [exact RL|exact I7].
  - unfold inv. destruct (pose_frame exact Orient get_roll get_pitch K n m n' E) as (-> & -> & -> & -> & ->).
    split; [exact I1|]. split; [apply push_wf; exact I2|]. split; [exact I3|]. split; [cbn; apply Forall_app; split; [exact I4|constructor; [exact SE|constructor]]|].
    split; [exact I5|]. split; [exact RL|exact I7].
  - injection E as <-. cbn. split; [exact I1|]. split; [exact I2|]. split; [apply push_wf; exact I3|]. split; [exact I4|].
    split; [apply Forall_app; split; [exact I5|constructor; [exact SE|constructor]]|]. split; [exact RL|exact I7].
Qed.
Lemma inv_run h n : sound_history Orient h -> run h = Ok n -> inv h n.
Proof.
  revert n. induction h as [|e h IH] using rev_ind; intros n [SH ND] E.
  - injection E as <-. split; [intros f Hf; discriminate|]. split; [reflexivity|]. split; [reflexivity|]. split; [constructor|]. split; [constructor|]. split; [intros l Hl; discriminate|constructor].
  - unfold node_run in E. rewrite foldM_app in E. destruct (foldM step (node_new exact Orient K) h) as [n0| | | | |] eqn:E0; try discriminate. cbn [bind foldM] in E.
    destruct (step n0 e) as [n1| | | | |] eqn:ES; try discriminate. cbn [bind] in E. injection E as <-.
    apply Forall_app in SH. destruct SH as [SH Se]. inversion Se as [|? ? SE _]; subst. unfold readings in ND. rewrite flat_map_app in ND.
    eapply inv_step; [apply IH; [split; [exact SH|]|exact E0]|exact SE| |exact ES].
    + clear - ND. unfold readings. induction (flat_map _ h) as [|a l IHl]; [constructor|]. cbn in ND. inversion ND; subst. constructor; [intros H; apply H1; apply in_or_app; auto|auto].
    + intros t Ht Hh. clear - ND Ht Hh. unfold readings in *. revert ND Hh. generalize (flat_map (fun e0 => match e0 with EvTimer t1 _ _ _ _ => [t1] | _ => [] end) h). intros l.
      induction l as [|a l IHl]; intros ND Hh; [contradiction|]. cbn in ND. inversion ND; subst. destruct Hh as [->|Hh]; [apply H1; apply in_or_app; auto|auto].
Qed.

(** ** Ticks without measurements *)
Lemma idle_tick (n : node exact Orient K) t1 t2 t3 t4 t5 (f : tdkf exact) : n_ekf _ _ _ n = Some f -> ok f -> wf (n_pose _ _ _ n) -> wf (n_twist _ _ _ n) ->
  msgs (n_pose _ _ _ n) = [] -> msgs (n_twist _ _ _ n) = [] -> (forall l, n_last _ _ _ n = Some l -> l < in_seconds t1) ->
  exists n' f' dt, tick n t1 t2 t3 t4 t5 = Ok n' /\ n_ekf _ _ _ n' = Some f' /\ ok f' /\ wf (n_pose _ _ _ n') /\ wf (n_twist _ _ _ n') /\
    msgs (n_pose _ _ _ n') = [] /\ msgs (n_twist _ _ _ n') = [] /\ n_last _ _ _ n' = Some (in_seconds t1) /\
    interval_is prm (n_last _ _ _ n) t1 dt /\ 0 < dt /\ predicts (blocks prm) dt (noise prm) (est f) (est f') /\
    exists pc tc, let p := [fst (est f') 0%nat; fst (est f') 1%nat; f_x _ (n_z _ _ _ n); f_x _ (n_roll _ _ _ n); f_x _ (n_pitch _ _ _ n); fst (est f') 2%nat + fst (est f') 3%nat] in
      n_out _ _ _ n' = n_out _ _ _ n ++ [OutTransform exact t4 (pose_frame_id _ prm) p; OutOdometry exact t5 (pose_frame_id _ prm) p pc (fst (est f') 4%nat) (fst (est f') 5%nat) tc].
Proof.
  intros EF SF W1 W2 M1 M2 HL.
  assert (EX : exists n', tick n t1 t2 t3 t4 t5 = Ok n' /\ msgs (n_pose _ _ _ n') = [] /\ msgs (n_twist _ _ _ n') = []).
  { unfold timer_callback. rewrite EF. destruct (interval_tick _ _ HL) as (dt & -> & _). cbn [kf_predict ekf_kalman bind].
    unfold pose_update, twist_update. rewrite M1, M2. cbn [List.length update_loop].
    assert (Q1 : q_size (n_pose _ _ _ n) = 0%Z) by (unfold q_size; rewrite M1; reflexivity). assert (Q2 : q_size (n_twist _ _ _ n) = 0%Z) by (unfold q_size; rewrite M2; reflexivity).
    rewrite Q1, Q2. cbn [Z.ltb Z.compare bind]. eexists. split; [reflexivity|]. split; assumption. }
  destruct EX as (n' & E & M1' & M2').
  destruct (tick_does n t1 t2 t3 t4 t5 n' f EF SF W1 W2 ltac:(rewrite M1; constructor) ltac:(rewrite M2; constructor) HL E) as (f' & pub & Q1 & Q2 & Q3 & Q4 & Q5 & Q6 & Q7 & _ & Q8 & Q9).
  destruct Q9 as (dt & s1 & s2 & kp & kt & I1 & I2 & PP & _ & TP & _ & TT & EO). rewrite M1, firstn_nil in TP. rewrite M2, firstn_nil in TT.
  inversion TP; subst. inversion TT; subst. exists n', f', dt. repeat (split; [assumption|]). rewrite Q8. cbv zeta in EO. rewrite EO. do 2 eexists. reflexivity.
Qed.
Lemma idle_ticks (ts : list five) : forall (n : node exact Orient K) l g f, n_ekf _ _ _ n = Some f -> ok f -> wf (n_pose _ _ _ n) -> wf (n_twist _ _ _ n) ->
  msgs (n_pose _ _ _ n) = [] -> msgs (n_twist _ _ _ n) = [] -> n_last _ _ _ n = Some l -> g <= 10 -> steady g l ts ->
  exists n' f' dts, foldM step n (map (tick_of Orient) ts) = Ok n' /\ n_ekf _ _ _ n' = Some f' /\
    in_turn (fun dt => predicts (blocks prm) dt (noise prm)) dts (est f) (est f') /\ Forall (fun d => 0 <= d <= g) dts /\
    duration dts = last (map reading ts) l - l /\
    (ts <> [] -> last_odometry (n_out _ _ _ n') (fst (est f') 0%nat) (fst (est f') 1%nat) (fst (est f') 2%nat + fst (est f') 3%nat) (fst (est f') 4%nat) (fst (est f') 5%nat)).
Proof.
  induction ts as [|[[[[t1 t2] t3] t4] t5] ts IH]; intros n l g f EF SF W1 W2 M1 M2 EL Hg ST.
  - exists n, f, []. split; [reflexivity|]. split; [exact EF|]. split; [constructor|]. split; [constructor|]. split; [cbn; ring|congruence].
  - cbn [steady reading] in ST. destruct ST as [[S1 S2] S3].
    destruct (idle_tick n t1 t2 t3 t4 t5 f EF SF W1 W2 M1 M2) as (n1 & f1 & dt & E & Q1 & Q2 & Q3 & Q4 & Q5 & Q6 & Q7 & I1 & I2 & PP & pc & tc & OUT).
    { intros l0 Hl0. rewrite EL in Hl0. injection Hl0 as <-. exact S1. }
    rewrite EL in I1. cbn in I1. rewrite Rmin_left in I1 by lra.
    destruct (IH n1 (in_seconds t1) g f1 Q1 Q2 Q3 Q4 Q5 Q6 Q7 Hg S3) as (n' & f' & dts & E' & EF' & T & F & DU & LO).
    exists n', f', (dt :: dts). cbn [map foldM tick_of node_step]. rewrite E. cbn [bind]. split; [exact E'|]. split; [exact EF'|].
    split; [econstructor; eassumption|]. split; [constructor; [lra|exact F]|]. split.
    + cbn [duration fold_right]. fold (duration dts). rewrite DU, I1. cbn [map reading]. destruct ts as [|t ts]; [cbn; ring|].
      assert (LL : forall d d', last (map reading (t :: ts)) d = last (map reading (t :: ts)) d').
      { clear. intros d d'. generalize dependent t. induction ts as [|u ts IHt]; intros t; [reflexivity|]. cbn [map last] in *. apply IHt. }
      rewrite (LL (in_seconds t1) l). cbn [map last]. destruct (map reading (t :: ts)) eqn:EM; [discriminate|]. ring.
    + intros _. destruct ts as [|t ts]; [|apply LO; discriminate]. cbn in E'. injection E' as <-. rewrite Q1 in EF'. injection EF' as <-.
      cbv zeta in OUT. match type of OUT with _ = _ ++ [?a; _] => exists (n_out _ _ _ n ++ [a]) end. do 7 eexists. rewrite OUT, <- app_assoc. reflexivity.
Qed.
Lemma resting_ticks (ts : list five) : forall (n : node exact Orient K) (f : tdkf exact) yaw, n_ekf _ _ _ n = Some f -> ok f -> wf (n_pose _ _ _ n) -> wf (n_twist _ _ _ n) ->
  msgs (n_pose _ _ _ n) = [] -> msgs (n_twist _ _ _ n) = [] -> advancing (n_last _ _ _ n) ts ->
  fst (est f) 3%nat = 0 -> fst (est f) 4%nat = 0 -> fst (est f) 5%nat = 0 -> same_heading (fst (est f) 2%nat) yaw ->
  exists n' published, foldM step n (map (tick_of Orient) ts) = Ok n' /\ n_out _ _ _ n' = n_out _ _ _ n ++ published /\ List.length published = (2 * List.length ts)%nat /\
    Forall (reports_rest (fst (est f) 0%nat) (fst (est f) 1%nat) yaw) published.
Proof.
  induction ts as [|[[[[t1 t2] t3] t4] t5] ts IH]; intros n f yaw EF SF W1 W2 M1 M2 AD B0 V0 O0 HY.
  - exists n, []. split; [reflexivity|]. split; [now rewrite app_nil_r|]. split; [reflexivity|constructor].
  - cbn [advancing reading] in AD. destruct AD as [A1 A2].
    destruct (idle_tick n t1 t2 t3 t4 t5 f EF SF W1 W2 M1 M2 A1) as (n1 & f1 & dt & E & Q1 & Q2 & Q3 & Q4 & Q5 & Q6 & Q7 & I1 & I2 & PP & pc & tc & OUT). cbv zeta in OUT.
    destruct PP as (P1 & P2 & _).
    assert (X0 := P1 0%nat ltac:(lia) ltac:(lia)). assert (X1 := P1 1%nat ltac:(lia) ltac:(lia)). assert (X3 := P1 3%nat ltac:(lia) ltac:(lia)).
    assert (X4 := P1 4%nat ltac:(lia) ltac:(lia)). assert (X5 := P1 5%nat ltac:(lia) ltac:(lia)). cbn [motion] in X0, X1, X3, X4, X5, P2.
    rewrite V0 in X0, X1, X4. rewrite O0 in X5, P2. rewrite B0 in X3.
    assert (H1 : same_heading (fst (est f1) 2%nat) yaw).
    { apply heading_trans with (fst (est f) 2%nat); [|exact HY]. apply heading_sym. replace (fst (est f) 2%nat) with (fst (est f) 2%nat + 0 * dt) by ring. exact P2. }
    destruct (IH n1 f1 yaw Q1 Q2 Q3 Q4 Q5 Q6 ltac:(rewrite Q7; exact A2) X3 X4 X5 H1) as (n' & pub & E' & OUT' & L' & F').
    assert (Y0 : fst (est f1) 0%nat = fst (est f) 0%nat) by (rewrite X0; ring). assert (Y1 : fst (est f1) 1%nat = fst (est f) 1%nat) by (rewrite X1; ring).
    rewrite Y0, Y1 in F'.
    exists n'. eexists. cbn [map foldM tick_of node_step]. rewrite E. cbn [bind]. split; [exact E'|]. split; [rewrite OUT', OUT, <- app_assoc; reflexivity|].
    split; [cbn [app List.length]; rewrite L'; lia|]. cbn [app]. constructor; [|constructor; [|exact F']]; cbn [reports_rest nth]; rewrite ?X4, ?X5, X3, Y0, Y1, Rplus_0_r; auto.
Qed.
End Ticks.
