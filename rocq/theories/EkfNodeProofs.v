(** Proofs about the EKF localizer node as a state machine (C71). *)
From Coq Require Import String List ZArith Bool Lia Lra Reals.
From Flocq Require Import Core.
From Verif Require Import Base Arith AngleProofs EkfModel SpecEkf QueueProofs IntervalProofs Prop_Interval.
Import ListNotations.
Open Scope Z_scope.

Section Node.
Variable A : arith.
Variable roundf : D A -> option Z.
Variable sin cos : D A -> D A.
Variable atan2 : D A -> D A -> D A.
Variable neg : D A -> D A.
Variable Orient : Type.
Variable get_yaw get_roll get_pitch : Orient -> D A.
Variable K : kalman A.
Variable prm : params A.
Notation step := (node_step A roundf sin cos atan2 neg Orient get_yaw get_roll get_pitch K prm).
Notation run := (node_run A roundf sin cos atan2 neg Orient get_yaw get_roll get_pitch K prm).
Notation node := (node A Orient K).
Notation event := (event A Orient).
Notation tick := (timer_callback A roundf sin cos atan2 neg Orient get_yaw K prm).

Lemma update_simple_frame n m n' : update_simple_filters A Orient get_roll get_pitch K n m = Ok n' ->
  n_ekf _ _ _ n' = n_ekf _ _ _ n /\ n_last _ _ _ n' = n_last _ _ _ n /\ n_pose _ _ _ n' = n_pose _ _ _ n /\ n_twist _ _ _ n' = n_twist _ _ _ n /\ n_out _ _ _ n' = n_out _ _ _ n.
Proof.
  unfold update_simple_filters. do 3 (destruct (vat _ _); try discriminate; cbn [bind]). destruct (time_of _); try discriminate. cbn [bind].
  intros H. injection H as <-. cbn. repeat split.
Qed.
Lemma update_simple_ok n (m : pose_msg A Orient) : 0 <= p_stamp _ _ m -> length (p_cov _ _ m) = 36%nat -> exists n', update_simple_filters A Orient get_roll get_pitch K n m = Ok n'.
Proof.
  intros S L. unfold update_simple_filters, vat. cbn [Z.ltb Z.compare].
  destruct (nth_error (p_cov A Orient m) (Z.to_nat 14)) eqn:E1; [|apply nth_error_None in E1; rewrite L in E1; cbn in E1; lia].
  destruct (nth_error (p_cov A Orient m) (Z.to_nat 21)) eqn:E2; [|apply nth_error_None in E2; rewrite L in E2; cbn in E2; lia].
  destruct (nth_error (p_cov A Orient m) (Z.to_nat 28)) eqn:E3; [|apply nth_error_None in E3; rewrite L in E3; cbn in E3; lia].
  cbn [bind]. unfold time_of. replace (p_stamp A Orient m <? 0) with false by (symmetry; apply Z.ltb_ge; lia). cbn [bind]. eauto.
Qed.

(** What a tick publishes. *)
Definition published_pair (t4 t5 : Z) (out out' : list (output A)) : Prop :=
  exists pose pose_cov vx wz twist_cov,
    out' = out ++ [OutTransform A t4 (pose_frame_id _ prm) pose; OutOdometry A t5 (pose_frame_id _ prm) pose pose_cov vx wz twist_cov].

Lemma tick_none n t1 t2 t3 t4 t5 : n_ekf _ _ _ n = None -> tick n t1 t2 t3 t4 t5 = Ok n.
Proof. intros H. unfold timer_callback. rewrite H. reflexivity. Qed.
Lemma tick_some n t1 t2 t3 t4 t5 n' f : n_ekf _ _ _ n = Some f -> tick n t1 t2 t3 t4 t5 = Ok n' ->
  n_ekf _ _ _ n' <> None /\
  ((exists l, n_last _ _ _ n = Some l /\ d_ltb A (seconds A t1) l = true /\ n' = n) \/
   ((forall l, n_last _ _ _ n = Some l -> d_ltb A (seconds A t1) l = false) /\ n_last _ _ _ n' = Some (seconds A t1) /\ published_pair t4 t5 (n_out _ _ _ n) (n_out _ _ _ n'))).
Proof.
  intros E. unfold timer_callback. rewrite E. unfold interval_compute. destruct (n_last A Orient K n) as [l|] eqn:EL.
  - destruct (d_ltb A (seconds A t1) l) eqn:LT.
    + intros H. injection H as <-. split; [cbn; congruence|]. left. exists l. split; auto. split; auto. destruct n. cbn in *. congruence.
    + destruct (kf_predict _ _ _ _ _ _) as [f1| | | | |]; try discriminate. cbn [bind].
      destruct (pose_update _ _ _ _ _ _ _ _ _ _ _ _ _) as [[pq f2]| | | | |]; try discriminate. cbn [bind].
      destruct (twist_update _ _ _ _ _ _ _ _) as [[tq f3]| | | | |]; try discriminate. cbn [bind]. cbv zeta. intros H. injection H as <-. cbn. split; [discriminate|]. right.
      split; [congruence|]. split; auto. do 5 eexists. reflexivity.
  - destruct (kf_predict _ _ _ _ _ _) as [f1| | | | |]; try discriminate. cbn [bind].
    destruct (pose_update _ _ _ _ _ _ _ _ _ _ _ _ _) as [[pq f2]| | | | |]; try discriminate. cbn [bind].
    destruct (twist_update _ _ _ _ _ _ _ _) as [[tq f3]| | | | |]; try discriminate. cbn [bind]. cbv zeta. intros H. injection H as <-. cbn. split; [discriminate|]. right.
    split; [congruence|]. split; auto. do 5 eexists. reflexivity.
Qed.
Lemma initial_clears n m tf n' : callback_initial_pose A Orient get_yaw get_roll get_pitch K prm n m tf = Ok n' ->
  n_ekf _ _ _ n' <> None /\ n_pose _ _ _ n' = q_empty /\ n_twist _ _ _ n' = q_empty /\ n_last _ _ _ n' = n_last _ _ _ n /\ n_out _ _ _ n' = n_out _ _ _ n.
Proof.
  unfold callback_initial_pose. do 2 (destruct (erase_begin_slash _); try discriminate; cbn [bind]). destruct tf as [tr|]; [|discriminate]. cbv zeta.
  destruct (init_covariance _ _) as [P| | | | |]; try discriminate. cbn [bind]. destruct (kf_new _ _ _ _ _) as [f| | | | |]; try discriminate. cbn [bind].
  destruct (update_simple_filters _ _ _ _ _ _ _) as [n2| | | | |] eqn:E; try discriminate. cbn [bind]. apply update_simple_frame in E. cbn in E. destruct E as (E1 & E2 & E3 & E4 & E5).
  intros H. injection H as <-. cbn. rewrite E1, E2, E5. split; [discriminate|]. auto.
Qed.
Lemma pose_frame n m n' : callback_pose A Orient get_roll get_pitch K n m = Ok n' ->
  n_ekf _ _ _ n' = n_ekf _ _ _ n /\ n_last _ _ _ n' = n_last _ _ _ n /\ n_out _ _ _ n' = n_out _ _ _ n /\ n_pose _ _ _ n' = q_push (n_pose _ _ _ n) m /\ n_twist _ _ _ n' = n_twist _ _ _ n.
Proof. intros H. apply update_simple_frame in H. cbn in H. destruct H as (E1 & E2 & E3 & E4 & E5). auto. Qed.

(** The filter exists exactly after an initial pose. *)
Definition is_initial (e : event) : Prop := match e with EvInitialPose _ _ _ _ => True | _ => False end.
Lemma before_initial h : forall n, Forall (fun e => ~ is_initial e) h -> run h = Ok n -> n_ekf _ _ _ n = None /\ n_out _ _ _ n = [].
Proof.
  unfold node_run. induction h as [|e h IH] using rev_ind; intros n F E; [injection E as <-; auto|]. apply Forall_app in F. destruct F as [F1 F2]. inversion F2 as [|? ? Fe _]; subst.
  rewrite foldM_app in E. destruct (foldM step (node_new A Orient K) h) as [n0| | | | |] eqn:E0; try discriminate. cbn [bind foldM] in E.
  destruct (IH n0 F1 eq_refl) as [I1 I2]. destruct e as [t1 t2 t3 t4 t5|m tf|m|m]; cbn [node_step] in E.
  - rewrite tick_none in E by auto. cbn [bind] in E. injection E as <-. auto.
  - exfalso. apply Fe. exact I.
  - destruct (callback_pose _ _ _ _ _ _ _) as [n1| | | | |] eqn:EP; try discriminate. cbn [bind] in E. injection E as <-.
    destruct (pose_frame _ _ _ EP) as (E1 & E2 & E3 & _). rewrite E1, E3. auto.
  - cbn [bind] in E. injection E as <-. auto.
Qed.
Lemma after_initial h : forall n, Exists is_initial h -> run h = Ok n -> n_ekf _ _ _ n <> None.
Proof.
  unfold node_run. induction h as [|e h IH] using rev_ind; intros n F E; [inversion F|].
  rewrite foldM_app in E. destruct (foldM step (node_new A Orient K) h) as [n0| | | | |] eqn:E0; try discriminate. cbn [bind foldM] in E.
  apply Exists_app in F. destruct e as [t1 t2 t3 t4 t5|m tf|m|m]; cbn [node_step] in E.
  - destruct F as [F|F]; [|inversion F as [? ? X|? ? X]; subst; inversion X]. specialize (IH n0 F eq_refl).
    destruct (n_ekf A Orient K n0) as [f|] eqn:EF; [|congruence].
    destruct (tick n0 t1 t2 t3 t4 t5) as [n1| | | | |] eqn:ET; try discriminate. cbn [bind] in E. injection E as <-. eapply tick_some; eauto.
  - destruct (callback_initial_pose _ _ _ _ _ _ _ _ _ _) as [n1| | | | |] eqn:EI; try discriminate. cbn [bind] in E. injection E as <-. eapply initial_clears; eauto.
  - destruct F as [F|F]; [|inversion F as [? ? X|? ? X]; subst; inversion X]. specialize (IH n0 F eq_refl).
    destruct (callback_pose _ _ _ _ _ _ _) as [n1| | | | |] eqn:EP; try discriminate. cbn [bind] in E. injection E as <-.
    destruct (pose_frame _ _ _ EP) as (E1 & _). rewrite E1. auto.
  - destruct F as [F|F]; [|inversion F as [? ? X|? ? X]; subst; inversion X]. specialize (IH n0 F eq_refl). cbn [bind] in E. injection E as <-. auto.
Qed.
End Node.

(** * Definedness, in exact arithmetic *)
Section Defined.
Variable sin cos : R -> R.
Variable atan2 : R -> R -> R.
Variable Orient : Type.
Variable get_yaw get_roll get_pitch : Orient -> R.
Variable K : kalman exact.
Variable prm : params exact.
Notation step := (node_step exact roundf_exact sin cos atan2 Ropp Orient get_yaw get_roll get_pitch K prm).
Notation run := (node_run exact roundf_exact sin cos atan2 Ropp Orient get_yaw get_roll get_pitch K prm).

(** What is needed of the filter: on filters satisfying [valid] nothing is undefined for
    steps inside the buffer.  KalmanModel.v proves it of the time-delay filter. *)
Variable valid : Filter exact K -> Prop.
Definition inside (d : Z) : Prop := 0 <= d < extend_state_step _ prm.
Definition filter_defined : Prop :=
  (forall x P, exists f, kf_new _ K x P (extend_state_step _ prm) = Ok f /\ valid f) /\
  (forall f x M Q, valid f -> exists f', kf_predict _ K f x M Q = Ok f' /\ valid f') /\
  (forall f d, valid f -> inside d -> exists x, kf_get_x _ K f d = Ok x) /\
  (forall f y C R d, valid f -> inside d -> kf_update _ K f y C R d = ThrowInvalid \/ exists f', kf_update _ K f y C R d = Ok f' /\ valid f').
Hypothesis HK : filter_defined.
Hypothesis Hframe : pose_frame_id _ prm <> ""%string.

(** A span [lo, hi] of stamps and clock readings, and the least time g between ticks. *)
Variable lo hi g : Z.
Hypothesis Hlo : 0 <= lo.
Hypothesis Hg : 0 < g <= 10000000000.
Hypothesis Hspan : hi - lo <= 2 ^ 30 * g.
Hypothesis Hdf : (default_frequency _ prm <= 1000000000 / IZR g)%R.

Notation good_pose := (SpecEkf.good_pose Orient lo).
Notation good_twist := (SpecEkf.good_twist lo).
Notation calm := (SpecEkf.calm Orient lo hi g).

Lemma erase_ok s : s <> ""%string -> exists r, erase_begin_slash s = Ok r.
Proof. destruct s as [|c s]; [congruence|]. intros _. cbn. destruct (Ascii.eqb c _); eauto. Qed.

Lemma IZR_g : (0 < IZR g)%R. Proof. apply IZR_lt. lia. Qed.
(** The interval is at least g. *)
Lemma interval_calm last t1 : match last with Some l => exists l0, l = (IZR l0 / 1000000000)%R /\ l0 + g <= t1 | None => True end ->
  exists dt, interval_compute exact (default_frequency _ prm) last (seconds exact t1) = (Ok dt, Some (seconds exact t1)) /\ (IZR g / 1000000000 <= dt)%R.
Proof.
  pose proof IZR_g as PG. assert (G10 : (IZR g / 1000000000 <= 10)%R).
  { assert (IZR g <= 10000000000)%R by (apply IZR_le; lia). lra. }
  destruct last as [l|].
  - intros [l0 [-> L]]. unfold seconds. cbn [d_div d_of_Z exact].
    assert (B : (IZR l0 / 1000000000 + IZR g / 1000000000 <= IZR t1 / 1000000000)%R).
    { unfold Rdiv. rewrite <- Rmult_plus_distr_r, <- plus_IZR. apply Rmult_le_compat_r; [lra|]. apply IZR_le. lia. }
    rewrite C65_is_elapsed_time by lra. eexists. split; [reflexivity|]. apply Rmin_glb; lra.
  - intros _. eexists. split; [reflexivity|]. unfold compute_interval, d_max, tenth. cbn [d_div d_of_Z exact d_ltb D].
    destruct (Rltb (default_frequency exact prm) (1 / 10)) eqn:E; [lra|].
    apply rltb_false in E. unfold Rdiv at 2. rewrite Rmult_1_l.
    replace (IZR g / 1000000000)%R with (/ (1000000000 / IZR g))%R by (field; lra). apply Rinv_le; lra.
Qed.
Lemma step_calm dt now stamp : (IZR g / 1000000000 <= dt)%R -> now <= hi -> lo <= stamp ->
  exists d, compute_delay_step exact roundf_exact (compute_delay_time exact now stamp) dt = Ok d /\ 0 <= d.
Proof.
  intros HD H1 H2. pose proof IZR_g as PG. assert (PD : (0 < dt)%R) by lra.
  destruct (C66_defined_exact (compute_delay_time exact now stamp) dt PD) as [z E].
  - unfold compute_delay_time, seconds. cbn [d_div d_of_Z exact]. apply Rmult_le_reg_r with dt; [lra|].
    unfold Rdiv at 1. rewrite Rmult_assoc, Rinv_l, Rmult_1_r by lra.
    assert (B : (IZR (now - stamp) <= IZR (2 ^ 30) * IZR g)%R) by (rewrite <- mult_IZR; apply IZR_le; lia).
    apply Rle_trans with (IZR (2 ^ 30) * (IZR g / 1000000000))%R; [lra|].
    apply Rmult_le_compat; try lra; apply IZR_le; lia.
  - exists z. split; auto. apply C66_nearest_exact in E; [|auto]. lia.
Qed.

Lemma mapM_ok {B C} (f : B -> outcome C) l : (forall x, In x l -> exists y, f x = Ok y) -> exists r, mapM f l = Ok r.
Proof.
  induction l as [|x l IH]; intros H; cbn; [eauto|]. destruct (H x (or_introl eq_refl)) as [y ->]. cbn. destruct IH as [r ->]; [intros; apply H; right; auto|]. cbn. eauto.
Qed.
Lemma cov_ok idx (cov : list (D exact)) s : length cov = 36%nat -> Forall (fun i => 0 <= i < 6) idx -> exists R, covariance_at exact idx cov s = Ok R.
Proof.
  intros L F. rewrite Forall_forall in F. apply mapM_ok. intros i Hi. apply mapM_ok. intros j Hj. apply F in Hi, Hj. unfold vat.
  replace (6 * i + j <? 0) with false by (symmetry; apply Z.ltb_ge; lia).
  destruct (nth_error cov (Z.to_nat (6 * i + j))) eqn:E; [eexists; reflexivity|]. apply nth_error_None in E. lia.
Qed.
Lemma pose_body_ok p now dt f m : m_extend _ p = extend_state_step _ prm -> (IZR g / 1000000000 <= dt)%R -> now <= hi -> good_pose m -> valid f ->
  exists f', pose_body exact roundf_exact sin cos atan2 Orient get_yaw K p now dt f m = Ok f' /\ valid f'.
Proof.
  intros EP HD HN [GS GC] V. destruct HK as (K1 & K2 & K3 & K4). unfold pose_body, time_of. cbv zeta.
  replace (p_stamp exact Orient m <? 0) with false by (symmetry; apply Z.ltb_ge; lia). cbn [bind].
  destruct (step_calm dt now (p_stamp _ _ m) HD HN GS) as [d [-> D0]]. cbn [bind]. unfold check_delay_step. rewrite EP.
  destruct (Z.ltb_spec d (extend_state_step exact prm)) as [LT|GE]; cbn [negb]; [|eauto].
  destruct (all_finite _ _); cbn [negb]; [|eauto]. destruct (K3 f d V (conj D0 LT)) as [x ->]. cbn [bind].
  destruct (gate _ _ _ _ _ _); cbn [negb]; [|eauto].
  destruct (cov_ok [0; 1; 5] (p_cov _ _ m) (m_steps _ p) GC) as [R ER]; [repeat constructor; lia|]. unfold pose_measurement_covariance. rewrite ER. cbn [bind]. unfold try_update.
  destruct (K4 f (pose_measurement_vector exact sin cos atan2 Orient get_yaw m) (pose_measurement_matrix exact) R d V (conj D0 LT)) as [->|[f' [-> V']]]; eauto.
Qed.
Lemma twist_body_ok p now dt f m : m_extend _ p = extend_state_step _ prm -> (IZR g / 1000000000 <= dt)%R -> now <= hi -> good_twist m -> valid f ->
  exists f', twist_body exact roundf_exact K p now dt f m = Ok f' /\ valid f'.
Proof.
  intros EP HD HN [GS GC] V. destruct HK as (K1 & K2 & K3 & K4). unfold twist_body, time_of. cbv zeta.
  replace (t_stamp exact m <? 0) with false by (symmetry; apply Z.ltb_ge; lia). cbn [bind].
  destruct (step_calm dt now (t_stamp _ m) HD HN GS) as [d [-> D0]]. cbn [bind]. unfold check_delay_step. rewrite EP.
  destruct (Z.ltb_spec d (extend_state_step exact prm)) as [LT|GE]; cbn [negb]; [|eauto].
  destruct (all_finite _ _); cbn [negb]; [|eauto]. destruct (K3 f d V (conj D0 LT)) as [x ->]. cbn [bind].
  destruct (gate _ _ _ _ _ _); cbn [negb]; [|eauto].
  destruct (cov_ok [0; 5] (t_cov _ m) (m_steps _ p) GC) as [R ER]; [repeat constructor; lia|]. unfold twist_measurement_covariance. rewrite ER. cbn [bind]. unfold try_update.
  destruct (K4 f (twist_measurement_vector exact m) (twist_measurement_matrix exact) R d V (conj D0 LT)) as [->|[f' [-> V']]]; eauto.
Qed.

(** The loop over a queue of good messages. *)
Lemma loop_ok {Msg} (good : Msg -> Prop) (body : Filter exact K -> Msg -> outcome (Filter exact K)) max_age q f :
  wf q -> Forall good (msgs q) -> valid f -> (forall f m, valid f -> good m -> exists f', body f m = Ok f' /\ valid f') ->
  exists q' f', update_loop body max_age (length (msgs q)) 0 q f = Ok (q', f') /\ wf q' /\ Forall good (msgs q') /\ valid f'.
Proof.
  intros W G V HB.
  assert (GEN : forall fuel i q f, wf q -> Forall good (msgs q) -> valid f -> 0 <= i -> q_size q <= i + Z.of_nat fuel ->
    exists q' f', update_loop body max_age fuel i q f = Ok (q', f') /\ wf q' /\ Forall good (msgs q') /\ valid f').
  { clear q f W G V. induction fuel as [|k IH]; intros i q f W G V Hi HS; cbn [update_loop]; destruct (Z.ltb_spec i (q_size q)) as [LT|GE]; try lia; eauto 7.
    pose proof (pop_items max_age q W) as P. pose proof (items_msgs q W) as IM. pose proof (items_size q W) as IS. destruct (items q) as [|[m a] r] eqn:EI; [unfold zlen in IS; cbn in IS; lia|].
    destruct P as [q1 [P1 [W1 P2]]]. rewrite P1. cbn [bind]. rewrite <- IM in G. cbn [map fst] in G. inversion G as [|? ? Gm Gr]; subst.
    destruct (HB f m V Gm) as [f1 [-> V1]]. cbn [bind]. pose proof (items_msgs q1 W1) as IM1. pose proof (items_size q1 W1) as IS1. apply IH; auto; try lia.
    - rewrite <- IM1, P2. destruct (a + 1 <? max_age); auto. rewrite map_app. apply Forall_app. split; auto. constructor; auto.
    - rewrite IS1, P2. rewrite IS in HS. unfold zlen in *. cbn [length] in HS. destruct (a + 1 <? max_age); [rewrite app_length; cbn [length]|]; lia. }
  apply GEN; auto; [lia|]. unfold q_size, zlen. lia.
Qed.

Definition invariant (last : option Z) (n : node exact Orient K) : Prop :=
  (match n_ekf _ _ _ n with Some f => valid f | None => True end) /\
  (match n_last _ _ _ n with Some l => exists t l0, last = Some t /\ l = (IZR l0 / 1000000000)%R /\ l0 <= t | None => True end) /\
  wf (n_pose _ _ _ n) /\ wf (n_twist _ _ _ n) /\ Forall good_pose (msgs (n_pose _ _ _ n)) /\ Forall good_twist (msgs (n_twist _ _ _ n)).

Lemma push_wf {Msg} (q : queue Msg) m : wf q -> wf (q_push q m).
Proof. intros W. apply push_items. auto. Qed.
Lemma step_ok last n e h : invariant last n -> calm last (e :: h) ->
  exists n', step n e = Ok n' /\ invariant (match e with EvTimer _ _ t1 _ _ _ _ => Some t1 | _ => last end) n' /\
             calm (match e with EvTimer _ _ t1 _ _ _ _ => Some t1 | _ => last end) h.
Proof.
  intros (V & L & W1 & W2 & G1 & G2) C. pose proof HK as (K1 & K2 & K3 & K4). destruct e as [t1 t2 t3 t4 t5|m tf|m|m]; cbn [calm] in C; cbn [node_step].
  - destruct C as (C1 & C2 & C3 & C4). unfold timer_callback. destruct (n_ekf exact Orient K n) as [f0|] eqn:EF.
    + destruct (interval_calm (n_last exact Orient K n) t1) as [dt [-> HD]].
      { destruct (n_last exact Orient K n) as [l|]; auto. destruct L as [t [l0 [-> [-> L1]]]]. exists l0. split; auto. lia. }
      destruct (K2 f0 (predict_next_state exact sin cos atan2 (kf_latest_x exact K f0) dt) (create_state_transition_matrix exact sin cos Ropp (kf_latest_x exact K f0) dt) (process_noise exact prm dt) V) as [f1 [-> V1]]. cbn [bind].
      destruct (loop_ok good_pose (pose_body exact roundf_exact sin cos atan2 Orient get_yaw K (pose_params exact prm) t2 dt) (m_steps _ (pose_params exact prm)) (n_pose _ _ _ n) f1 W1 G1 V1) as (pq & f2 & E2 & W1' & G1' & V2).
      { intros f m Vf Gm. apply pose_body_ok; auto. }
      unfold pose_update. rewrite E2. cbn [bind].
      destruct (loop_ok good_twist (twist_body exact roundf_exact K (twist_params exact prm) t3 dt) (m_steps _ (twist_params exact prm)) (n_twist _ _ _ n) f2 W2 G2 V2) as (tq & f3 & E3 & W2' & G2' & V3).
      { intros f m Vf Gm. apply twist_body_ok; auto. }
      unfold twist_update. rewrite E3. cbn [bind]. eexists. split; [reflexivity|]. split; auto. unfold invariant. cbn. repeat (split; auto). exists t1, t1. repeat split; lia.
    + exists n. split; auto. split; auto. unfold invariant. rewrite EF. repeat (split; auto). destruct (n_last exact Orient K n) as [l|]; auto.
      destruct L as [t [l0 [-> [-> L1]]]]. exists t1, l0. repeat split. lia.
  - destruct C as (C1 & C2 & [C3 C3'] & C4). destruct tf as [tr|]; [|congruence]. unfold callback_initial_pose. destruct (erase_ok _ Hframe) as [r1 ->]. cbn [bind].
    destruct (erase_ok _ C2) as [r2 ->]. cbn [bind]. cbv zeta.
    assert (IC : exists P, init_covariance exact (p_cov _ _ m) = Ok P).
    { unfold init_covariance, vat. cbn [Z.ltb Z.compare].
      destruct (nth_error (p_cov exact Orient m) (Z.to_nat 0)) eqn:E1; [|apply nth_error_None in E1; rewrite C3' in E1; cbn in E1; lia].
      destruct (nth_error (p_cov exact Orient m) (Z.to_nat 7)) eqn:E2; [|apply nth_error_None in E2; rewrite C3' in E2; cbn in E2; lia].
      destruct (nth_error (p_cov exact Orient m) (Z.to_nat 35)) eqn:E3; [|apply nth_error_None in E3; rewrite C3' in E3; cbn in E3; lia]. cbn. eauto. }
    destruct IC as [P ->]. cbn [bind]. set (x0 := init_state _ _ _ _). destruct (K1 x0 P) as [f [-> Vf]]. cbn [bind].
    set (n1 := Node _ _ _ _ _ _ _ _ _ _ _). destruct (update_simple_ok exact Orient get_roll get_pitch K n1 m ltac:(lia) C3') as [n2 E2]. rewrite E2. cbn [bind].
    eexists. split; [reflexivity|]. split; auto. destruct (update_simple_frame _ _ _ _ _ _ _ _ E2) as (E3 & E4 & _). unfold invariant. cbn. rewrite E3, E4. cbn.
    repeat (split; auto); reflexivity.
  - destruct C as [[C1 C1'] C2]. unfold callback_pose. set (n1 := Node _ _ _ _ _ _ _ _ _ _ _).
    destruct (update_simple_ok exact Orient get_roll get_pitch K n1 m ltac:(lia) C1') as [n2 E2]. rewrite E2. eexists. split; [reflexivity|]. split; auto.
    destruct (update_simple_frame _ _ _ _ _ _ _ _ E2) as (E3 & E4 & E5 & E6 & _). unfold invariant. rewrite E3, E4, E5, E6. cbn [n1 n_ekf n_last n_pose n_twist].
    split; [auto|]. split; [auto|]. split; [apply push_wf; auto|]. split; [auto|]. split; [|auto]. cbn. apply Forall_app. split; auto. constructor; [split; auto|constructor].
  - destruct C as [C1 C2]. eexists. split; [reflexivity|]. split; auto. unfold invariant. cbn [n_ekf n_last n_pose n_twist]. split; [auto|]. split; [auto|]. split; [auto|]. split; [apply push_wf; auto|]. split; [auto|].
    cbn. apply Forall_app. split; auto.
Qed.
Lemma run_ok h : calm None h -> exists n, run h = Ok n.
Proof.
  intros C. unfold node_run. assert (I : invariant None (node_new exact Orient K)) by (unfold invariant; cbn; repeat (split; auto); reflexivity).
  revert C I. generalize (node_new exact Orient K). generalize (@None Z). induction h as [|e h IH]; intros last n C I; cbn [foldM]; [eauto|].
  destruct (step_ok last n e h I C) as [n' [-> [I' C']]]. cbn [bind]. eapply IH; eauto.
Qed.
End Defined.
