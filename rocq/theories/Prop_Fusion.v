(** Properties C88-C91: the update cycle of the EKF localizer, in exact arithmetic with the
    repository's time-delay filter.  The vocabulary is in SpecFusion.v and SpecCycle.v. *)
From Coq Require Import Reals Lra Lia PeanoNat List Bool ZArith String.
From Flocq Require Import Core IEEE754.BinarySingleNaN.
From Coquelicot Require Import Coquelicot.
From Verif Require Import Base Arith SpecReal AngleProofs EkfModel SpecEkf EkfProofs KalmanModel SpecKalman SpecFusion SpecCycle StackProofs KalmanProofs2 KalmanProofs3
  IntervalProofs QueueProofs Prop_Interval Prop_Queue EkfNodeProofs Prop_EkfNode Prop_Kalman Prop_Ekf Prop_EkfMore FusionProofs FusionNodeProofs.
Import ListNotations.
Local Open Scope R_scope.

Section Properties.
Variable inverse : nat -> (nat -> nat -> R) -> option (nat -> nat -> R).
Hypothesis Hinv : inverts inverse.
Variable junk : nat -> nat -> R.
Variable Orient : Type.
Variable get_yaw get_roll get_pitch : Orient -> R.
Variable prm : params exact.
Hypothesis Hprm : sound_params prm.
Notation K := (ekf_kalman exact inverse junk).
Notation step := (node_step exact roundf_exact sin cos atan2 Ropp Orient get_yaw get_roll get_pitch K prm).
Notation run := (node_run exact roundf_exact sin cos atan2 Ropp Orient get_yaw get_roll get_pitch K prm).

(** ** C88: dead reckoning *)
(** After any history, without waiting measurements: ticks at most g <= 10 seconds apart are
    accepted and the last published pose is that of a vehicle moving with the published
    speed and turn rate, up to |v w| g T / 2 in each coordinate after T seconds.  The
    heading is exact. *)
Theorem C88_dead_reckoning : forall h n f l g ts X Y,
  sound_history Orient h -> run h = Ok n -> n_ekf _ _ _ n = Some f -> n_last _ _ _ n = Some l ->
  msgs (n_pose _ _ _ n) = [] -> msgs (n_twist _ _ _ n) = [] -> 0 < g <= 10 -> steady g l ts -> ts <> [] ->
  let x := fst (est f) in let v := x 4%nat in let w := x 5%nat in
  moves cos v w (x 2%nat + x 3%nat) (x 0%nat) X -> moves sin v w (x 2%nat + x 3%nat) (x 1%nat) Y ->
  exists n' px py yaw, foldM step n (map (tick_of Orient) ts) = Ok n' /\ last_odometry (n_out _ _ _ n') px py yaw v w /\
    let T := last (map reading ts) l - l in
    Rabs (px - X T) <= Rabs (v * w) * g * T / 2 /\ Rabs (py - Y T) <= Rabs (v * w) * g * T / 2 /\
    same_heading yaw (x 2%nat + x 3%nat + w * T).
Proof.
  intros h n f l g ts X Y SH E EF EL M1 M2 [G0 G1] ST NE x v w HX HY.
  destruct (inv_run inverse Hinv junk Orient get_yaw get_roll get_pitch prm Hprm h n SH E) as (I1 & I2 & I3 & _).
  destruct (idle_ticks inverse Hinv junk Orient get_yaw get_roll get_pitch prm Hprm ts n l g f EF (I1 f EF) I2 I3 M1 M2 EL G1 ST) as (n' & f' & dts & E' & EF' & TU & F & DU & LO).
  destruct (coast _ _ _ _ _ TU) as (C3 & C4 & C5 & CH). specialize (LO NE). rewrite C4, C5 in LO.
  exists n', (fst (est f') 0%nat), (fst (est f') 1%nat), (fst (est f') 2%nat + fst (est f') 3%nat).
  split; [exact E'|]. split; [exact LO|]. cbv zeta. rewrite <- DU.
  assert (P0 := coast_position _ _ cos 0%nat g (or_introl (conj eq_refl eq_refl)) (Rlt_le _ _ G0) _ _ _ _ _ _ 0 TU F (heading_refl _) HX ltac:(fold x; rewrite Rminus_eq_0, Rabs_R0; apply Rle_refl)).
  assert (P1 := coast_position _ _ sin 1%nat g (or_intror (conj eq_refl eq_refl)) (Rlt_le _ _ G0) _ _ _ _ _ _ 0 TU F (heading_refl _) HY ltac:(fold x; rewrite Rminus_eq_0, Rabs_R0; apply Rle_refl)).
  rewrite Rplus_0_l in P0, P1. split; [exact P0|]. split; [exact P1|].
  rewrite C3. replace (x 2%nat + x 3%nat + w * duration dts) with (x 2%nat + w * duration dts + x 3%nat) by ring. apply heading_plus. exact CH.
Qed.
(** After an initial pose and without measurements the published pose stays where it is. *)
Theorem C88_stays_put : forall h n m tr n1 ts,
  sound_history Orient h -> run h = Ok n -> sound_pose Orient m -> step n (EvInitialPose _ _ m (Some tr)) = Ok n1 -> advancing (n_last _ _ _ n) ts ->
  exists n2 published, foldM step n1 (map (tick_of Orient) ts) = Ok n2 /\ n_out _ _ _ n2 = n_out _ _ _ n1 ++ published /\
    List.length published = (2 * List.length ts)%nat /\
    Forall (reports_rest (p_x _ _ m + tr_x _ _ tr) (p_y _ _ m + tr_y _ _ tr) (get_yaw (p_orient _ _ m) + get_yaw (tr_rot _ _ tr))) published.
Proof.
  intros h n m tr n1 ts SH E SM E1 AD. cbn [node_step] in E1.
  destruct (start_sane inverse junk Orient get_yaw get_roll get_pitch prm n m (Some tr) n1 SM E1) as (f & F1 & F2).
  destruct (start_state _ _ _ _ _ _ _ _ _ _ _ E1) as (f' & F1' & ST). rewrite F1 in F1'. injection F1' as <-.
  destruct (initial_clears _ _ _ _ _ _ _ _ _ _ _ E1) as (_ & Q1 & Q2 & Q3 & _).
  cbn [kf_latest_x ekf_kalman] in ST. unfold of_vector, td_latest_x in ST. injection ST as S0 S1 S2 S3 S4 S5. fold (fst (est f)) in *.
  destruct (resting_ticks inverse Hinv junk Orient get_yaw get_roll get_pitch prm Hprm ts n1 f (get_yaw (p_orient _ _ m) + get_yaw (tr_rot _ _ tr)) F1 F2) as (n2 & pub & A & B & C & D);
    rewrite ?Q1, ?Q2, ?Q3; auto; try reflexivity.
  - unfold est. cbn [fst]. rewrite S2. apply heading_refl.
  - exists n2, pub. unfold est in D. cbn [fst] in D. rewrite S0, S1 in D. auto.
Qed.

(** ** C89: measurements *)
Section Measurement.
Variable p : mparams exact.
Variable now : Z.
Variable dt : R.
Variable f : tdkf exact.
Hypothesis Hdt : 0 < dt.
Hypothesis Hsteps : (0 < m_steps _ p < 2 ^ 64)%Z.
Hypothesis Hdim : td_dim exact f = 6%nat.
Hypothesis Hmax : td_max exact f = m_extend _ p /\ (0 < m_extend _ p)%Z.
Hypothesis Hpsd : positive_semidefinite (Z.to_nat (m_extend _ p) * 6) (td_P exact f).
Lemma is_sane : sane (Z.to_nat (m_extend _ p)) f.
Proof. destruct Hmax as [H1 H2]. split; [lia|]. split; [lia|]. split; [exact Hdim|exact Hpsd]. Qed.
(** A pose from time zero on whose delay in intervals fits into an int is treated as the
    measurement of x, y and heading that it is, and so is a twist. *)
Theorem C89_pose : forall m, sound_pose Orient m -> (0 <= p_stamp _ _ m)%Z -> in_seconds (now - p_stamp _ _ m) / dt <= IZR (2 ^ 31 - 1) ->
  exists f' yaw, pose_body exact roundf_exact sin cos atan2 Orient get_yaw K p now dt f m = Ok f' /\ yaw_of Orient get_yaw m yaw /\
    treats 3 (Z.to_nat (m_extend _ p)) (m_steps _ p) (m_gate _ p) now dt (pose_as Orient m yaw) (est f) (est f').
Proof.
  intros m [L36 PD] S0 FIT. pose proof is_sane as SF. destruct Hmax as [M1 M2].
  assert (EX : exists f', pose_body exact roundf_exact sin cos atan2 Orient get_yaw K p now dt f m = Ok f').
  { unfold pose_body, time_of. replace (p_stamp _ _ m <? 0)%Z with false by lia. cbn [bind].
    destruct (C66_defined_exact (compute_delay_time exact now (p_stamp _ _ m)) dt Hdt FIT) as [d ED]. rewrite ED. cbn [bind].
    destruct (C66_nearest_exact _ _ _ Hdt ED) as [[D0 _] _].
    unfold check_delay_step. destruct (Z.ltb_spec d (m_extend exact p)) as [L|L]; cbn [negb]; [|eauto]. rewrite all_finite_exact. cbn [negb kf_get_x ekf_kalman]. unfold td_get_x. rewrite M1.
    replace ((0 <=? d)%Z && (d <? m_extend exact p)%Z) with true by lia. cbn [bind]. destruct (gate _ _ _ _ _ _); cbn [negb]; [|eauto].
    destruct (cov_ok [0; 1; 5]%Z (p_cov _ _ m) (m_steps _ p) L36) as [N EN]; [repeat constructor; lia|]. unfold pose_measurement_covariance. rewrite EN. cbn [bind].
    cbn [kf_update ekf_kalman]. unfold td_update. rewrite M1. replace (m_extend exact p <=? d)%Z with false by lia. replace (d <? 0)%Z with false by lia.
    destruct (KalmanModel.gain _ _ _ _ _ _ _) as [G|]; [|cbn; eauto]. destruct (finite_matrix _ _ _ _); cbn; eauto. }
  destruct EX as [f' E]. destruct (norm_yaw_spec (get_yaw (p_orient _ _ m))) as [Y1 Y2]. exists f', (norm_yaw (get_yaw (p_orient _ _ m))). split; [exact E|].
  split; [split; assumption|]. eapply (pose_treated inverse Hinv junk Orient get_yaw p now dt f m f' (Z.to_nat (m_extend _ p))); auto; [lia|].
  apply noise_scaled; [apply Hsteps|exact PD].
Qed.
Theorem C89_twist : forall m, sound_twist m -> (0 <= t_stamp _ m)%Z -> in_seconds (now - t_stamp _ m) / dt <= IZR (2 ^ 31 - 1) ->
  exists f', twist_body exact roundf_exact K p now dt f m = Ok f' /\
    treats 2 (Z.to_nat (m_extend _ p)) (m_steps _ p) (m_gate _ p) now dt (twist_as m) (est f) (est f').
Proof.
  intros m [L36 PD] S0 FIT. pose proof is_sane as SF. destruct Hmax as [M1 M2].
  assert (EX : exists f', twist_body exact roundf_exact K p now dt f m = Ok f').
  { unfold twist_body, time_of. replace (t_stamp _ m <? 0)%Z with false by lia. cbn [bind].
    destruct (C66_defined_exact (compute_delay_time exact now (t_stamp _ m)) dt Hdt FIT) as [d ED]. rewrite ED. cbn [bind].
    destruct (C66_nearest_exact _ _ _ Hdt ED) as [[D0 _] _].
    unfold check_delay_step. destruct (Z.ltb_spec d (m_extend exact p)) as [L|L]; cbn [negb]; [|eauto]. rewrite all_finite_exact. cbn [negb kf_get_x ekf_kalman]. unfold td_get_x. rewrite M1.
    replace ((0 <=? d)%Z && (d <? m_extend exact p)%Z) with true by lia. cbn [bind]. destruct (gate _ _ _ _ _ _); cbn [negb]; [|eauto].
    destruct (cov_ok [0; 5]%Z (t_cov _ m) (m_steps _ p) L36) as [N EN]; [repeat constructor; lia|]. unfold twist_measurement_covariance. rewrite EN. cbn [bind].
    cbn [kf_update ekf_kalman]. unfold td_update. rewrite M1. replace (m_extend exact p <=? d)%Z with false by lia. replace (d <? 0)%Z with false by lia.
    destruct (KalmanModel.gain _ _ _ _ _ _ _) as [G|]; [|cbn; eauto]. destruct (finite_matrix _ _ _ _); cbn; eauto. }
  destruct EX as [f' E]. exists f'. split; [exact E|].
  eapply (twist_treated inverse Hinv junk p now dt f m f' (Z.to_nat (m_extend _ p))); auto; [lia|].
  apply noise_scaled; [apply Hsteps|exact PD].
Qed.
End Measurement.

(** ** C90: a tick *)
Theorem C90_tick : forall h n f t1 t2 t3 t4 t5 n',
  sound_history Orient h -> run h = Ok n -> n_ekf _ _ _ n = Some f -> (forall l, n_last _ _ _ n = Some l -> l < in_seconds t1) ->
  step n (EvTimer _ _ t1 t2 t3 t4 t5) = Ok n' ->
  exists f' published, n_ekf _ _ _ n' = Some f' /\ n_out _ _ _ n' = n_out _ _ _ n ++ published /\ n_last _ _ _ n' = Some (in_seconds t1) /\
    tick_effect Orient get_yaw prm (n_last _ _ _ n) (msgs (n_pose _ _ _ n)) (msgs (n_twist _ _ _ n))
      (f_x _ (n_z _ _ _ n)) (f_x _ (n_roll _ _ _ n)) (f_x _ (n_pitch _ _ _ n)) t1 t2 t3 t4 t5 (est f) (est f') published.
Proof.
  intros h n f t1 t2 t3 t4 t5 n' SH E EF HL S. cbn [node_step] in S.
  destruct (inv_run inverse Hinv junk Orient get_yaw get_roll get_pitch prm Hprm h n SH E) as (I1 & I2 & I3 & I4 & I5 & _).
  destruct (tick_does inverse Hinv junk Orient get_yaw prm Hprm n t1 t2 t3 t4 t5 n' f EF (I1 f EF) I2 I3 I4 I5 HL S) as (f' & pub & Q1 & _ & _ & _ & _ & _ & Q7 & _ & Q8 & Q9).
  exists f', pub. auto.
Qed.
(** Arriving measurements only wait: they change neither the estimate nor the other queue,
    and nothing is published. *)
Theorem C90_arrival : forall n n',
  (forall m, step n (EvPose _ _ m) = Ok n' -> n_ekf _ _ _ n' = n_ekf _ _ _ n /\ n_out _ _ _ n' = n_out _ _ _ n /\ n_last _ _ _ n' = n_last _ _ _ n /\
     msgs (n_pose _ _ _ n') = msgs (n_pose _ _ _ n) ++ [m] /\ msgs (n_twist _ _ _ n') = msgs (n_twist _ _ _ n)) /\
  (forall m, step n (EvTwist _ _ m) = Ok n' -> n_ekf _ _ _ n' = n_ekf _ _ _ n /\ n_out _ _ _ n' = n_out _ _ _ n /\ n_last _ _ _ n' = n_last _ _ _ n /\
     msgs (n_pose _ _ _ n') = msgs (n_pose _ _ _ n) /\ msgs (n_twist _ _ _ n') = msgs (n_twist _ _ _ n) ++ [m]).
Proof.
  intros n n'. split; intros m E; cbn [node_step] in E.
  - destruct (pose_frame exact Orient get_roll get_pitch K n m n' E) as (-> & -> & -> & -> & ->). auto.
  - injection E as <-. cbn. auto.
Qed.

(** ** C91: covariances *)
Theorem C91_covariances : forall h n, sound_history Orient h -> run h = Ok n ->
  (forall f, n_ekf _ _ _ n = Some f -> positive_semidefinite (blocks prm * 6) (snd (est f))) /\
  forall t frame pose pc vx wz tc, In (OutOdometry exact t frame pose pc vx wz tc) (n_out _ _ _ n) ->
    positive_semidefinite 6 (square pc) /\ positive_semidefinite 6 (square tc).
Proof.
  intros h n SH E. destruct (inv_run inverse Hinv junk Orient get_yaw get_roll get_pitch prm Hprm h n SH E) as (I1 & _ & _ & _ & _ & _ & I7).
  split; [intros f EF; apply (I1 f EF)|]. intros t frame pose pc vx wz tc HI. rewrite Forall_forall in I7. exact (I7 _ HI).
Qed.
End Properties.

(** ** C89 in IEEE arithmetic: values that are not numbers never reach the filter *)
Theorem C89_not_finite : forall acosf roundf sin cos atan2 Orient (get_yaw : Orient -> b64) (K : kalman (ieee acosf)) p now dt f,
  (forall m f', pose_body (ieee acosf) roundf sin cos atan2 Orient get_yaw K p now dt f m = Ok f' ->
     BinarySingleNaN.is_finite (p_x _ _ m : b64) = false \/ BinarySingleNaN.is_finite (p_y _ _ m : b64) = false -> f' = f) /\
  (forall m f', twist_body (ieee acosf) roundf K p now dt f m = Ok f' ->
     BinarySingleNaN.is_finite (t_vx _ m : b64) = false \/ BinarySingleNaN.is_finite (t_wz _ m : b64) = false -> f' = f).
Proof.
  intros acosf roundf sin cos atan2 Orient get_yaw K p now dt f.
  assert (NF : forall v : b64, BinarySingleNaN.is_finite v = false -> d_trunc (ieee acosf) v = None).
  { intros v H. cbn. destruct v; cbn in H; try discriminate; reflexivity. }
  split; intros m f'.
  - unfold pose_body. cbv zeta. destruct (time_of _) as [st| | | | |]; try discriminate. cbn [bind].
    destruct (compute_delay_step _ _ _ _) as [d| | | | |]; try discriminate. cbn [bind]. destruct (negb (check_delay_step _ _)); [intros E _; injection E as <-; reflexivity|].
    intros E H. assert (AF : all_finite (ieee acosf) (pose_measurement_vector (ieee acosf) sin cos atan2 Orient get_yaw m) = false).
    { unfold all_finite, pose_measurement_vector. cbn [forallb]. destruct H as [H|H]; rewrite (NF _ H); [reflexivity|apply andb_false_r]. }
    rewrite AF in E. cbn [negb] in E. injection E as <-. reflexivity.
  - unfold twist_body. cbv zeta. destruct (time_of _) as [st| | | | |]; try discriminate. cbn [bind].
    destruct (compute_delay_step _ _ _ _) as [d| | | | |]; try discriminate. cbn [bind]. destruct (negb (check_delay_step _ _)); [intros E _; injection E as <-; reflexivity|].
    intros E H. assert (AF : all_finite (ieee acosf) (twist_measurement_vector (ieee acosf) m) = false).
    { unfold all_finite, twist_measurement_vector. cbn [forallb]. destruct H as [H|H]; rewrite (NF _ H); [reflexivity|apply andb_false_r]. }
    rewrite AF in E. cbn [negb] in E. injection E as <-. reflexivity.
Qed.

(** ** A concrete history *)
Definition unit_pose (stamp : Z) : pose_msg exact R := PoseMsg exact R "map" stamp 1 2 0 0 eye36.
Definition unit_twist (stamp : Z) : twist_msg exact := TwistMsg exact "base_link" stamp 1 1 eye36.
Definition unit_history : list (event exact R) :=
  [EvInitialPose _ _ (unit_pose 2000) (Some ex_tf); EvTimer _ _ 23000000 23000001 23000002 23000003 23000004;
   EvPose _ _ (unit_pose 24000000); EvTwist _ _ (unit_twist 24000000); EvTimer _ _ 43000000 43000001 43000002 43000003 43000004].
Lemma unit_pose_sound t : sound_pose R (unit_pose t).
Proof.
  split; [reflexivity|]. split.
  - intros i j Hi Hj. do 3 (destruct i as [|i]; [do 3 (destruct j as [|j]; [reflexivity|]); lia|]). lia.
  - intros v (i & Hi & N). replace (variance_along 3 _ v) with (v 0%nat * v 0%nat + v 1%nat * v 1%nat + v 2%nat * v 2%nat) by (unfold variance_along, noise_of; cbn; ring).
    assert (Q : forall a : R, 0 <= a * a) by (intros; apply Rle_0_sqr). assert (P : forall a : R, a <> 0 -> 0 < a * a) by (intros; apply Rsqr_pos_lt; assumption).
    pose proof (Q (v 0%nat)). pose proof (Q (v 1%nat)). pose proof (Q (v 2%nat)). destruct i as [|[|[|i]]]; [| | |lia]; pose proof (P _ N); lra.
Qed.
Lemma unit_twist_sound t : sound_twist (unit_twist t).
Proof.
  split; [reflexivity|]. split.
  - intros i j Hi Hj. do 2 (destruct i as [|i]; [do 2 (destruct j as [|j]; [reflexivity|]); lia|]). lia.
  - intros v (i & Hi & N). replace (variance_along 2 _ v) with (v 0%nat * v 0%nat + v 1%nat * v 1%nat) by (unfold variance_along, noise_of; cbn; ring).
    assert (Q : forall a : R, 0 <= a * a) by (intros; apply Rle_0_sqr). assert (P : forall a : R, a <> 0 -> 0 < a * a) by (intros; apply Rsqr_pos_lt; assumption).
    pose proof (Q (v 0%nat)). pose proof (Q (v 1%nat)). destruct i as [|[|i]]; [| |lia]; pose proof (P _ N); lra.
Qed.
Lemma unit_sound : sound_history R unit_history /\ sound_params ex_prm.
Proof.
  split; [split|].
  - repeat constructor; try apply unit_pose_sound; apply unit_twist_sound.
  - cbn. repeat constructor; cbn; intuition lia.
  - unfold sound_params, ex_prm. cbn. lia.
Qed.
(** The history is accepted and leaves a running filter, for every inverse and every
    uninitialised memory; so do its first two events, which leave empty queues. *)
Example C90_case : forall inverse junk, let run := node_run exact roundf_exact sin cos atan2 Ropp R (fun r => r) (fun _ => 0) (fun _ => 0) (ekf_kalman exact inverse junk) ex_prm in
  (exists n f, run unit_history = Ok n /\ n_ekf _ _ _ n = Some f) /\
  exists n f l, run (firstn 2 unit_history) = Ok n /\ n_ekf _ _ _ n = Some f /\ n_last _ _ _ n = Some l /\ msgs (n_pose _ _ _ n) = [] /\ msgs (n_twist _ _ _ n) = [] /\
    steady 10 l [(43000000, 43000001, 43000002, 43000003, 43000004)%Z].
Proof.
  intros inverse junk run. split.
  - destruct (C81_defined_partial sin cos atan2 R (fun r => r) (fun _ => 0) (fun _ => 0) inverse junk ex_prm 0 1000000000 20000000 unit_history) as [n E]; try (cbn; lia); try (cbn; lra); try discriminate.
    + cbn. unfold good_pose, good_twist. cbn. repeat split; try lia; try discriminate.
    + exists n. assert (N := after_initial exact roundf_exact sin cos atan2 Ropp R (fun r => r) (fun _ => 0) (fun _ => 0) (ekf_kalman exact inverse junk) ex_prm unit_history n ltac:(apply Exists_cons_hd; exact I) E).
      destruct (n_ekf _ _ _ n) as [f|]; [exists f; split; [exact E|reflexivity]|congruence].
  - unfold run, node_run, unit_history. cbn. do 3 eexists. split; [reflexivity|]. cbn. split; [reflexivity|]. split; [reflexivity|]. split; [reflexivity|]. split; [reflexivity|].
    unfold in_seconds, seconds. cbn. repeat split; lra.
Qed.
(** Curves of constant speed and turn rate exist: a circle with speed and turn rate one. *)
Example C88_circle : moves cos 1 1 0 0 sin /\ moves sin 1 1 0 (-1) (fun t => - cos t).
Proof. split; (split; [rewrite ?sin_0, ?cos_0; lra|]); intros t; auto_derive; trivial; rewrite Rplus_0_l, !Rmult_1_l; lra. Qed.
(** A filter of two blocks and a message within its gate. *)
Example C89_case : let p := MParams exact "map" 2 10000 5 in let f := Td exact (fun _ => 0) identity 2 6 in
  (0 < m_steps _ p < 2 ^ 64)%Z /\ td_max exact f = m_extend _ p /\ positive_semidefinite (Z.to_nat (m_extend _ p) * 6) (td_P exact f) /\
  sound_pose R (unit_pose 5) /\ in_seconds (1000000000 - 5) / 1 <= IZR (2 ^ 31 - 1).
Proof.
  cbn. split; [lia|]. split; [reflexivity|]. split; [apply pd_is_psd, identity_pd|]. split; [apply unit_pose_sound|]. unfold in_seconds. lra.
Qed.

Print Assumptions C88_dead_reckoning.
Print Assumptions C88_stays_put.
Print Assumptions C89_pose.
Print Assumptions C89_twist.
Print Assumptions C89_not_finite.
Print Assumptions C90_tick.
Print Assumptions C90_arrival.
Print Assumptions C91_covariances.
