(** C71, C81: the EKF localizer as a node. *)
From Coq Require Import String List ZArith Bool Lia Lra Reals.
From Verif Require Import Base Arith EkfModel SpecEkf QueueProofs IntervalProofs Prop_Interval EkfNodeProofs KalmanModel SpecKalman Prop_Kalman.
Import ListNotations.
Open Scope Z_scope.

(** ** What is published, for any arithmetic, filter and parameters *)
Section Protocol.
Variable A : arith.
Variable roundf : D A -> option Z.
Variable sin cos : D A -> D A.
Variable atan2 : D A -> D A -> D A.
Variable neg : D A -> D A.
Variable Orient : Type.
Variable get_yaw get_roll get_pitch : Orient -> D A.
Variable K : kalman A.
Variable prm : params A.
Notation step := (node_step A roundf sin cos atan2 neg Orient get_yaw get_roll get_pitch K prm).
Notation run := (node_run A roundf sin cos atan2 neg Orient get_yaw get_roll get_pitch K prm).

Inductive kind := Transform | Odometry.
(** What should be published, with its stamp: after the first initial pose a transform and
    an odometry message at every timer tick, unless the clock reads less than at the last
    tick that published. *)
Fixpoint expected (started : bool) (last : option (D A)) (h : list (event A Orient)) : list (kind * Z) :=
  match h with
  | [] => []
  | EvTimer t1 _ _ t4 t5 :: r =>
      let backwards := match last with Some l => d_ltb A (seconds A t1) l | None => false end in
      if started && negb backwards then (Transform, t4) :: (Odometry, t5) :: expected started (Some (seconds A t1)) r
      else expected started last r
  | EvInitialPose _ _ :: r => expected true last r
  | EvPose _ :: r | EvTwist _ :: r => expected started last r
  end.
Definition what (o : output A) : kind * Z :=
  match o with OutTransform t _ _ => (Transform, t) | OutOdometry t _ _ _ _ _ _ => (Odometry, t) end.

Lemma protocol_from h : forall n n', foldM step n h = Ok n' ->
  map what (n_out _ _ _ n') = map what (n_out _ _ _ n) ++ expected (match n_ekf _ _ _ n with Some _ => true | None => false end) (n_last _ _ _ n) h.
Proof.
  induction h as [|e h IH]; intros n n' E; [injection E as <-; cbn; now rewrite app_nil_r|].
  cbn [foldM] in E. destruct (step n e) as [n1| | | | |] eqn:ES; try discriminate. cbn [bind] in E. rewrite (IH _ _ E). clear IH E.
  destruct e as [t1 t2 t3 t4 t5|m tf|m|m]; cbn [node_step expected] in *.
  - destruct (n_ekf A Orient K n) as [f|] eqn:EF.
    + destruct (tick_some A roundf sin cos atan2 neg Orient get_yaw K prm n t1 t2 t3 t4 t5 n1 f EF ES) as [N [[l [L [B ->]]]|[B [L P]]]].
      * rewrite EF, L. rewrite B. reflexivity.
      * destruct P as (pose & pc & vx & wz & tc & ->). rewrite L. destruct (n_ekf A Orient K n1); [|congruence].
        rewrite map_app, <- app_assoc. cbn [map what app andb]. f_equal.
        destruct (n_last A Orient K n) as [l|]; [rewrite (B l eq_refl)|]; reflexivity.
    + rewrite tick_none in ES by exact EF. injection ES as <-. rewrite EF. reflexivity.
  - destruct (initial_clears A Orient get_yaw get_roll get_pitch K prm n m tf n1 ES) as (N & _ & _ & L & O). rewrite L, O.
    destruct (n_ekf A Orient K n1); [reflexivity|congruence].
  - destruct (pose_frame A Orient get_roll get_pitch K n m n1 ES) as (E1 & E2 & E3 & _). rewrite E1, E2, E3. reflexivity.
  - injection ES as <-. reflexivity.
Qed.
Theorem C71_protocol : forall h n, run h = Ok n -> map what (n_out _ _ _ n) = expected false None h.
Proof. intros h n E. apply (protocol_from h _ _ E). Qed.
Theorem C71_silent_before_initial_pose : forall h n,
  (forall m tf, ~ In (EvInitialPose A Orient m tf) h) -> run h = Ok n -> n_out _ _ _ n = [].
Proof.
  intros h n H E. eapply before_initial; [|exact E]. apply Forall_forall. intros e He I. destruct e; cbn in I; try contradiction. exact (H _ _ He).
Qed.
(** Time jumped backwards: nothing changes. *)
Theorem C71_backwards_unchanged : forall n t1 t2 t3 t4 t5 l,
  n_last _ _ _ n = Some l -> d_ltb A (seconds A t1) l = true -> step n (EvTimer _ _ t1 t2 t3 t4 t5) = Ok n.
Proof.
  intros n t1 t2 t3 t4 t5 l L B. cbn [node_step]. unfold timer_callback. destruct (n_ekf A Orient K n) as [f|] eqn:EF; [|reflexivity].
  unfold interval_compute. rewrite L, B. destruct n. cbn in *. subst. reflexivity.
Qed.
Theorem C71_initial_pose_clears : forall n m tf n', step n (EvInitialPose _ _ m tf) = Ok n' ->
  msgs (n_pose _ _ _ n') = [] /\ msgs (n_twist _ _ _ n') = [] /\ n_out _ _ _ n' = n_out _ _ _ n.
Proof. intros n m tf n' E. apply initial_clears in E. destruct E as (_ & -> & -> & _ & ->). auto. Qed.

(** An initial pose without transform is undefined behaviour, in every state. *)
Theorem C81_no_transform_refuted : forall n m,
  pose_frame_id _ prm <> ""%string -> p_frame _ _ m <> ""%string -> step n (EvInitialPose _ _ m None) = UB.
Proof.
  intros n m H1 H2. cbn [node_step]. unfold callback_initial_pose.
  destruct (erase_ok _ H1) as [r1 ->]. cbn [bind]. destruct (erase_ok _ H2) as [r2 ->]. reflexivity.
Qed.
(** So is an empty frame name. *)
Theorem C81_empty_frame_refuted : forall n m tf, pose_frame_id _ prm <> ""%string -> p_frame _ _ m = ""%string -> step n (EvInitialPose _ _ m tf) = UB.
Proof.
  intros n m tf H1 H2. cbn [node_step]. unfold callback_initial_pose. destruct (erase_ok _ H1) as [r1 ->]. cbn [bind]. rewrite H2. reflexivity.
Qed.
(** A pose with a negative stamp ends the node with an exception. *)
Theorem C81_negative_stamp_refuted : forall n m, p_stamp _ _ m < 0 -> length (p_cov _ _ m) = 36%nat -> step n (EvPose _ _ m) = ThrowOther.
Proof.
  intros n m H L. cbn [node_step]. unfold callback_pose, update_simple_filters, vat. cbn [Z.ltb Z.compare].
  destruct (nth_error (p_cov A Orient m) (Z.to_nat 14)) eqn:E1; [|apply nth_error_None in E1; rewrite L in E1; cbn in E1; lia].
  destruct (nth_error (p_cov A Orient m) (Z.to_nat 21)) eqn:E2; [|apply nth_error_None in E2; rewrite L in E2; cbn in E2; lia].
  destruct (nth_error (p_cov A Orient m) (Z.to_nat 28)) eqn:E3; [|apply nth_error_None in E3; rewrite L in E3; cbn in E3; lia].
  cbn [bind]. unfold time_of. replace (p_stamp A Orient m <? 0) with true by (symmetry; apply Z.ltb_lt; lia). reflexivity.
Qed.
End Protocol.

(** ** Defined for calm histories, with the time-delay filter of this repository *)
Section Calm.
Variable sin cos : R -> R.
Variable atan2 : R -> R -> R.
Variable Orient : Type.
Variable get_yaw get_roll get_pitch : Orient -> R.
Variable inverse : nat -> (nat -> nat -> R) -> option (nat -> nat -> R).
Variable junk : nat -> nat -> R.
Variable prm : params exact.
Notation K := (ekf_kalman exact inverse junk).
Notation run := (node_run exact roundf_exact sin cos atan2 Ropp Orient get_yaw get_roll get_pitch K prm).

Definition sized (f : Filter exact K) : Prop := td_max exact f = extend_state_step _ prm /\ td_dim exact f = 6%nat.
Lemma ekf_defined : 0 < extend_state_step _ prm -> filter_defined K prm sized.
Proof.
  intros H. split; [|split; [|split]].
  - intros x P. cbn. unfold td_new. replace (0 <? extend_state_step exact prm) with true by (symmetry; apply Z.ltb_lt; lia).
    eexists. split; [reflexivity|]. split; reflexivity.
  - intros f x M Q [V1 V2]. cbn. eexists. split; [reflexivity|]. split; assumption.
  - intros f d [V1 V2] [D1 D2]. cbn. unfold td_get_x. rewrite V1.
    replace ((0 <=? d) && (d <? extend_state_step exact prm)) with true by (symmetry; apply andb_true_intro; split; [apply Z.leb_le|apply Z.ltb_lt]; lia).
    cbn. eauto.
  - intros f y C N d [V1 V2] [D1 D2]. cbn. unfold td_update. rewrite V1.
    replace (extend_state_step exact prm <=? d) with false by (symmetry; apply Z.leb_gt; lia).
    replace (d <? 0) with false by (symmetry; apply Z.ltb_ge; lia).
    destruct (gain _ _ _ _ _ _ _) as [G|]; [|auto]. destruct (finite_matrix _ _ _ _); [|auto].
    right. eexists. split; [reflexivity|]. split; [reflexivity|assumption].
Qed.
(** If ticks are at least g nanoseconds apart, all stamps and clock readings lie in a span
    of 2^30 g from time zero on, frame names are not empty, covariances have 36 entries and
    the transform is available, no callback is undefined or throws.  [calm] is in
    SpecEkf.v. *)
Theorem C81_defined_partial : forall lo hi g h,
  0 < extend_state_step _ prm -> pose_frame_id _ prm <> ""%string ->
  0 <= lo -> 0 < g <= 10000000000 -> hi - lo <= 2 ^ 30 * g -> (default_frequency _ prm <= 1000000000 / IZR g)%R ->
  calm Orient lo hi g None h -> exists n, run h = Ok n.
Proof.
  intros lo hi g h He Hf Hlo Hg Hs Hd C. eapply run_ok; eauto. apply ekf_defined. exact He.
Qed.
End Calm.

(** ** A concrete history *)
Definition ex_prm : params exact :=
  Params exact 50%R 50 "map" 5 10000%R 10000%R 2 1%R true 1%R 1%R 1%R.
Definition ex_cov : list (D exact) := repeat 1%R 36.
Definition ex_pose (stamp : Z) : pose_msg exact R := PoseMsg exact R "map" stamp 1%R 2%R 0%R 0%R ex_cov.
Definition ex_tf : transform_msg exact R := TransformMsg exact R 0%R 0%R 0%R 0%R.
Definition ex_history : list (event exact R) :=
  [EvTimer _ _ 0 0 0 0 0; EvPose _ _ (ex_pose 1000); EvInitialPose _ _ (ex_pose 2000) (Some ex_tf); EvTimer _ _ 23000000 23000001 23000002 23000003 23000004;
   EvPose _ _ (ex_pose 24000000); EvTwist _ _ (TwistMsg exact "base_link" 24000000 1%R 0%R ex_cov); EvTimer _ _ 43000000 43000001 43000002 43000003 43000004].
Example C81_calm_case : calm R 0 1000000000 20000000 None ex_history /\
  (default_frequency _ ex_prm <= 1000000000 / IZR 20000000)%R /\ 1000000000 - 0 <= 2 ^ 30 * 20000000.
Proof.
  split; [|split; [cbn; lra|lia]]. cbn. unfold good_pose, good_twist. cbn. repeat split; try lia; try discriminate.
Qed.
Example C71_expected_case : expected exact R false None ex_history =
  [(Transform, 23000003); (Odometry, 23000004); (Transform, 43000003); (Odometry, 43000004)].
Proof.
  cbn. unfold seconds. cbn. unfold Rltb. destruct (Rlt_dec _ _) as [L|L]; [exfalso; lra|]. reflexivity.
Qed.
Example C81_run_case : exists n,
  node_run exact roundf_exact Rtrigo_def.sin Rtrigo_def.cos (fun _ _ => 0%R) Ropp R (fun r => r) (fun r => r) (fun r => r)
    (ekf_kalman exact some_inverse (fun _ _ => 0%R)) ex_prm ex_history = Ok n.
Proof.
  destruct C81_calm_case as [C [D S]]. eapply C81_defined_partial with (lo := 0) (hi := 1000000000) (g := 20000000); eauto; try lia; cbn; try lia; discriminate.
Qed.

Print Assumptions C71_protocol.
Print Assumptions C71_silent_before_initial_pose.
Print Assumptions C71_backwards_unchanged.
Print Assumptions C71_initial_pose_clears.
Print Assumptions C81_no_transform_refuted.
Print Assumptions C81_negative_stamp_refuted.
Print Assumptions C81_defined_partial.
