(** Property C131: orientations passed between the nodes. *)
From Coq Require Import Reals Lra Lia PeanoNat List Bool ZArith String.
From Verif Require Import Base Arith SpecReal AngleProofs EkfModel SpecEkf EkfProofs KalmanModel SpecKalman SpecFusion SpecCycle
  IntervalProofs Prop_Interval QueueProofs EkfNodeProofs Prop_EkfNode Prop_Kalman FusionProofs FusionNodeProofs Prop_Fusion Prop_Bias Prop_Initial.
From Verif Require Import PoseModel SpecPose RotProofs Prop_Rotation PublishModel SpecPublish.
From Verif Require MsgModel SpecMsg Prop_Msg.
Import ListNotations.
Local Open Scope R_scope.
Unset Asymmetric Patterns.

Lemma same_unit sign q : SpecMsg.up_to_sign sign -> unit q -> unit (sign q).
Proof. intros HS U. destruct (HS q) as [-> | ->]; auto. unfold unit, qnorm2, SpecMsg.qopp in *. cbn [qw qx qy qz]. rewrite <- U. ring. Qed.

(** The message of a rigid pose has a unit quaternion with the rotation of the pose. *)
Lemma message_rotation sign T : SpecMsg.up_to_sign sign -> is_rotation (lin T) ->
  unit (MsgModel.orientation (MsgModel.make_pose_msg sign T)) /\ to_rotation (MsgModel.orientation (MsgModel.make_pose_msg sign T)) = lin T.
Proof.
  intros HS HR. destruct (quat_of_ok _ HR) as [U E]. unfold MsgModel.make_pose_msg. cbn [MsgModel.orientation].
  split; [apply same_unit; auto|]. rewrite Prop_Msg.rotation_sign; auto.
Qed.

Lemma direction_angle x y : (x <> 0 \/ y <> 0) -> points_along (atan2 y x) x y.
Proof.
  intros N. destruct (atan2_polar x y N) as (_ & A & B). exists (sqrt (x * x + y * y)). split; [|auto].
  apply sqrt_lt_R0. assert (0 <= x * x) by nra. assert (0 <= y * y) by nra.
  destruct N as [N|N]; [assert (0 < x * x) by (apply Rsqr_pos_lt; exact N)|assert (0 < y * y) by (apply Rsqr_pos_lt; exact N)]; lra.
Qed.
Lemma atan2_scaled r a : 0 < r -> atan2 (r * sin a) (r * cos a) = atan2 (sin a) (cos a).
Proof.
  intros P. unfold atan2.
  destruct (Rlt_dec 0 (cos a)) as [C|C], (Rlt_dec 0 (r * cos a)) as [C'|C']; try (exfalso; nra).
  { f_equal. field. split; nra. }
  destruct (Rlt_dec (cos a) 0) as [D|D], (Rlt_dec (r * cos a) 0) as [D'|D']; try (exfalso; nra).
  { replace (r * sin a / (r * cos a)) with (sin a / cos a) by (field; split; nra).
    destruct (Rle_dec 0 (sin a)), (Rle_dec 0 (r * sin a)); try reflexivity; exfalso; nra. }
  destruct (Rlt_dec 0 (sin a)), (Rlt_dec 0 (r * sin a)); try reflexivity; try (exfalso; nra).
  destruct (Rlt_dec (sin a) 0), (Rlt_dec (r * sin a) 0); try reflexivity; exfalso; nra.
Qed.

(** What is read from the message of a pose made of roll, pitch and yaw. *)
Theorem C131_read_back sign get_yaw get_roll get_pitch x y z roll pitch yaw :
  SpecMsg.up_to_sign sign -> reads_angles get_yaw get_roll get_pitch ->
  - PI < roll <= PI -> - PI / 2 <= pitch <= PI / 2 -> Rabs (sin pitch) < 99999 / 100000 ->
  let m := published_pose sign [x; y; z; roll; pitch; yaw] in
  let q := MsgModel.orientation m in
  MsgModel.position m = V3 x y z /\ unit q /\
  get_roll q = roll /\ get_pitch q = pitch /\ - PI < get_yaw q <= PI /\ same_heading (get_yaw q) yaw.
Proof.
  intros HS [_ HA] HR HP HU m q. destruct (C46_rpy roll pitch yaw) as [U E].
  assert (RR : is_rotation (lin (make_pose_from_xyzrpy x y z roll pitch yaw))) by (apply to_rotation_is_rotation; exact U).
  destruct (message_rotation sign _ HS RR) as [U' E']. fold (published_pose sign [x; y; z; roll; pitch; yaw]) in U', E'.
  change (MsgModel.orientation _) with q in U'. change (MsgModel.orientation _) with q in E'.
  change (lin _) with (to_rotation (rpy_to_quaternion roll pitch yaw)) in E'. rewrite E in E'.
  split; [reflexivity|]. split; [exact U'|].
  assert (E20 : m20 (to_rotation q) = - sin pitch) by (rewrite E'; unfold mmul3, rot_z, rot_y, rot_x; cbn; ring).
  assert (E10 : m10 (to_rotation q) = cos pitch * sin yaw) by (rewrite E'; unfold mmul3, rot_z, rot_y, rot_x; cbn; ring).
  assert (E00 : m00 (to_rotation q) = cos pitch * cos yaw) by (rewrite E'; unfold mmul3, rot_z, rot_y, rot_x; cbn; ring).
  assert (E21 : m21 (to_rotation q) = cos pitch * sin roll) by (rewrite E'; unfold mmul3, rot_z, rot_y, rot_x; cbn; ring).
  assert (E22 : m22 (to_rotation q) = cos pitch * cos roll) by (rewrite E'; unfold mmul3, rot_z, rot_y, rot_x; cbn; ring).
  destruct (HA q) as (A1 & A2 & A3).
  { split; [exact U'|]. rewrite E20, Rabs_Ropp. exact HU. }
  assert (CP : 0 < cos pitch).
  { assert (0 <= cos pitch) by (apply cos_ge_0; lra). destruct (Req_dec (cos pitch) 0) as [Z|Z]; [|lra]. exfalso.
    pose proof (sin2_cos2 pitch) as Q. unfold Rsqr in Q. rewrite Z in Q. pose proof (Rabs_pos (sin pitch)).
    assert (Rabs (sin pitch) * Rabs (sin pitch) = 1) by (rewrite <- Rabs_mult, Rabs_right; nra). nra. }
  rewrite A1, A2, A3, E20, E10, E00, E21, E22, !atan2_scaled by exact CP.
  destruct (norm_yaw_spec yaw) as [R1 R2]. change (normalize_yaw exact sin cos atan2 yaw) with (atan2 (sin yaw) (cos yaw)) in *.
  split; [apply (norm_yaw_unique roll roll 0); [exact HR|rewrite Rmult_0_r, Rplus_0_r; reflexivity]|].
  split; [rewrite asin_opp, Ropp_involutive; apply asin_sin; lra|]. split; [exact R1|].
  destruct R2 as [k K2]. exists (- k)%Z. rewrite opp_IZR. lra.
Qed.
Print Assumptions C131_read_back.

(** The heading that the EKF localizer reads from the message of a rigid pose (of the lidar
    localizer, say) is the direction of the forward axis of the pose seen from above, and the
    measurement is the position with this heading. *)
Theorem C131_heading_of_pose sign get_yaw get_roll get_pitch T frame stamp cov :
  SpecMsg.up_to_sign sign -> reads_angles get_yaw get_roll get_pitch -> is_rotation (lin T) -> Rabs (m20 (lin T)) < 99999 / 100000 ->
  let m := MsgModel.make_pose_msg sign T in
  let p := MsgModel.position m in
  let q := MsgModel.orientation m in
  exists yaw, - PI < yaw <= PI /\ points_along yaw (m00 (lin T)) (m10 (lin T)) /\ get_yaw q = yaw /\
    pose_measurement_vector exact sin cos atan2 quat get_yaw (PoseMsg exact quat frame stamp (vx p) (vy p) (vz p) q cov) = [vx (tra T); vy (tra T); yaw].
Proof.
  intros HS [_ HA] HR HU m p q. destruct (message_rotation sign T HS HR) as [U E]. change (MsgModel.orientation _) with q in U, E.
  destruct (HA q) as (A1 & _ & _). { split; [exact U|]. rewrite E. exact HU. }
  rewrite E in A1. assert (N : m00 (lin T) <> 0 \/ m10 (lin T) <> 0).
  { destruct (Req_dec (m00 (lin T)) 0) as [Z|Z]; [|auto]. right. intros Z'. destruct HR as [HR _].
    apply (f_equal m00) in HR. unfold mmul3, transpose3, id3 in HR. cbn in HR. rewrite Z, Z' in HR.
    pose proof (Rabs_pos (m20 (lin T))). assert (Rabs (m20 (lin T)) * Rabs (m20 (lin T)) = 1) by (rewrite <- Rabs_mult, Rabs_right; nra). nra. }
  exists (atan2 (m10 (lin T)) (m00 (lin T))). destruct (atan2_polar _ _ N) as (RG & _ & _). split; [exact RG|].
  split; [apply direction_angle; exact N|]. split; [exact A1|]. unfold pose_measurement_vector. cbn [p_x p_y p_orient].
  rewrite A1. change (vx p) with (vx (tra T)). change (vy p) with (vy (tra T)). do 3 f_equal.
  apply (norm_yaw_unique _ _ 0); [exact RG|rewrite Rmult_0_r, Rplus_0_r; reflexivity].
Qed.
Print Assumptions C131_heading_of_pose.

(** ** The one-dimensional filters keep roll and pitch in range *)
Lemma gain_unit (s o : R) : 0 <= s * s / (s * s + o * o) <= 1.
Proof.
  assert (0 <= s * s) by nra. assert (0 <= o * o) by nra.
  destruct (Req_dec (s * s + o * o) 0) as [Z|Z]; [assert (s * s = 0) by lra; rewrite H1; unfold Rdiv; rewrite Rmult_0_l; lra|].
  split; [apply Rmult_le_pos; [lra|left; apply Rinv_0_lt_compat; lra]|]. apply (Rmult_le_reg_r (s * s + o * o)); [lra|]. unfold Rdiv. rewrite Rmult_assoc, Rinv_l by lra. lra.
Qed.
Lemma update_between lo hi (f : filter1d exact) obs dev t : lo <= f_x _ f <= hi -> lo <= obs <= hi -> lo <= f_x _ (f1_update exact f obs dev t) <= hi.
Proof.
  intros F O. unfold f1_update. destruct (f_init _ f); [|exact O]. cbv zeta. cbn [f_x].
  match goal with |- context [d_div exact (d_mul exact ?s ?s) _] => destruct (gain_unit s dev) as [G0 G1] end. cbn [exact d_add d_sub d_mul d_div] in *.
  match type of G0 with 0 <= ?a => set (g := a) in * end. clearbody g. set (x := f_x exact f) in *. clearbody x. change (D exact) with R in *. split; nra.
Qed.
Lemma update_above lo (f : filter1d exact) obs dev t : lo < f_x _ f -> lo < obs -> lo < f_x _ (f1_update exact f obs dev t).
Proof.
  intros F O. set (l := Rmin (f_x _ f) obs). assert (lo < l) by (apply Rmin_glb_lt; auto).
  apply Rlt_le_trans with l; [auto|]. apply (update_between l (Rmax (f_x _ f) obs)).
  - split; [apply Rmin_l|apply Rmax_l].
  - split; [apply Rmin_r|apply Rmax_r].
Qed.
Lemma update_same (f : filter1d exact) dev t : f_x _ (f1_update exact f (f_x _ f) dev t) = f_x _ f.
Proof. assert (X := update_between (f_x _ f) (f_x _ f) f (f_x _ f) dev t ltac:(lra) ltac:(lra)). apply Rle_antisym; apply X. Qed.

Section Restart.
Variable inverse : nat -> (nat -> nat -> R) -> option (nat -> nat -> R).
Hypothesis Hinv : inverts inverse.
Variable junk : nat -> nat -> R.
Variable get_yaw get_roll get_pitch : quat -> R.
Hypothesis Hread : reads_angles get_yaw get_roll get_pitch.
Variable prm : params exact.
Hypothesis Hprm : sound_params prm.
Notation K := (ekf_kalman exact inverse junk).
Notation step := (node_step exact roundf_exact sin cos atan2 Ropp quat get_yaw get_roll get_pitch K prm).
Notation run := (node_run exact roundf_exact sin cos atan2 Ropp quat get_yaw get_roll get_pitch K prm).

Definition in_range (n : node exact quat K) : Prop :=
  - PI < f_x _ (n_roll _ _ _ n) <= PI /\ - PI / 2 <= f_x _ (n_pitch _ _ _ n) <= PI / 2.
Lemma simple_range (n : node exact quat K) m n' : in_range n -> update_simple_filters exact quat get_roll get_pitch K n m = Ok n' -> in_range n'.
Proof.
  intros [R P] E. unfold update_simple_filters in E.
  destruct (vat _ 14) in E; try discriminate. destruct (vat _ 21) in E; try discriminate. destruct (vat _ 28) in E; try discriminate. destruct (time_of _) in E; try discriminate.
  cbn [bind] in E. injection E as <-. unfold in_range. cbn [n_roll n_pitch]. destruct Hread as [HR _]. destruct (HR (p_orient _ _ m)) as [HR1 HR2].
  split.
  - split; [apply update_above; lra|]. apply (update_between (- PI) PI); lra.
  - apply update_between; auto.
Qed.
(** Ticks leave the one-dimensional filters alone and publish their values. *)
Lemma tick_heights (n n' : node exact quat K) t1 t2 t3 t4 t5 : timer_callback exact roundf_exact sin cos atan2 Ropp quat get_yaw K prm n t1 t2 t3 t4 t5 = Ok n' ->
  n_z _ _ _ n' = n_z _ _ _ n /\ n_roll _ _ _ n' = n_roll _ _ _ n /\ n_pitch _ _ _ n' = n_pitch _ _ _ n /\
  (n_out _ _ _ n' = n_out _ _ _ n \/ exists x y yaw pc vx wz tc, let pose := [x; y; f_x _ (n_z _ _ _ n); f_x _ (n_roll _ _ _ n); f_x _ (n_pitch _ _ _ n); yaw] in
    n_out _ _ _ n' = n_out _ _ _ n ++ [OutTransform exact t4 (pose_frame_id _ prm) pose; OutOdometry exact t5 (pose_frame_id _ prm) pose pc vx wz tc]).
Proof.
  unfold timer_callback. destruct (n_ekf _ _ _ n) as [f0|]; [|intros E; injection E as <-; auto].
  destruct (interval_compute _ _ _ _) as [[dt| | | | |] last]; try discriminate; [|intros E; injection E as <-; cbn; auto].
  destruct (kf_predict _ _ _ _ _) as [f1| | | | |]; try discriminate. cbn [bind].
  destruct (pose_update _ _ _ _ _ _ _ _ _ _ _ _ _) as [[pq f2]| | | | |]; try discriminate. cbn [bind].
  destruct (twist_update _ _ _ _ _ _ _ _) as [[tq f3]| | | | |]; try discriminate. cbn [bind].
  intros E. injection E as <-. cbn [n_z n_roll n_pitch n_out]. repeat split. right. do 7 eexists. reflexivity.
Qed.
Lemma step_range n e n' : in_range n -> step n e = Ok n' -> in_range n'.
Proof.
  intros I E. destruct e as [t1 t2 t3 t4 t5|m tf|m|m]; cbn [node_step] in E.
  - destruct (tick_heights _ _ _ _ _ _ _ E) as (_ & A & B & _). unfold in_range. rewrite A, B. exact I.
  - unfold callback_initial_pose in E. do 2 (destruct (erase_begin_slash _) in E; try discriminate; cbn [bind] in E). destruct tf as [tr|]; [|discriminate].
    cbv zeta in E. destruct (init_covariance _ _) in E; try discriminate. cbn [bind] in E. destruct (kf_new _ _ _ _) in E; try discriminate. cbn [bind] in E.
    destruct (update_simple_filters _ _ _ _ _ _ _) as [n2| | | | |] eqn:U; try discriminate. cbn [bind] in E. injection E as <-.
    apply simple_range in U; [exact U|exact I].
  - unfold callback_pose in E. apply simple_range in E; [exact E|exact I].
  - injection E as <-. exact I.
Qed.
Lemma run_range h n : run h = Ok n -> in_range n.
Proof.
  unfold node_run. assert (I0 : in_range (node_new exact quat K)) by (unfold in_range; cbn; pose proof PI_RGT_0; lra).
  revert I0. generalize (node_new exact quat K). induction h as [|e h IH]; intros n0 I0 E; cbn [foldM] in E.
  - injection E as <-. exact I0.
  - destruct (step n0 e) as [n1| | | | |] eqn:S; try discriminate. cbn [bind] in E. eapply IH; [eapply step_range; eauto|exact E].
Qed.
Lemma ticks_heights (ts : list five) : forall n n', foldM step n (map (tick_of quat) ts) = Ok n' ->
  exists published, n_out _ _ _ n' = n_out _ _ _ n ++ published /\
    Forall (fun o => exists x y yaw, match o with OutTransform _ _ _ p => p | OutOdometry _ _ _ p _ _ _ _ => p end
      = [x; y; f_x _ (n_z _ _ _ n); f_x _ (n_roll _ _ _ n); f_x _ (n_pitch _ _ _ n); yaw]) published.
Proof.
  induction ts as [|[[[[t1 t2] t3] t4] t5] ts IH]; intros n n' E; cbn [map foldM] in E.
  - injection E as <-. exists []. rewrite app_nil_r. auto.
  - cbn [tick_of] in E. destruct (step n _) as [n1| | | | |] eqn:S; try discriminate. cbn [bind] in E. cbn [node_step] in S.
    destruct (tick_heights _ _ _ _ _ _ _ S) as (A & B & C & O). destruct (IH _ _ E) as (pub & EO & F). rewrite A, B, C in F.
    destruct O as [O|(x & y & yaw & pc & vx & wz & tc & O)]; rewrite O in EO.
    + exists pub. auto.
    + rewrite <- app_assoc in EO. eexists. split; [exact EO|]. cbn [app]. constructor; [exists x, y, yaw; reflexivity|]. constructor; [exists x, y, yaw; reflexivity|]. exact F.
Qed.

(** The pose last published by a tick, sent back as the initial pose in the same frame: as
    long as no measurements arrive, every further tick publishes the same position, roll,
    pitch and heading. *)
Theorem C131_restart : forall sign h t1 t2 t3 t4 t5 n0 n o x y z roll pitch yaw pc vx wz tc stamp cov n1 ts,
  SpecMsg.up_to_sign sign -> sound_history quat (h ++ [EvTimer exact quat t1 t2 t3 t4 t5]) ->
  run h = Ok n0 -> step n0 (EvTimer exact quat t1 t2 t3 t4 t5) = Ok n ->
  n_out _ _ _ n = n_out _ _ _ n0 ++ [o; OutOdometry exact t5 (pose_frame_id _ prm) [x; y; z; roll; pitch; yaw] pc vx wz tc] ->
  Rabs (sin pitch) < 99999 / 100000 ->
  let sent := published_pose sign [x; y; z; roll; pitch; yaw] in
  let p := MsgModel.position sent in
  let m := PoseMsg exact quat (pose_frame_id _ prm) stamp (PoseModel.vx p) (PoseModel.vy p) (PoseModel.vz p) (MsgModel.orientation sent) cov in
  sound_pose quat m -> step n (EvInitialPose exact quat m (Some (TransformMsg exact quat 0 0 0 qid))) = Ok n1 ->
  advancing (n_last _ _ _ n) ts ->
  exists n2 published, foldM step n1 (map (tick_of quat) ts) = Ok n2 /\ n_out _ _ _ n2 = n_out _ _ _ n1 ++ published /\
    List.length published = (2 * List.length ts)%nat /\ Forall (reports_all x y z roll pitch yaw) published.
Proof.
  cbv zeta. intros sign h t1 t2 t3 t4 t5 n0 n o x y z roll pitch yaw pc vx wz tc stamp cov n1 ts HS SH E0 E1 OUT HU SM E2 AD.
  assert (ER : run (h ++ [EvTimer exact quat t1 t2 t3 t4 t5]) = Ok n).
  { unfold node_run in *. rewrite foldM_app, E0. cbn [bind foldM]. rewrite E1. reflexivity. }
  destruct (run_range _ _ ER) as [RR RP].
  cbn [node_step] in E1. destruct (tick_heights _ _ _ _ _ _ _ E1) as (A & B & C & O).
  destruct O as [O|(x' & y' & yaw' & pc' & vx' & wz' & tc' & O)].
  { rewrite O in OUT. exfalso. rewrite <- (app_nil_r (n_out _ _ _ n0)) in OUT at 1. apply app_inv_head in OUT. discriminate. }
  rewrite O in OUT. apply app_inv_head in OUT. injection OUT as _ X1 X2 X3 X4 X5 X6 _ _ _ _.
  rewrite <- A in X3. rewrite <- B in X4. rewrite <- C in X5. rewrite X4 in RR. rewrite X5 in RP.
  destruct (C131_read_back sign get_yaw get_roll get_pitch x y z roll pitch yaw HS Hread RR RP HU) as (P0 & U & Q1 & Q2 & Q3 & Q4).
  change (D exact) with R in *. remember (published_pose sign [x; y; z; roll; pitch; yaw]) as sent eqn:ES. clear ES.
  assert (Y0 : get_yaw qid = 0).
  { destruct Hread as [_ HA]. destruct (HA qid) as (Y & _).
    - split; [unfold unit, qnorm2, qid; cbn; ring|]. replace (m20 (to_rotation qid)) with 0 by (unfold to_rotation, qid; cbn; ring). rewrite Rabs_R0. lra.
    - rewrite Y. unfold to_rotation, qid. cbn [m10 m00]. replace (2 * 0 * 0 + 2 * 1 * 0) with 0 by ring. rewrite atan2_zero. destruct (Rlt_dec _ 0); [exfalso; lra|reflexivity]. }
  destruct (C88_stays_put inverse Hinv junk quat get_yaw get_roll get_pitch prm Hprm _ n _ _ n1 ts SH ER SM E2 AD) as (n2 & pub & F1 & F2 & F3 & F4).
  exists n2, pub. split; [exact F1|]. split; [exact F2|]. split; [exact F3|].
  destruct (ticks_heights ts n1 n2 F1) as (pub' & G1 & G2). rewrite F2 in G1. apply app_inv_head in G1. subst pub'.
  assert (H1 : f_x _ (n_z _ _ _ n1) = z /\ f_x _ (n_roll _ _ _ n1) = roll /\ f_x _ (n_pitch _ _ _ n1) = pitch).
  { cbn [node_step] in E2. unfold callback_initial_pose in E2. cbn [p_frame] in E2. destruct (erase_begin_slash _) in E2; try discriminate. cbn [bind] in E2.
    cbv zeta in E2. destruct (init_covariance _ _) in E2; try discriminate. cbn [bind] in E2. destruct (kf_new _ _ _ _) in E2; try discriminate. cbn [bind] in E2.
    unfold update_simple_filters in E2. destruct (vat _ 14) in E2; try discriminate. destruct (vat _ 21) in E2; try discriminate. destruct (vat _ 28) in E2; try discriminate.
    destruct (time_of _) in E2; try discriminate. cbn [bind] in E2. injection E2 as <-. cbn [n_z n_roll n_pitch p_z p_orient].
    rewrite Q1, Q2, P0. cbn [PoseModel.vz]. rewrite <- X3, <- X4, <- X5, !update_same. auto. }
  destruct H1 as (Z1 & Z2 & Z3). rewrite Z1, Z2, Z3 in G2. cbn [p_x p_y p_orient tr_x tr_y tr_rot] in F4. rewrite P0, Y0 in F4. cbn [PoseModel.vx PoseModel.vy] in F4.
  rewrite !Rplus_0_r in F4. clear - F4 G2 Q4.
  induction pub as [|a pub IH]; constructor; inversion F4; inversion G2; subst; auto.
  destruct H5 as (x' & y' & yaw' & EP). destruct a as [s f pl|s f pl c1 v w c2]; cbn [reports_all reports_rest] in *; subst pl; cbn [nth] in *.
  - destruct H1 as (-> & -> & HH). exists yaw'. split; [reflexivity|]. eapply heading_trans; eauto.
  - destruct H1 as ((-> & -> & HH) & V & W). split; [|auto]. exists yaw'. split; [reflexivity|]. eapply heading_trans; eauto.
Qed.
End Restart.
Print Assumptions C131_restart.

(** Functions that read the angles, and a vehicle lying on its back with the nose up, whose
    heading is given as one and a half turns; the message holds the opposite quaternion. *)
Definition read_yaw (q : quat) : R := atan2 (m10 (to_rotation q)) (m00 (to_rotation q)).
Definition read_roll (q : quat) : R := atan2 (m21 (to_rotation q)) (m22 (to_rotation q)).
Definition read_pitch (q : quat) : R := - asin (m20 (to_rotation q)).
Lemma atan2_range y x : - PI < atan2 y x <= PI.
Proof.
  pose proof PI_RGT_0. destruct (Rtotal_order y 0) as [Hy|[->|Hy]].
  - pose proof (lower_range y x Hy). lra.
  - rewrite atan2_zero. destruct (Rlt_dec x 0); lra.
  - pose proof (upper_range y x Hy). lra.
Qed.
Example ex_reads_angles : reads_angles read_yaw read_roll read_pitch.
Proof.
  split; [|intros q _; repeat split]. intros q. split; [apply atan2_range|]. unfold read_pitch. pose proof (asin_bound (m20 (to_rotation q))). lra.
Qed.
Lemma opposite : SpecMsg.up_to_sign SpecMsg.qopp. Proof. intros q. auto. Qed.
Definition on_its_back : list R := [1; 2; 3; PI; - (PI / 6); 3 * PI].
Definition back_msg : MsgModel.pose_msg := published_pose SpecMsg.qopp on_its_back.
Lemma nose_up : - PI < PI <= PI /\ - PI / 2 <= - (PI / 6) <= PI / 2 /\ Rabs (sin (- (PI / 6))) < 99999 / 100000.
Proof. pose proof PI_RGT_0. repeat split; try lra. rewrite sin_neg, Rabs_Ropp, sin_PI6, Rabs_right; lra. Qed.
Example C131_case :
  read_roll (MsgModel.orientation back_msg) = PI /\ read_pitch (MsgModel.orientation back_msg) = - (PI / 6) /\ read_yaw (MsgModel.orientation back_msg) = PI.
Proof.
  destruct nose_up as (N1 & N2 & N3).
  destruct (C131_read_back SpecMsg.qopp read_yaw read_roll read_pitch 1 2 3 PI (- (PI / 6)) (3 * PI) opposite ex_reads_angles N1 N2 N3) as (_ & _ & A & B & C & [k D]).
  split; [exact A|]. split; [exact B|]. change (published_pose _ _) with back_msg in *. set (w := read_yaw _) in *. pose proof PI_RGT_0.
  assert (E : IZR k = -1).
  { assert (IZR (-2) < IZR k) by (apply (Rmult_lt_reg_l (2 * PI)); lra). assert (IZR k <= IZR (-1)) by (apply (Rmult_le_reg_l (2 * PI)); lra).
    apply lt_IZR in H0. apply le_IZR in H1. assert (k = (-1)%Z) by lia. subst k. reflexivity. }
  rewrite D, E. ring.
Qed.
(** The same pose as the lidar localizer would send it: the heading is that of the axis. *)
Example C131_pose_case : let T := make_pose_from_xyzrpy 1 2 3 PI (- (PI / 6)) (3 * PI) in
  is_rotation (lin T) /\ Rabs (m20 (lin T)) < 99999 / 100000 /\
  exists yaw, points_along yaw (m00 (lin T)) (m10 (lin T)) /\ yaw = PI.
Proof.
  destruct nose_up as (N1 & N2 & N3). intros T. destruct (C46_rpy PI (- (PI / 6)) (3 * PI)) as [U E].
  assert (HR : is_rotation (lin T)) by (apply to_rotation_is_rotation; exact U).
  assert (H20 : m20 (lin T) = - sin (- (PI / 6))).
  { change (lin T) with (to_rotation (rpy_to_quaternion PI (- (PI / 6)) (3 * PI))). rewrite E. unfold mmul3, rot_z, rot_y, rot_x. cbn -[sin cos PI]. ring. }
  split; [exact HR|]. split; [rewrite H20, Rabs_Ropp; exact N3|].
  destruct (C131_heading_of_pose SpecMsg.qopp read_yaw read_roll read_pitch T "map" 0 [] opposite ex_reads_angles HR) as (yaw & _ & P & Y & _); [rewrite H20, Rabs_Ropp; exact N3|].
  exists yaw. split; [exact P|]. rewrite <- Y. destruct C131_case as (_ & _ & C). exact C.
Qed.

(** This pose as the first initial pose, a tick, and the published pose sent back. *)
Section Case.
Variable inverse : nat -> (nat -> nat -> R) -> option (nat -> nat -> R).
Hypothesis Hinv : inverts inverse.
Variable junk : nat -> nat -> R.
Notation K := (ekf_kalman exact inverse junk).
Notation step := (node_step exact roundf_exact sin cos atan2 Ropp quat read_yaw read_roll read_pitch K bias_prm).
Notation run := (node_run exact roundf_exact sin cos atan2 Ropp quat read_yaw read_roll read_pitch K bias_prm).
Definition first_pose : pose_msg exact quat := PoseMsg exact quat "map" 0 1 2 3 (MsgModel.orientation back_msg) (blurred36 1 1 0).
Definition here : transform_msg exact quat := TransformMsg exact quat 0 0 0 qid.
Lemma blurred_pose frame stamp x y z q : sound_pose quat (PoseMsg exact quat frame stamp x y z q (blurred36 1 1 0)).
Proof. destruct (blurred_sound 1 1 0 ltac:(lra) ltac:(lra)) as [F _]. inversion F. exact H1. Qed.
Lemma starts (n : node exact quat K) frame x y z q : frame <> ""%string ->
  exists n', step n (EvInitialPose exact quat (PoseMsg exact quat frame 0 x y z q (blurred36 1 1 0)) (Some here)) = Ok n'.
Proof.
  intros NF. cbn [node_step]. unfold callback_initial_pose. cbn [pose_frame_id bias_prm p_frame].
  destruct frame as [|c s]; [contradiction|]. cbn [erase_begin_slash]. destruct (Ascii.eqb c _); cbn [bind]; eexists; reflexivity.
Qed.
Example C131_restart_case : exists n0 n o x y yaw pc vx wz tc n1,
  run [EvInitialPose exact quat first_pose (Some here)] = Ok n0 /\
  step n0 (EvTimer exact quat 1000000000 1000000000 1000000000 1000000000 1000000000) = Ok n /\
  n_out _ _ _ n = n_out _ _ _ n0 ++ [o; OutOdometry exact 1000000000 "map" [x; y; 3; PI; - (PI / 6); yaw] pc vx wz tc] /\
  let sent := published_pose SpecMsg.qopp [x; y; 3; PI; - (PI / 6); yaw] in
  let p := MsgModel.position sent in
  step n (EvInitialPose exact quat (PoseMsg exact quat "map" 0 (PoseModel.vx p) (PoseModel.vy p) (PoseModel.vz p) (MsgModel.orientation sent) (blurred36 1 1 0)) (Some here)) = Ok n1 /\
  exists n2 a b, step n1 (EvTimer exact quat 2000000000 2000000000 2000000000 2000000000 2000000000) = Ok n2 /\
    n_out _ _ _ n2 = n_out _ _ _ n1 ++ [a; b] /\ reports_all x y 3 PI (- (PI / 6)) yaw b.
Proof.
  destruct nose_up as (N1 & N2 & N3). destruct C131_case as (A & B & _).
  destruct (starts (node_new exact quat K) "map" 1 2 3 (MsgModel.orientation back_msg) ltac:(discriminate)) as [n0 S0]. fold first_pose in S0.
  assert (R0 : run [EvInitialPose exact quat first_pose (Some here)] = Ok n0) by (unfold node_run; cbn [foldM]; rewrite S0; reflexivity).
  assert (SH : forall h, sound_history quat ([EvInitialPose exact quat first_pose (Some here)] ++ map (fun t => EvTimer exact quat t t t t t) (h : list Z)) <-> NoDup h).
  { intros h. unfold sound_history. assert (ER : readings quat ([EvInitialPose exact quat first_pose (Some here)] ++ map (fun t => EvTimer exact quat t t t t t) h) = h).
    { cbn [app readings flat_map]. induction h as [|t h IH]; [reflexivity|]. cbn [map flat_map app]. f_equal. exact IH. }
    rewrite ER. split; [intros [_ H]; exact H|]. intros H. split; [|exact H]. apply Forall_app. split; [constructor; [apply blurred_pose|constructor]|].
    clear. induction h; constructor; auto. exact Logic.I. }
  assert (NL : n_last _ _ _ n0 = None /\ n_out _ _ _ n0 = []) by (cbn [node_step] in S0; destruct (initial_clears _ _ _ _ _ _ _ _ _ _ _ S0) as (_ & _ & _ & L & O); rewrite L, O; split; reflexivity).
  destruct NL as [NL NO].
  destruct (C88_stays_put inverse Hinv junk quat read_yaw read_roll read_pitch bias_prm bias_params_sound [] _ first_pose here n0
    [(1000000000, 1000000000, 1000000000, 1000000000, 1000000000)%Z] ltac:(split; [constructor|constructor]) eq_refl (blurred_pose _ _ _ _ _ _) S0 ltac:(split; [intros l Hl; discriminate|exact Logic.I]))
    as (n & pub & E1 & OUT & LEN & _).
  cbn [map tick_of foldM] in E1. destruct (step n0 _) as [n'| | | | |] eqn:S1; try discriminate. cbn [bind] in E1. injection E1 as ->.
  assert (S1' := S1). cbn [node_step] in S1'. destruct (tick_heights inverse junk read_yaw bias_prm _ _ _ _ _ _ _ S1') as (_ & _ & _ & O).
  destruct O as [O|(x & y & yaw & pc & vx & wz & tc & O)].
  { exfalso. rewrite O in OUT. rewrite <- (app_nil_r (n_out _ _ _ n0)) in OUT at 1. apply app_inv_head in OUT. subst pub. discriminate LEN. }
  cbv zeta in O.
  assert (HF : f_x _ (n_z _ _ _ n0) = 3 /\ f_x _ (n_roll _ _ _ n0) = read_roll (MsgModel.orientation back_msg) /\ f_x _ (n_pitch _ _ _ n0) = read_pitch (MsgModel.orientation back_msg)).
  { clear - S0. revert S0. unfold first_pose. generalize (MsgModel.orientation back_msg). intros q S0. cbn [node_step] in S0. unfold callback_initial_pose in S0.
    cbn [p_frame pose_frame_id bias_prm] in S0. destruct (erase_begin_slash _) in S0; try discriminate. cbn [bind] in S0. cbv zeta in S0. destruct (init_covariance _ _) in S0; try discriminate. cbn [bind] in S0.
    destruct (kf_new _ _ _ _) in S0; try discriminate. cbn [bind] in S0.
    unfold update_simple_filters in S0. destruct (vat _ 14) in S0; try discriminate. destruct (vat _ 21) in S0; try discriminate. destruct (vat _ 28) in S0; try discriminate.
    destruct (time_of _) in S0; try discriminate. cbn [bind] in S0. injection S0 as <-. repeat split. }
  destruct HF as (F1 & F2 & F3). rewrite A in F2. rewrite B in F3. rewrite F1, F2, F3 in O.
  set (sent := published_pose SpecMsg.qopp [x; y; 3; PI; - (PI / 6); yaw]).
  destruct (starts n "map" (PoseModel.vx (MsgModel.position sent)) (PoseModel.vy (MsgModel.position sent)) (PoseModel.vz (MsgModel.position sent)) (MsgModel.orientation sent) ltac:(discriminate)) as [n1 S2].
  assert (NL1 : n_last _ _ _ n = Some (in_seconds 1000000000)).
  { assert (NE : exists f, n_ekf _ _ _ n0 = Some f).
    { cbn [node_step] in S0. destruct (initial_clears _ _ _ _ _ _ _ _ _ _ _ S0) as (NE & _). destruct (n_ekf _ _ _ n0) as [f|]; [eauto|contradiction]. }
    destruct NE as [f NE]. destruct (tick_some _ _ _ _ _ _ _ _ _ _ _ _ _ _ _ _ _ _ NE S1') as (_ & [(l & L & _)|(_ & L & _)]); [congruence|]. exact L. }
  destruct (C131_restart inverse Hinv junk read_yaw read_roll read_pitch ex_reads_angles bias_prm bias_params_sound SpecMsg.qopp _ _ _ _ _ _ n0 n _ x y 3 PI (- (PI / 6)) yaw pc vx wz tc 0%Z (blurred36 1 1 0) n1
    [(2000000000, 2000000000, 2000000000, 2000000000, 2000000000)%Z] opposite (proj2 (SH [1000000000%Z]) ltac:(repeat constructor; intros [])) R0 S1 O N3 (blurred_pose _ _ _ _ _ _) S2) as (n2 & pub2 & E2 & O2 & L2 & P2).
  { split; [|exact Logic.I]. rewrite NL1. intros l Hl. injection Hl as <-. unfold in_seconds. cbn [reading]. unfold in_seconds. lra. }
  cbn [map tick_of foldM] in E2. destruct (step n1 _) as [n2'| | | | |] eqn:S3; try discriminate. cbn [bind] in E2. injection E2 as ->.
  destruct pub2 as [|a [|b [|]]]; try discriminate L2.
  do 11 eexists. split; [exact R0|]. split; [exact S1|]. split; [exact O|]. cbv zeta. split; [exact S2|].
  exists n2, a, b. split; [exact S3|]. split; [exact O2|]. inversion P2. inversion H2. assumption.
Qed.
End Case.
