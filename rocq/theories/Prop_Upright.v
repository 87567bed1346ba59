(** Property C132: a vehicle that all poses report to stand on its wheels is published to
    stand on its wheels, one reported upside down is published upside down. *)
From Coq Require Import Reals Lra Lia List Bool ZArith String.
From Verif Require Import Base Arith SpecReal AngleProofs EkfModel SpecEkf KalmanModel SpecHeight Prop_Kalman Prop_Interval Prop_EkfNode Prop_Height.
From Verif Require Import PoseModel SpecPose RotProofs Prop_Rotation PublishModel SpecPublish Prop_Publish SpecUpright.
From Verif Require NodeProofs EkfNodeProofs MsgModel SpecMsg.
Import ListNotations.
Local Open Scope R_scope.

(** The upward axis, and the height of the forward and of the left axis, of a message made of
    roll, pitch and yaw. *)
Lemma message_axes sign p : SpecMsg.up_to_sign sign ->
  let q := MsgModel.orientation (published_pose sign p) in
  unit q /\ m20 (to_rotation q) = - sin (nth 4 p 0) /\ m21 (to_rotation q) = cos (nth 4 p 0) * sin (nth 3 p 0) /\
  m22 (to_rotation q) = cos (nth 4 p 0) * cos (nth 3 p 0).
Proof.
  intros HS q. set (roll := nth 3 p 0). set (pitch := nth 4 p 0). set (yaw := nth 5 p 0). destruct (C46_rpy roll pitch yaw) as [U E].
  assert (RR : is_rotation (lin (make_pose_from_xyzrpy (nth 0 p 0) (nth 1 p 0) (nth 2 p 0) roll pitch yaw))) by (apply to_rotation_is_rotation; exact U).
  destruct (message_rotation sign _ HS RR) as [U' E']. fold (published_pose sign p) in U', E'.
  change (MsgModel.orientation _) with q in U'. change (MsgModel.orientation _) with q in E'.
  change (lin _) with (to_rotation (rpy_to_quaternion roll pitch yaw)) in E'. rewrite E in E'.
  split; [exact U'|]. rewrite E'. unfold mmul3, rot_z, rot_y, rot_x. cbn. repeat split; ring.
Qed.
Lemma abs_within x a : Rabs x <= a <-> - a <= x <= a.
Proof. split; [intros H; pose proof (Rle_abs x); pose proof (Rle_abs (- x)); rewrite Rabs_Ropp in *; lra|intros [A B]; apply Rabs_le; lra]. Qed.
Lemma below_half x : Rabs x < 99999 / 100000 -> - PI / 2 < - asin x < PI / 2.
Proof.
  intros H. pose proof (Rle_abs x). pose proof (Rle_abs (- x)). rewrite Rabs_Ropp in *. pose proof (asin_bound_lt x ltac:(lra)). lra.
Qed.

Section Node.
Variable sn cs : R -> R.
Variable at2 : R -> R -> R.
Variable neg : R -> R.
Variable get_yaw get_roll get_pitch : quat -> R.
Hypothesis Hread : reads_angles get_yaw get_roll get_pitch.
Variable K : kalman exact.
Variable prm : params exact.
Variable sign : quat -> quat.
Hypothesis Hsign : SpecMsg.up_to_sign sign.
Notation run := (node_run exact roundf_exact sn cs at2 neg quat get_yaw get_roll get_pitch K prm).
Notation poses_of := (poses_of exact quat).
Notation uncertain := (uncertain quat).
Notation orient := (p_orient exact quat).

Lemma read_down q : wheels_down q -> get_roll q = atan (m21 (to_rotation q) / m22 (to_rotation q)) /\ get_pitch q = - asin (m20 (to_rotation q)) /\
  - (PI / 2) < get_roll q < PI / 2 /\ - (PI / 2) < get_pitch q < PI / 2.
Proof.
  intros [NU P]. destruct Hread as [_ HA]. destruct (HA q NU) as (_ & R & Q). destruct NU as [_ B].
  assert (R' : get_roll q = atan (m21 (to_rotation q) / m22 (to_rotation q))).
  { rewrite R. unfold atan2. destruct (Rlt_dec 0 _); [reflexivity|lra]. }
  split; [exact R'|]. split; [exact Q|]. rewrite R', Q. pose proof (atan_bound (m21 (to_rotation q) / m22 (to_rotation q))). pose proof (below_half _ B). lra.
Qed.
(** Values strictly inside an interval have a common distance from its ends. *)
Lemma common_bound {X} (P : X -> Prop) (f : X -> R) l a : 0 < a -> Forall (fun x => P x /\ - a < f x < a) l -> exists b, 0 <= b < a /\ Forall (fun x => P x /\ - b <= f x <= b) l.
Proof.
  intros A F. induction F as [|x l [H Hx] _ (b & B & IH)]; [exists 0; split; [lra|constructor]|].
  exists (Rmax b (Rabs (f x))). pose proof (Rmax_l b (Rabs (f x))). pose proof (Rmax_r b (Rabs (f x))). pose proof (proj1 (abs_within (f x) (Rabs (f x))) (Rle_refl _)).
  split; [split; [lra|apply Rmax_lub_lt; [lra|apply Rabs_def1; lra]]|]. constructor; [split; [exact H|lra]|].
  eapply Forall_impl; [|exact IH]. cbn. intros y [HP Hy]. split; [exact HP|lra].
Qed.

(** Every message of a history in which all poses report the vehicle on its wheels shows it
    on its wheels: the sense of the upward axis is kept. *)
Theorem C132_upright_partial : forall h n,
  Forall (fun m => uncertain m /\ wheels_down (orient m)) (poses_of h) -> run h = Ok n ->
  Forall (fun o => 0 < m22 (to_rotation (orientation_in sign o))) (n_out _ _ _ n).
Proof.
  intros h n F E. pose proof PI_RGT_0.
  assert (B : forall k, (3 <= k <= 4)%nat -> Forall (fun o => - (PI / 2) < entry exact k o < PI / 2) (n_out _ _ _ n)).
  { intros k Hk. destruct (common_bound uncertain (given exact quat get_roll get_pitch k) (poses_of h) (PI / 2) ltac:(lra)) as (b & Hb & FB).
    { eapply Forall_impl; [|exact F]. cbn. intros m [U D]. split; [exact U|]. destruct (read_down _ D) as (_ & _ & R & Q). destruct k as [|[|[|[|[|k]]]]]; try lia; assumption. }
    pose proof (C98_between sn cs at2 neg quat get_yaw get_roll get_pitch K prm k (- b) b h n ltac:(lia) FB E) as G.
    eapply Forall_impl; [|exact G]. cbn. intros o Ho. lra. }
  pose proof (B 3%nat ltac:(lia)) as B3. pose proof (B 4%nat ltac:(lia)) as B4. rewrite Forall_forall in *. intros o Ho. specialize (B3 o Ho). specialize (B4 o Ho).
  destruct (message_axes sign (pose_in exact o) Hsign) as (_ & _ & _ & E22). unfold orientation_in. rewrite E22.
  unfold entry in B3, B4. change (d_of_Z exact 0) with 0 in B3, B4. change (D exact) with R in *. apply Rmult_lt_0_compat; apply cos_gt_0; lra.
Qed.

(** The inclination of the published pose is at most that of the reported ones. *)
Theorem C132_inclination_partial : forall pitch roll h n, 0 <= pitch -> sin pitch < 99999 / 100000 -> pitch < PI / 2 -> 0 <= roll < PI / 2 ->
  Forall (fun m => uncertain m /\ inclined pitch roll (orient m)) (poses_of h) -> run h = Ok n ->
  Forall (fun o => inclined pitch roll (orientation_in sign o)) (n_out _ _ _ n).
Proof.
  intros pitch roll h n P0 PS P1 R0 F E. pose proof PI_RGT_0.
  assert (B3 : Forall (fun m => uncertain m /\ - roll <= given exact quat get_roll get_pitch 3 m <= roll) (poses_of h)).
  { eapply Forall_impl; [|exact F]. cbn. intros m [U (D & _ & T)]. split; [exact U|]. destruct (read_down _ D) as (R & _). rewrite R. destruct D as [_ D].
    apply abs_within in T. assert (T' : - tan roll <= m21 (to_rotation (orient m)) / m22 (to_rotation (orient m)) <= tan roll).
    { split; apply (Rmult_le_reg_r (m22 (to_rotation (orient m)))); auto; unfold Rdiv; rewrite Rmult_assoc, Rinv_l by lra; lra. }
    rewrite <- (atan_tan roll) by lra. rewrite <- atan_opp. split.
    - destruct (Rle_lt_or_eq_dec _ _ (proj1 T')) as [L| ->]; [left; apply atan_increasing; exact L|lra].
    - destruct (Rle_lt_or_eq_dec _ _ (proj2 T')) as [L| ->]; [left; apply atan_increasing; exact L|lra]. }
  assert (B4 : Forall (fun m => uncertain m /\ - pitch <= given exact quat get_roll get_pitch 4 m <= pitch) (poses_of h)).
  { eapply Forall_impl; [|exact F]. cbn. intros m [U (D & S & _)]. split; [exact U|]. destruct (read_down _ D) as (_ & Q & _ & _). rewrite Q.
    apply abs_within in S. assert (SB : - 1 <= m20 (to_rotation (orient m)) <= 1) by lra. pose proof (asin_bound (m20 (to_rotation (orient m)))).
    assert (L1 : asin (m20 (to_rotation (orient m))) <= pitch) by (apply sin_incr_0; try lra; rewrite sin_asin by lra; lra).
    assert (L2 : - pitch <= asin (m20 (to_rotation (orient m)))) by (apply sin_incr_0; try lra; rewrite sin_asin, sin_neg by lra; lra). lra. }
  pose proof (C98_between sn cs at2 neg quat get_yaw get_roll get_pitch K prm 3 (- roll) roll h n ltac:(lia) B3 E) as G3.
  pose proof (C98_between sn cs at2 neg quat get_yaw get_roll get_pitch K prm 4 (- pitch) pitch h n ltac:(lia) B4 E) as G4.
  rewrite Forall_forall in *. intros o Ho. specialize (G3 o Ho). specialize (G4 o Ho). unfold entry in G3, G4. change (d_of_Z exact 0) with 0 in G3, G4. change (D exact) with R in *.
  destruct (message_axes sign (pose_in exact o) Hsign) as (U & E20 & E21 & E22). fold (orientation_in sign o) in *.
  set (r := nth 3 _ 0) in *. set (p := nth 4 _ 0) in *. assert (C : 0 < cos p) by (apply cos_gt_0; lra). assert (C' : 0 < cos r) by (apply cos_gt_0; lra). 
  assert (SP : - sin pitch <= sin p <= sin pitch) by (rewrite <- sin_neg; split; apply sin_incr_1; lra).
  unfold inclined, wheels_down, not_upright. rewrite E20, E21, E22, Rabs_Ropp. split; [split; [split; [exact U|]|]|split].
  - apply Rabs_def1; lra.
  - apply Rmult_lt_0_compat; assumption.
  - apply abs_within. exact SP.
  - rewrite Rabs_mult, (Rabs_pos_eq (cos p)) by lra. replace (tan roll * (cos p * cos r)) with (cos p * (tan roll * cos r)) by ring. apply Rmult_le_compat_l; [lra|].
    assert (T : - tan roll <= tan r <= tan roll).
    { rewrite <- tan_neg. split.
      - destruct (Rle_lt_or_eq_dec _ _ (proj1 G3)) as [L| <-]; [left; apply tan_increasing; lra|lra].
      - destruct (Rle_lt_or_eq_dec _ _ (proj2 G3)) as [L| ->]; [left; apply tan_increasing; lra|lra]. }
    assert (S : sin r = tan r * cos r) by (unfold tan; field; lra). rewrite S. apply abs_within. split; [|apply Rmult_le_compat_r; lra].
    replace (- (tan roll * cos r)) with (- tan roll * cos r) by ring. apply Rmult_le_compat_r; lra.
Qed.
End Node.
Print Assumptions C132_upright_partial.
Print Assumptions C132_inclination_partial.

(** ** Two poses with the roll [a] and [b] *)
Definition rolled (sign : quat -> quat) (a : R) : quat := MsgModel.orientation (published_pose sign [1; 2; 0; a; 0; 0]).
Definition rolled_pose (sign : quat -> quat) (a : R) : pose_msg exact quat := PoseMsg exact quat "map" 0 1 2 0 (rolled sign a) (repeat 1 36).
Definition two_poses (sign : quat -> quat) (a b : R) : list (event exact quat) :=
  [EvInitialPose exact quat (rolled_pose sign a) (Some (TransformMsg exact quat 0 0 0 qid)); EvPose exact quat (rolled_pose sign b)].
Lemma rolled_uncertain sign a : uncertain quat (rolled_pose sign a).
Proof. intros k Hk. destruct k as [|[|[|[|[|k]]]]]; try lia; cbn; lra. Qed.
Lemma rolled_axes sign a : SpecMsg.up_to_sign sign -> not_upright (rolled sign a) /\
  m20 (to_rotation (rolled sign a)) = 0 /\ m21 (to_rotation (rolled sign a)) = sin a /\ m22 (to_rotation (rolled sign a)) = cos a.
Proof.
  intros HS. destruct (message_axes sign [1; 2; 0; a; 0; 0] HS) as (U & A & B & C). cbn [nth] in A, B, C. fold (rolled sign a) in U, A, B, C.
  rewrite sin_0 in A. rewrite cos_0 in B, C. unfold not_upright. rewrite A, B, C. rewrite Ropp_0, Rabs_R0. repeat split; try ring; auto; lra.
Qed.
Section Two.
Variable inverse : nat -> (nat -> nat -> R) -> option (nat -> nat -> R).
Variable junk : nat -> nat -> R.
Variable get_yaw get_roll get_pitch : quat -> R.
Variable sign : quat -> quat.
Notation K := (ekf_kalman exact inverse junk).
Notation run := (node_run exact roundf_exact sin cos atan2 Ropp quat get_yaw get_roll get_pitch K ex_prm).
Notation step := (node_step exact roundf_exact sin cos atan2 Ropp quat get_yaw get_roll get_pitch K ex_prm).
Notation tick := (EvTimer exact quat 20000000 20000000 20000000 20000000 20000000).
Lemma two_poses_run a b : exists n0 n, run (two_poses sign a b) = Ok n0 /\ n_out _ _ _ n0 = [] /\ step n0 tick = Ok n /\ run (two_poses sign a b ++ [tick]) = Ok n /\ n_out _ _ _ n <> [].
Proof.
  assert (C : forall h, h = [] \/ h = [tick] -> exists n, run (two_poses sign a b ++ h) = Ok n).
  { intros h Hh. eapply C81_defined_partial with (lo := 0%Z) (hi := 1000000000000%Z) (g := 20000000%Z); try lia; try (cbn; lia); try (cbn; lra); try discriminate.
    destruct Hh as [-> | ->]; cbn; unfold good_pose; cbn; repeat split; try lia; discriminate. }
  destruct (C [] ltac:(auto)) as [n0 E0]. rewrite app_nil_r in E0. destruct (C [tick] ltac:(auto)) as [n E]. exists n0, n. split; [exact E0|].
  assert (S : step n0 tick = Ok n).
  { unfold node_run in E, E0. rewrite NodeProofs.foldM_app, E0 in E. cbn [bind foldM] in E. destruct (step n0 tick); cbn [bind] in E; congruence. }
  assert (I : n_ekf _ _ _ n0 <> None /\ n_last _ _ _ n0 = None /\ n_out _ _ _ n0 = []).
  { unfold node_run, two_poses in E0. cbn [foldM] in E0. destruct (step (node_new exact quat K) _) as [n1| | | | |] eqn:S1; try discriminate. cbn [bind] in E0.
    destruct (step n1 _) as [n2| | | | |] eqn:S2; try discriminate. cbn [bind] in E0. injection E0 as ->. cbn [node_step] in S1, S2.
    destruct (EkfNodeProofs.initial_clears _ _ _ _ _ _ _ _ _ _ _ S1) as (A1 & _ & _ & A2 & A3). destruct (EkfNodeProofs.pose_frame _ _ _ _ _ _ _ _ S2) as (B1 & B2 & B3 & _).
    rewrite B1, B2, B3, A2, A3. split; [exact A1|]. split; reflexivity. }
  destruct I as (I1 & I2 & I3). split; [exact I3|]. split; [exact S|]. split; [exact E|]. destruct (n_ekf _ _ _ n0) as [f|] eqn:EF; [|contradiction]. cbn [node_step] in S.
  destruct (EkfNodeProofs.tick_some _ _ _ _ _ _ _ _ _ _ _ _ _ _ _ _ _ _ EF S) as (_ & [(l & L & _)|(_ & _ & P)]); [congruence|].
  destruct P as (p & pc & vx & wz & tc & P). rewrite P, I3. discriminate.
Qed.

(** All poses report the vehicle upside down, leaning by less than a right angle to one side
    and to the other; it is published as standing upright on its wheels. *)
Theorem C132_upside_down_refuted : forall a, SpecMsg.up_to_sign sign -> reads_angles get_yaw get_roll get_pitch -> PI / 2 < a < PI ->
  let h := two_poses sign a (- a) ++ [tick] in
  Forall (fun m => uncertain quat m /\ wheels_up (p_orient _ _ m)) (poses_of exact quat h) /\
  exists n, run h = Ok n /\ n_out _ _ _ n <> [] /\ Forall (fun o => m22 (to_rotation (orientation_in sign o)) = 1) (n_out _ _ _ n).
Proof.
  intros a HS HR A h. pose proof PI_RGT_0. destruct (rolled_axes sign a HS) as (U1 & _ & _ & C1). destruct (rolled_axes sign (- a) HS) as (U2 & _ & _ & C2).
  assert (CA : cos a < 0) by (apply cos_lt_0; lra). rewrite cos_neg in C2.
  assert (PO : poses_of exact quat h = [rolled_pose sign a; rolled_pose sign (- a)]) by reflexivity. rewrite PO.
  assert (UN : Forall (uncertain quat) [rolled_pose sign a; rolled_pose sign (- a)]) by (repeat constructor; apply rolled_uncertain).
  split; [repeat constructor; try apply rolled_uncertain; cbn [p_orient rolled_pose]; try (rewrite C1 || rewrite C2); auto; try apply U1; try apply U2|].
  destruct (two_poses_run a (- a)) as (n0 & n & E0 & O0 & S & E & NE). exists n. split; [exact E|]. split; [exact NE|].
  assert (RB : forall b, - PI < b <= PI -> get_roll (rolled sign b) = b /\ get_pitch (rolled sign b) = 0).
  { intros b Hb. destruct (C131_read_back sign get_yaw get_roll get_pitch 1 2 0 b 0 0 HS HR Hb ltac:(lra)) as (_ & _ & X & Y & _); [rewrite sin_0, Rabs_R0; lra|]. split; assumption. }
  assert (GP : forall b, given exact quat get_roll get_pitch 4 (rolled_pose sign b) = get_pitch (rolled sign b)) by reflexivity.
  assert (GR : forall b, measured quat get_roll get_pitch 3 (rolled_pose sign b) = (get_roll (rolled sign b), 1, 0%Z)) by reflexivity.
  destruct (RB a ltac:(lra)) as [R1 P1]. destruct (RB (- a) ltac:(lra)) as [R2 P2].
  destruct (C98_textbook sin cos atan2 Ropp quat get_yaw get_roll get_pitch K ex_prm 3 (two_poses sign a (- a)) n0 _ _ _ _ _ n ltac:(lia) UN E0 S) as (pub & O & F3). rewrite O0 in O. cbn [app] in O.
  pose proof (C98_between sin cos atan2 Ropp quat get_yaw get_roll get_pitch K ex_prm 4 0 0 h n ltac:(lia)) as F4. rewrite PO in F4.
  specialize (F4 ltac:(constructor; [split; [apply rolled_uncertain|rewrite GP, P1; lra]|constructor; [split; [apply rolled_uncertain|rewrite GP, P2; lra]|constructor]]) E).
  rewrite O in F4 |- *. rewrite Forall_forall in *. intros o Ho. specialize (F3 o Ho). specialize (F4 o Ho). destruct F3 as (s & T & M).
  destruct (message_axes sign (pose_in exact o) HS) as (_ & _ & _ & E22). unfold orientation_in. rewrite E22.
  unfold entry in F4, M. change (d_of_Z exact 0) with 0 in F4, M. change (D exact) with R in *. 
  assert (Z4 : nth 4 (pose_in exact o) 0 = 0) by (apply Rle_antisym; apply F4). assert (Z3 : nth 3 (pose_in exact o) 0 = 0).
  { transitivity (mean s); [exact M|]. change (@eq R (mean s) 0). change (poses_of exact quat (two_poses sign a (- a))) with [rolled_pose sign a; rolled_pose sign (- a)] in T. cbn [map] in T. rewrite !GR, R1, R2 in T. cbn [tracks fold_left] in T. subst s. unfold mean, fuse. cbn [fst]. rewrite Z.sub_diag. field. }
  assert (X4 : cos (nth 4 (pose_in exact o) 0) = 1) by (etransitivity; [apply (f_equal cos Z4)|apply cos_0]). assert (X3 : cos (nth 3 (pose_in exact o) 0) = 1) by (etransitivity; [apply (f_equal cos Z3)|apply cos_0]).
  transitivity (1 * 1); [exact (f_equal2 Rmult X4 X3)|ring].
Qed.
End Two.
Print Assumptions C132_upside_down_refuted.

(** The hypotheses of the other two: a vehicle that leans by 60 degrees to the left, then to
    the right, is published as upright. *)
Example C132_case inverse junk : exists n,
  Forall (fun m => uncertain quat m /\ wheels_down (p_orient _ _ m) /\ inclined 0 (PI / 3) (p_orient _ _ m))
    (poses_of exact quat (two_poses SpecMsg.qopp (PI / 3) (- (PI / 3)) ++ [EvTimer exact quat 20000000 20000000 20000000 20000000 20000000])) /\
  node_run exact roundf_exact sin cos atan2 Ropp quat read_yaw read_roll read_pitch (ekf_kalman exact inverse junk) ex_prm
    (two_poses SpecMsg.qopp (PI / 3) (- (PI / 3)) ++ [EvTimer exact quat 20000000 20000000 20000000 20000000 20000000]) = Ok n /\ n_out _ _ _ n <> [] /\
  reads_angles read_yaw read_roll read_pitch /\ SpecMsg.up_to_sign SpecMsg.qopp /\
  Forall (fun o => 0 < m22 (to_rotation (orientation_in SpecMsg.qopp o)) /\ inclined 0 (PI / 3) (orientation_in SpecMsg.qopp o)) (n_out _ _ _ n).
Proof.
  destruct (two_poses_run inverse junk read_yaw read_roll read_pitch SpecMsg.qopp (PI / 3) (- (PI / 3))) as (n0 & n & _ & _ & _ & E & NE). exists n. pose proof PI_RGT_0.
  assert (W : forall a, a = PI / 3 \/ a = - (PI / 3) -> wheels_down (rolled SpecMsg.qopp a) /\ inclined 0 (PI / 3) (rolled SpecMsg.qopp a)).
  { intros a Ha. destruct (rolled_axes SpecMsg.qopp a opposite) as (U & A & B & C).
    assert (CS : cos a = cos (PI / 3)) by (destruct Ha as [-> | ->]; [reflexivity|apply cos_neg]). assert (P : 0 < cos (PI / 3)) by (apply cos_gt_0; lra).
    assert (WD : wheels_down (rolled SpecMsg.qopp a)) by (split; [exact U|rewrite C, CS; exact P]). split; [exact WD|]. split; [exact WD|]. rewrite A, B, C, CS, Rabs_R0, sin_0. split; [lra|].
    replace (tan (PI / 3) * cos (PI / 3)) with (sin (PI / 3)) by (unfold tan; field; lra). assert (0 < sin (PI / 3)) by (apply sin_gt_0; lra).
    destruct Ha as [-> | ->]; [|rewrite sin_neg, Rabs_Ropp]; rewrite Rabs_pos_eq; lra. }
  assert (F : Forall (fun m => uncertain quat m /\ wheels_down (p_orient _ _ m) /\ inclined 0 (PI / 3) (p_orient _ _ m))
    (poses_of exact quat (two_poses SpecMsg.qopp (PI / 3) (- (PI / 3)) ++ [EvTimer exact quat 20000000 20000000 20000000 20000000 20000000]))).
  { change (poses_of exact quat _) with [rolled_pose SpecMsg.qopp (PI / 3); rolled_pose SpecMsg.qopp (- (PI / 3))].
    constructor; [split; [apply rolled_uncertain|apply W; auto]|constructor; [split; [apply rolled_uncertain|apply W; auto]|constructor]]. }
  split; [exact F|]. split; [exact E|]. split; [exact NE|]. split; [exact ex_reads_angles|]. split; [exact opposite|].
  assert (F1 := Forall_impl _ (fun m (X : uncertain quat m /\ wheels_down (p_orient _ _ m) /\ inclined 0 (PI / 3) (p_orient _ _ m)) => conj (proj1 X) (proj1 (proj2 X))) F).
  assert (F2 := Forall_impl _ (fun m (X : uncertain quat m /\ wheels_down (p_orient _ _ m) /\ inclined 0 (PI / 3) (p_orient _ _ m)) => conj (proj1 X) (proj2 (proj2 X))) F).
  pose proof (C132_upright_partial sin cos atan2 Ropp read_yaw read_roll read_pitch ex_reads_angles _ ex_prm SpecMsg.qopp opposite _ n F1 E) as G1.
  assert (G2 := C132_inclination_partial sin cos atan2 Ropp read_yaw read_roll read_pitch ex_reads_angles _ ex_prm SpecMsg.qopp opposite 0 (PI / 3) _ n ltac:(lra) ltac:(rewrite sin_0; lra) ltac:(lra) ltac:(lra) F2 E).
  rewrite Forall_forall in *. auto.
Qed.
