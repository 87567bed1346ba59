(** Properties C45-C46 and C48-C49: rotations, residuals and Jacobians. *)
From Coq Require Import List ZArith Bool Lia Lra Reals.
From Verif Require Import Base Arith PoseModel SpecPose AngleProofs RotProofs.
Import ListNotations.
Open Scope R_scope.

(** ** C45: exact expansion with remainder of norm |h|^2 |p|. *)
Theorem C45_drpdq_is_derivative q p h :
  has_shape 3 4 (drpdq q p) /\
  sandwich (qsum q h) p = vadd (vadd (sandwich q p) (vec_of (mat_app (drpdq q p) (coords h)))) (sandwich h p) /\
  vnorm (sandwich h p) = qnorm2 h * vnorm p.
Proof.
  split; [split; [reflexivity|repeat constructor]|]. split; [exact (sandwich_expand q h p)|].
  unfold vnorm. rewrite sandwich_norm. destruct h as [a b c d].
  assert (H : 0 <= qnorm2 (Qn a b c d)) by (unfold qnorm2; cbn [qw qx qy qz]; nra).
  destruct p as [x y z]. rewrite sqrt_mult; [|nra|unfold vdot; cbn [vx vy vz]; nra]. rewrite sqrt_square; auto.
Qed.
Print Assumptions C45_drpdq_is_derivative.
(** The sandwich is the rotation matrix for unit quaternions. *)
Theorem C45_sandwich_is_rotation q p : unit q ->
  mapply (to_rotation q) p = sandwich q p /\ is_rotation (to_rotation q).
Proof. exact (fun H => conj (to_rotation_sandwich q p H) (to_rotation_is_rotation q H)). Qed.
Print Assumptions C45_sandwich_is_rotation.
Example ex_C45 : sandwich (Qn 0 0 0 1) (V3 1 2 3) = V3 (-1) (-2) 3 /\ unit (Qn (3/5) 0 (4/5) 0).
Proof. split; [apply vec_ext; vcbn; lra|unfold unit, qnorm2; cbn [qw qx qy qz]; lra]. Qed.

(** ** C46. *)
Theorem C46_multiplication_matrices p q :
  mat_app (left_mul_matrix p) (coords q) = coords (hamilton p q) /\
  mat_app (right_mul_matrix q) (coords p) = coords (hamilton p q) /\
  qmul p q = hamilton p q.
Proof. exact (conj (left_mul p q) (conj (right_mul p q) (qmul_hamilton p q))). Qed.
Theorem C46_hat a b : mat_app (hat a) (vlist b) = vlist (vcross a b).
Proof. exact (hat_cross a b). Qed.
Theorem C46_wxyz : (forall q, from_wxyz (to_wxyz q) = q) /\ (forall l, to_wxyz (from_wxyz l) = l).
Proof. split; [intros []; reflexivity|intros [[[]]]; reflexivity]. Qed.

Lemma half_angle t : cos t = 2 * (cos (t / 2) * cos (t / 2)) - 1 /\ sin t = 2 * sin (t / 2) * cos (t / 2) /\
  sin (t / 2) * sin (t / 2) = 1 - cos (t / 2) * cos (t / 2).
Proof.
  assert (E : t = 2 * (t / 2)) by field. split; [|split].
  - rewrite E at 1. rewrite cos_2a_cos. ring.
  - rewrite E at 1. apply sin_2a.
  - pose proof (sin2_cos2 (t / 2)) as H. unfold Rsqr in H. lra.
Qed.
Lemma unit_axis angle axis : vdot axis axis = 1 -> unit (angle_axis angle axis).
Proof.
  destruct axis as [a b c]. unfold unit, qnorm2, angle_axis, vdot. cbn [qw qx qy qz vx vy vz]. intros H.
  destruct (half_angle angle) as [_ [_ H1]].
  replace (_ + _ + _ + _) with (cos (angle / 2) * cos (angle / 2) + sin (angle / 2) * sin (angle / 2) * (a * a + b * b + c * c)) by ring.
  rewrite H, H1. ring.
Qed.
Lemma rotation_mul p q : unit p -> unit q -> to_rotation (qmul p q) = mmul3 (to_rotation p) (to_rotation q).
Proof.
  destruct p as [a b c d], q as [e f g h]. unfold unit, qnorm2. cbn [qw qx qy qz]. intros Hp Hq.
  assert (Ha : a * a = 1 - b * b - c * c - d * d) by lra. assert (He : e * e = 1 - f * f - g * g - h * h) by lra.
  apply mat3_ext; vcbn; ring [Ha He].
Qed.
(** Rotation by roll about x, then pitch about y, then yaw about z, about the fixed axes. *)
Theorem C46_rpy roll pitch yaw :
  unit (rpy_to_quaternion roll pitch yaw) /\
  to_rotation (rpy_to_quaternion roll pitch yaw) = mmul3 (mmul3 (rot_z yaw) (rot_y pitch)) (rot_x roll).
Proof.
  assert (Uz : unit (angle_axis yaw (V3 0 0 1))) by (apply unit_axis; unfold vdot; cbn; ring).
  assert (Uy : unit (angle_axis pitch (V3 0 1 0))) by (apply unit_axis; unfold vdot; cbn; ring).
  assert (Ux : unit (angle_axis roll (V3 1 0 0))) by (apply unit_axis; unfold vdot; cbn; ring).
  unfold rpy_to_quaternion. split; [repeat apply unit_mul; auto|].
  rewrite !rotation_mul; auto; [|apply unit_mul; auto].
  assert (EZ : to_rotation (angle_axis yaw (V3 0 0 1)) = rot_z yaw).
  { unfold angle_axis, to_rotation, rot_z. cbn [vx vy vz]. destruct (half_angle yaw) as [H1 [H2 H3]]. rewrite H1, H2. apply mat3_ext; vcbn; ring [H3]. }
  assert (EY : to_rotation (angle_axis pitch (V3 0 1 0)) = rot_y pitch).
  { unfold angle_axis, to_rotation, rot_y. cbn [vx vy vz]. destruct (half_angle pitch) as [H1 [H2 H3]]. rewrite H1, H2. apply mat3_ext; vcbn; ring [H3]. }
  assert (EX : to_rotation (angle_axis roll (V3 1 0 0)) = rot_x roll).
  { unfold angle_axis, to_rotation, rot_x. cbn [vx vy vz]. destruct (half_angle roll) as [H1 [H2 H3]]. rewrite H1, H2. apply mat3_ext; vcbn; ring [H3]. }
  rewrite EX, EY, EZ. reflexivity.
Qed.
(** Reading the orientation of a pose and rebuilding the pose is the identity. *)
Theorem C46_matrix_quaternion_round_trip a : is_rotation a -> unit (quat_of a) /\ to_rotation (quat_of a) = a.
Proof. exact (quat_of_ok a). Qed.
Print Assumptions C46_multiplication_matrices.
Print Assumptions C46_hat.
Print Assumptions C46_wxyz.
Print Assumptions C46_rpy.
Print Assumptions C46_matrix_quaternion_round_trip.
(** A half turn about y, which takes the branch without positive trace. *)
Example ex_C46 : is_rotation (M3 (-1) 0 0 0 1 0 0 0 (-1)) /\ quat_of (M3 (-1) 0 0 0 1 0 0 0 (-1)) = Qn 0 0 1 0.
Proof.
  assert (H : is_rotation (M3 (-1) 0 0 0 1 0 0 0 (-1))).
  { split; [apply mat3_ext; vcbn; ring|unfold det3; vcbn; ring]. }
  split; auto. unfold quat_of. cbn [m00 m01 m02 m10 m11 m12 m20 m21 m22].
  assert (F : forall a b, b <= a -> Rltb a b = false) by (intros; apply Bool.not_true_iff_false; rewrite Rltb_spec; lra).
  assert (T : forall a b, a < b -> Rltb a b = true) by (intros; apply Rltb_spec; auto).
  rewrite (F 0 (-1 + 1 + -1)) by lra. rewrite (T (-1) 1) by lra. rewrite (F 1 (-1)) by lra.
  replace (1 - -1 - -1 + 1) with (2 * 2) by ring. rewrite sqrt_square by lra. apply quat_ext; cbn [qw qx qy qz]; field.
Qed.

(** ** C48 Residuals and their Jacobians. *)
Lemma cross_zero a b : vcross a b = V3 0 0 0 -> a <> V3 0 0 0 -> exists s, b = vscale s a.
Proof.
  destruct a as [a1 a2 a3], b as [b1 b2 b3]. unfold vcross. cbn [vx vy vz]. intros H Hn. injection H as H1 H2 H3.
  destruct (Req_dec a1 0) as [->|N1].
  - destruct (Req_dec a2 0) as [->|N2].
    + assert (N3 : a3 <> 0) by (intros ->; apply Hn; auto).
      exists (b3 / a3). apply vec_ext; cbn [vscale vx vy vz].
      * apply Rmult_eq_reg_l with a3; auto. field_simplify; auto. lra.
      * apply Rmult_eq_reg_l with a3; auto. field_simplify; auto. lra.
      * field; auto.
    + exists (b2 / a2). apply vec_ext; cbn [vscale vx vy vz].
      * apply Rmult_eq_reg_l with a2; auto. field_simplify; auto. lra.
      * field; auto.
      * apply Rmult_eq_reg_l with a2; auto. field_simplify; auto. lra.
  - exists (b1 / a1). apply vec_ext; cbn [vscale vx vy vz].
    + field; auto.
    + apply Rmult_eq_reg_l with a1; auto. field_simplify; auto. lra.
    + apply Rmult_eq_reg_l with a1; auto. field_simplify; auto. lra.
Qed.
Theorem C48_edge_zero_iff_on_line T p0 p1 p2 : p1 <> p2 ->
  (edge_residual T p0 p1 p2 = V3 0 0 0 <-> on_line p1 p2 (transform T p0)).
Proof.
  intros Hne. unfold edge_residual. set (p := transform T p0). clearbody p.
  destruct p as [x y z], p1 as [a b c], p2 as [d e f]. split.
  - intros H. destruct (cross_zero (vsub (V3 d e f) (V3 a b c)) (vsub (V3 x y z) (V3 a b c))) as [s Hs].
    + unfold vcross, vsub in *. cbn [vx vy vz] in *. injection H as H1 H2 H3. apply vec_ext; cbn [vx vy vz]; lra.
    + unfold vsub. cbn [vx vy vz]. intros H0. injection H0 as H1 H2 H3. apply Hne. f_equal; lra.
    + exists s. rewrite <- Hs. unfold vadd, vsub. cbn [vx vy vz]. f_equal; lra.
  - intros [s Hs]. rewrite Hs. apply vec_ext; unfold vcross, vadd, vsub, vscale; cbn [vx vy vz]; ring.
Qed.
(** Moreover its norm is the distance to the line times the distance of the two points:
    here, its square with the parallelogram identity. *)
Theorem C48_edge_norm T p0 p1 p2 : let p := transform T p0 in
  vdot (edge_residual T p0 p1 p2) (edge_residual T p0 p1 p2) =
  vdot (vsub p p1) (vsub p p1) * vdot (vsub p2 p1) (vsub p2 p1)
  - vdot (vsub p p1) (vsub p2 p1) * vdot (vsub p p1) (vsub p2 p1).
Proof. intros p. unfold edge_residual. fold p. clearbody p. destruct p, p1, p2. vcbn. ring. Qed.
Theorem C48_surface_zero_iff_on_plane w x : w <> V3 0 0 0 -> (signed_distance w x = 0 <-> on_plane w x).
Proof.
  intros Hw. unfold signed_distance, on_plane.
  assert (H : 0 < vnorm w).
  { apply sqrt_lt_R0. destruct w as [a b c]. unfold vdot. cbn [vx vy vz].
    destruct (Req_dec a 0) as [->|]; [destruct (Req_dec b 0) as [->|]; [destruct (Req_dec c 0) as [->|]; [congruence|nra]|nra]|nra]. }
  split; intros E.
  - apply Rmult_eq_reg_r with (/ vnorm w); [|apply Rinv_neq_0_compat; lra]. unfold Rdiv in E. rewrite E. ring.
  - rewrite E. unfold Rdiv. ring.
Qed.
(** It is the distance to the plane: moving by s along the unit normal changes it by s. *)
Theorem C48_surface_is_distance w x s : w <> V3 0 0 0 ->
  signed_distance w (vadd x (vscale (s / vnorm w) w)) = signed_distance w x + s.
Proof.
  intros Hw. unfold signed_distance.
  assert (H : 0 < vdot w w).
  { destruct w as [a b c]. unfold vdot. cbn [vx vy vz].
    destruct (Req_dec a 0) as [->|]; [destruct (Req_dec b 0) as [->|]; [destruct (Req_dec c 0) as [->|]; [congruence|nra]|nra]|nra]. }
  assert (Hn : 0 < vnorm w) by (apply sqrt_lt_R0; auto).
  assert (E : vdot w w = vnorm w * vnorm w) by (symmetry; apply sqrt_sqrt; lra).
  assert (EL : forall k, vdot w (vadd x (vscale k w)) = vdot w x + k * vdot w w)
    by (intros k; clear; destruct w, x; vcbn; ring).
  rewrite EL, E. field. lra.
Qed.

(** The Jacobians are the derivatives of the residuals with respect to the quaternion
    components and the translation, the rotation being extended to all quaternions by
    q p q*; on unit quaternions the residual is the one of the code. *)
Definition point_at (p0 : vec) (q : quat) (t : vec) : vec := vadd (sandwich q p0) t.
Definition edge_function (p0 p1 p2 : vec) (q : quat) (t : vec) : list R :=
  vlist (vcross (vsub (point_at p0 q t) p1) (vsub (point_at p0 q t) p2)).
Definition surface_function (w p0 : vec) (q : quat) (t : vec) : list R :=
  [signed_distance w (point_at p0 q t)].
Definition alignment_function (x y : vec) (q : quat) (t : vec) : list R :=
  vlist (vsub (point_at x q t) y).

(** Each component of the sandwich is bounded by the norm. *)
Lemma sandwich_component h p i : Rabs (vnth i (sandwich h p)) <= qnorm2 h * vnorm p.
Proof.
  destruct (C45_drpdq_is_derivative h p h) as [_ [_ <-]]. unfold vnorm. set (v := sandwich h p). clearbody v. destruct v as [a b c].
  assert (G : forall x, x * x <= a * a + b * b + c * c -> Rabs x <= sqrt (vdot (V3 a b c) (V3 a b c))).
  { intros x H. rewrite <- (sqrt_square (Rabs x)) by apply Rabs_pos. apply sqrt_le_1_alt. rewrite <- Rabs_mult.
    rewrite Rabs_pos_eq by nra. unfold vdot. cbn [vx vy vz]. auto. }
  destruct i as [|[|[|i]]]; unfold vnth; cbn [nth vx vy vz]; try (apply G; nra).
  destruct i; cbn [nth]; apply G; nra.
Qed.
Lemma lin_sandwich (a b c : R) h p :
  Rabs (a * vx (sandwich h p) + b * vy (sandwich h p) + c * vz (sandwich h p)) <= (Rabs a + Rabs b + Rabs c) * vnorm p * qnorm2 h.
Proof.
  pose proof (sandwich_component h p 0) as H0. pose proof (sandwich_component h p 1) as H1. pose proof (sandwich_component h p 2) as H2.
  unfold vnth in *. cbn [nth] in *. set (v := sandwich h p) in *.
  apply Rle_trans with (Rabs a * Rabs (vx v) + Rabs b * Rabs (vy v) + Rabs c * Rabs (vz v)).
  - rewrite <- !Rabs_mult. eapply Rle_trans; [apply Rabs_triang|]. apply Rplus_le_compat_r. apply Rabs_triang.
  - pose proof (Rabs_pos a). pose proof (Rabs_pos b). pose proof (Rabs_pos c). nra.
Qed.
Theorem C48_edge_jacobian q t p0 p1 p2 :
  has_jacobian 3 (edge_function p0 p1 p2) q t (edge_jacobian q p0 p1 p2) /\
  (unit q -> vlist (edge_residual (make_pose q t) p0 p1 p2) = edge_function p0 p1 p2 q t).
Proof.
  split.
  - split; [split; [reflexivity|repeat constructor]|]. split; [reflexivity|].
    set (k := vsub p2 p1). set (m := Rabs (vx k) + Rabs (vy k) + Rabs (vz k)).
    exists (m * vnorm p0). intros h d i Hi. unfold edge_function, point_at. rewrite sandwich_expand.
    assert (B : forall a b c x, Rabs a + Rabs b + Rabs c <= m -> x = a * vx (sandwich h p0) + b * vy (sandwich h p0) + c * vz (sandwich h p0) ->
       Rabs x <= m * vnorm p0 * qnorm2 h).
    { intros a b c x Hm ->. eapply Rle_trans; [apply lin_sandwich|].
      assert (0 <= vnorm p0) by apply sqrt_pos. assert (0 <= qnorm2 h) by (destruct h as [ha hb hc hd]; unfold qnorm2; cbn [qw qx qy qz]; nra).
      apply Rmult_le_compat_r; auto. apply Rmult_le_compat_r; auto. }
    assert (P0 : Rabs 0 = 0) by apply Rabs_R0.
    pose proof (Rabs_pos (vx k)). pose proof (Rabs_pos (vy k)). pose proof (Rabs_pos (vz k)).
    destruct i as [|[|[|i]]]; [| | |lia].
    + apply (B 0 (- vz k) (vy k)); [rewrite Rabs_Ropp; unfold m; lra|]. unfold k. clear.
      set (s := sandwich h p0). set (s0 := sandwich q p0). clearbody s s0. destruct s, s0, q, p0, p1, p2, h, d, t. vcbn. ring.
    + apply (B (vz k) 0 (- vx k)); [rewrite Rabs_Ropp; unfold m; lra|]. unfold k. clear.
      set (s := sandwich h p0). set (s0 := sandwich q p0). clearbody s s0. destruct s, s0, q, p0, p1, p2, h, d, t. vcbn. ring.
    + apply (B (- vy k) (vx k) 0); [rewrite Rabs_Ropp; unfold m; lra|]. unfold k. clear.
      set (s := sandwich h p0). set (s0 := sandwich q p0). clearbody s s0. destruct s, s0, q, p0, p1, p2, h, d, t. vcbn. ring.
  - intros U. unfold edge_residual, edge_function, point_at, transform, make_pose. cbn [lin tra]. rewrite to_rotation_sandwich; auto.
Qed.
Theorem C48_surface_jacobian q t w p0 : w <> V3 0 0 0 ->
  has_jacobian 1 (surface_function w p0) q t (surface_jacobian w q p0) /\
  (unit q -> [signed_distance w (transform (make_pose q t) p0)] = surface_function w p0 q t).
Proof.
  intros Hw. split.
  - split; [split; [reflexivity|repeat constructor]|]. split; [reflexivity|].
    set (n := vnorm w). set (m := Rabs (vx w / n) + Rabs (vy w / n) + Rabs (vz w / n)).
    exists (m * vnorm p0). intros h d i Hi. unfold surface_function, point_at, signed_distance. rewrite sandwich_expand. fold n.
    assert (i = 0%nat) by lia. subst i. eapply Rle_trans; [|apply (lin_sandwich (vx w / n) (vy w / n) (vz w / n))]. right. f_equal.
    unfold surface_jacobian. fold n. unfold Rdiv. set (r := / n). clear.
    set (s := sandwich h p0). set (s0 := sandwich q p0). clearbody s s0 r. destruct s, s0, q, p0, w, h, d, t. vcbn. ring.
  - intros U. unfold surface_function, point_at, transform, make_pose. cbn [lin tra]. rewrite to_rotation_sandwich; auto.
Qed.
Theorem C48_alignment_jacobian q t x y :
  has_jacobian 3 (alignment_function x y) q t (beside (drpdq q x) [[1; 0; 0]; [0; 1; 0]; [0; 0; 1]]) /\
  (unit q -> vlist (vsub (transform (make_pose q t) x) y) = alignment_function x y q t).
Proof.
  split.
  - split; [split; [reflexivity|repeat constructor]|]. split; [reflexivity|].
    exists (vnorm x). intros h d i Hi. unfold alignment_function, point_at. rewrite sandwich_expand.
    rewrite (Rmult_comm (vnorm x)). eapply Rle_trans; [|apply (sandwich_component h x i)]. right. f_equal.
    destruct i as [|[|[|i]]]; [| | |lia].
    all: set (s := sandwich h x); set (s0 := sandwich q x); clearbody s s0; destruct s, s0, q, x, y, h, d, t; vcbn; ring.
  - intros U. unfold alignment_function, point_at, transform, make_pose. cbn [lin tra]. rewrite to_rotation_sandwich; auto.
Qed.
Print Assumptions C48_edge_zero_iff_on_line.
Print Assumptions C48_edge_norm.
Print Assumptions C48_surface_zero_iff_on_plane.
Print Assumptions C48_surface_is_distance.
Print Assumptions C48_edge_jacobian.
Print Assumptions C48_surface_jacobian.
Print Assumptions C48_alignment_jacobian.
(** A point off the line z = 0, y = 0 has a non-zero residual, a point on it a zero one. *)
Example ex_C48 : edge_residual (make_pose qid (V3 0 0 0)) (V3 5 1 0) (V3 0 0 0) (V3 1 0 0) = V3 0 0 (1) /\
  edge_residual (make_pose qid (V3 0 0 0)) (V3 5 0 0) (V3 0 0 0) (V3 1 0 0) = V3 0 0 0 /\
  signed_distance (V3 0 0 (-1)) (V3 7 8 1) = 0.
Proof.
  split; [|split].
  - apply vec_ext; unfold edge_residual, make_pose, qid; vcbn; lra.
  - apply vec_ext; unfold edge_residual, make_pose, qid; vcbn; lra.
  - unfold signed_distance, vdot. cbn [vx vy vz]. replace (0 * 7 + 0 * 8 + -1 * 1 + 1) with 0 by ring. unfold Rdiv. ring.
Qed.

(** ** C49 The combined problem: same lengths, edges first, and the i-th Jacobian is the
    derivative of the function of which the i-th residual is the value. *)
Section Aligned.
Variable edge_line : vec -> vec * vec.
Variable plane_of : vec -> vec.
Variable downsample : list vec -> list vec.
Theorem C49_aligned edges surfaces T : is_rotation (lin T) ->
  (forall p, In p (downsample surfaces) -> plane_of (transform T p) <> V3 0 0 0) ->
  let q := quat_of (lin T) in let t := tra T in
  let '(J, r) := loam_make edge_line plane_of downsample (edges, surfaces) T in
  length J = length r /\ length r = (length edges + length (downsample surfaces))%nat /\
  (forall i p mean dir, nth_error edges i = Some p -> edge_line (transform T p) = (mean, dir) ->
     let p1 := vsub mean dir in let p2 := vadd mean dir in exists Ji ri,
     nth_error J i = Some Ji /\ nth_error r i = Some ri /\
     ri = edge_function p p1 p2 q t /\ has_jacobian 3 (edge_function p p1 p2) q t Ji) /\
  (forall i p, nth_error (downsample surfaces) i = Some p ->
     let w := plane_of (transform T p) in exists Ji ri,
     nth_error J (length edges + i) = Some Ji /\ nth_error r (length edges + i) = Some ri /\
     ri = surface_function w p q t /\ has_jacobian 1 (surface_function w p) q t Ji).
Proof.
  intros HR Hw q t. destruct (quat_of_ok _ HR) as [U EQ]. fold q in U, EQ.
  assert (ET : T = make_pose q t) by (unfold make_pose; rewrite EQ; destruct T; reflexivity).
  unfold loam_make, edge_make, surface_make. cbn [fst snd]. fold q.
  split; [|split; [|split]].
  - rewrite !app_length, !map_length. auto.
  - rewrite !app_length, !map_length. auto.
  - intros i p mean dir Hi Hd. assert (L : (i < length edges)%nat) by (apply nth_error_Some; congruence).
    eexists. eexists. split; [|split; [|split]].
    3: { rewrite <- (proj2 (C48_edge_jacobian q t p _ _) U). rewrite <- ET. reflexivity. }
    3: { apply C48_edge_jacobian. }
    + rewrite nth_error_app1 by (rewrite map_length; auto). rewrite nth_error_map, Hi. cbn [option_map]. rewrite Hd. reflexivity.
    + rewrite nth_error_app1 by (rewrite map_length; auto). rewrite nth_error_map, Hi. cbn [option_map]. rewrite Hd. reflexivity.
  - intros i p Hi.
    eexists. eexists. split; [|split; [|split]].
    3: { rewrite <- (proj2 (C48_surface_jacobian q t (plane_of (transform T p)) p (Hw _ (nth_error_In _ _ Hi))) U). rewrite <- ET. reflexivity. }
    3: { apply C48_surface_jacobian. apply Hw. apply (nth_error_In _ _ Hi). }
    + rewrite nth_error_app2 by (rewrite map_length; lia). rewrite map_length. replace (length edges + i - length edges)%nat with i by lia.
      rewrite nth_error_map, Hi. reflexivity.
    + rewrite nth_error_app2 by (rewrite map_length; lia). rewrite map_length. replace (length edges + i - length edges)%nat with i by lia.
      rewrite nth_error_map, Hi. reflexivity.
Qed.
Theorem C49_empty T : downsample [] = [] -> loam_make edge_line plane_of downsample ([], []) T = ([], []).
Proof. intros H. unfold loam_make, edge_make, surface_make. cbn [fst snd]. rewrite H. reflexivity. Qed.
End Aligned.
Print Assumptions C49_aligned.
Print Assumptions C49_empty.
(** The alignment problem: the sizes must agree (a live assertion), and then the i-th
    Jacobian belongs to the i-th residual. *)
Theorem C49_alignment source target T : is_rotation (lin T) ->
  let q := quat_of (lin T) in let t := tra T in
  (length source <> length target -> alignment_make (source, target) T = AssertFail) /\
  (length source = length target -> exists J r, alignment_make (source, target) T = Ok (J, r) /\
     length J = length source /\ length r = length source /\
     forall i x y, nth_error source i = Some x -> nth_error target i = Some y -> exists Ji ri,
       nth_error J i = Some Ji /\ nth_error r i = Some ri /\
       ri = alignment_function x y q t /\ has_jacobian 3 (alignment_function x y) q t Ji).
Proof.
  intros HR q t. destruct (quat_of_ok _ HR) as [U EQ]. fold q in U, EQ.
  assert (ET : T = make_pose q t) by (unfold make_pose; rewrite EQ; destruct T; reflexivity).
  unfold alignment_make, alignment_residual. cbn [fst snd]. split; intros HL.
  - apply Nat.eqb_neq in HL. rewrite HL. reflexivity.
  - rewrite (proj2 (Nat.eqb_eq _ _) HL). cbn [assert_ bind]. eexists. eexists. split; [reflexivity|].
    unfold alignment_jacobian. rewrite !map_length, combine_length, <- HL, Nat.min_id. split; auto. split; auto.
    intros i x y Hx Hy. eexists. eexists. rewrite !nth_error_map, Hx. cbn [option_map]. split; [reflexivity|].
    assert (EC : nth_error (combine source target) i = Some (x, y)).
    { clear - Hx Hy. revert target i Hx Hy. induction source as [|a l IH]; intros [|b l'] [|i] Hx Hy; simpl in *; try discriminate; auto.
      inversion Hx; inversion Hy; auto. }
    rewrite EC. cbn [option_map fst snd]. split; [reflexivity|]. split.
    + rewrite <- (proj2 (C48_alignment_jacobian q t x y) U), <- ET. reflexivity.
    + apply C48_alignment_jacobian.
Qed.
Print Assumptions C49_alignment.
Example ex_C49 : is_rotation (lin (make_pose (Qn (3/5) (4/5) 0 0) (V3 1 2 3))) /\
  let '(J, r) := loam_make (fun _ => (V3 0 0 0, V3 1 0 0)) (fun _ => V3 0 0 (-1)) (fun l => l)
     ([V3 1 1 1; V3 2 2 2], [V3 3 3 3]) (make_pose (Qn (3/5) (4/5) 0 0) (V3 1 2 3)) in
  map (@length (list R)) J = [3; 3; 1]%nat /\ map (@length R) r = [3; 3; 1]%nat.
Proof.
  split; [|split; reflexivity]. apply to_rotation_is_rotation. unfold unit, qnorm2. cbn [qw qx qy qz]. lra.
Qed.
