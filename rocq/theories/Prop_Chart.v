(** Property C79: the increments the optimiser solves for are those of the residuals along
    the motions it applies. *)
From Coq Require Import List ZArith Bool Lia Lra Reals.
From Coquelicot Require Import Coquelicot.
From Verif Require Import Base Arith PoseModel SpecPose AngleProofs RotProofs WitnessProofs Prop_Rotation.
Import ListNotations.
Open Scope R_scope.

(** A moving quaternion and translation, differentiable at 0. *)
Section Curve.
Variable w x y z a b c : R -> R.
Variable w' x' y' z' a' b' c' : R.
Hypothesis Hw : is_derive w 0 w'.
Hypothesis Hx : is_derive x 0 x'.
Hypothesis Hy : is_derive y 0 y'.
Hypothesis Hz : is_derive z 0 z'.
Hypothesis Ha : is_derive a 0 a'.
Hypothesis Hb : is_derive b 0 b'.
Hypothesis Hc : is_derive c 0 c'.
Let q s := Qn (w s) (x s) (y s) (z s).
Let t s := V3 (a s) (b s) (c s).

Lemma curve_point p i : (i < 3)%nat -> is_derive (fun s => vnth i (point_at p (q s) (t s))) 0
  (nth i (mat_app (drpdq (q 0) p) [w'; x'; y'; z']) 0 + nth i [a'; b'; c'] 0).
Proof.
  intros Hi. assert (Ew : Derive (fun x0 => w x0) 0 = w') by exact (is_derive_unique _ _ _ Hw). assert (Ex : Derive (fun x0 => x x0) 0 = x') by exact (is_derive_unique _ _ _ Hx).
  assert (Ey : Derive (fun x0 => y x0) 0 = y') by exact (is_derive_unique _ _ _ Hy). assert (Ez : Derive (fun x0 => z x0) 0 = z') by exact (is_derive_unique _ _ _ Hz).
  assert (Ea : Derive (fun x0 => a x0) 0 = a') by exact (is_derive_unique _ _ _ Ha). assert (Eb : Derive (fun x0 => b x0) 0 = b') by exact (is_derive_unique _ _ _ Hb). assert (Ec : Derive (fun x0 => c x0) 0 = c') by exact (is_derive_unique _ _ _ Hc).
  destruct p as [p1 p2 p3]. unfold q, t, point_at.
  destruct i as [|[|[|i]]]; [| | |lia]; vcbn.
  all: auto_derive; [repeat split; eexists; eassumption|].
  all: rewrite ?Ew, ?Ex, ?Ey, ?Ez, ?Ea, ?Eb, ?Ec; ring.
Qed.
End Curve.

Lemma turn_deriv theta : is_derive (fun s => qw (turn theta s)) 0 0 /\ is_derive (fun s => qx (turn theta s)) 0 (vx theta / 2) /\
  is_derive (fun s => qy (turn theta s)) 0 (vy theta / 2) /\ is_derive (fun s => qz (turn theta s)) 0 (vz theta / 2).
Proof.
  destruct (Req_dec (vnorm theta) 0) as [E0|Hk].
  - assert (V : vx theta = 0 /\ vy theta = 0 /\ vz theta = 0).
    { destruct theta as [a b c]. unfold vnorm in E0. apply sqrt_eq_0 in E0; unfold vdot in *; cbn [vx vy vz] in *; [|nra].
      split; [nra|]. split; nra. }
    assert (C : forall (f : R -> R) c, (forall s, f s = c) -> is_derive f 0 0).
    { intros f c H. apply (is_derive_ext (fun _ => c)); [intros; symmetry; apply H|]. apply (is_derive_const (V := R_NormedModule)). }
    destruct V as [V1 [V2 V3]]. unfold turn. cbn [qw qx qy qz]. rewrite E0, V1, V2, V3. replace (0 / 2) with 0 by field.
    split; [apply (C _ 1); intros s; replace (s * 0 / 2) with 0 by field; apply cos_0|].
    split; [|split]; apply (C _ 0); intros s; ring.
  - unfold turn. cbn [qw qx qy qz]. set (k := vnorm theta) in *.
    split; [|split; [|split]]; auto_derive; auto; rewrite ?Rmult_0_l; unfold Rdiv; rewrite ?Rmult_0_l, ?cos_0, ?sin_0; field; auto.
Qed.
Lemma turn_unit theta s : unit (turn theta s).
Proof.
  destruct (Req_dec (vnorm theta) 0) as [E0|Hk].
  - unfold turn, unit, qnorm2. cbn [qw qx qy qz]. rewrite E0. replace (s * 0 / 2) with 0 by field. rewrite cos_0, sin_0. unfold Rdiv. ring.
  - destruct theta as [a b c]. unfold turn, unit, qnorm2. cbn [qw qx qy qz vx vy vz]. set (k := vnorm _) in *.
    assert (Ek : k * k = a * a + b * b + c * c).
    { unfold k, vnorm. rewrite sqrt_sqrt; unfold vdot; cbn [vx vy vz]; [auto|nra]. }
    pose proof (sin2_cos2 (s * k / 2)) as S. unfold Rsqr in S. set (si := sin _) in *. set (co := cos _) in *.
    replace (_ + _ + _ + _) with (co * co + si * si * ((a * a + b * b + c * c) / (k * k))) by (field; auto).
    rewrite <- Ek. replace (k * k / (k * k)) with 1 by (field; auto). lra.
Qed.
Lemma turn_0 theta : turn theta 0 = qid.
Proof. unfold turn. replace (0 * vnorm theta / 2) with 0 by field. rewrite cos_0, sin_0. apply quat_ext; cbn [qw qx qy qz qid]; unfold Rdiv; ring. Qed.

(** The motion applied: orientation q * turn, translation t + s d.  Its point derivative
    is DRpDq and identity times the columns of M. *)
Lemma move_point q t theta d p i : (i < 3)%nat ->
  is_derive (fun s => vnth i (point_at p (qmul q (turn theta s)) (vadd t (vscale s d)))) 0
    (nth i (mat_app (beside (drpdq q p) [[1; 0; 0]; [0; 1; 0]; [0; 0; 1]]) (entries_app 7 6 (make_m q) (vlist theta ++ vlist d))) 0).
Proof.
  intros Hi. destruct (turn_deriv theta) as [D1 [D2 [D3 D4]]].
  assert (EW : forall f f' c, is_derive f 0 f' -> is_derive (fun s => c * f s) 0 (c * f')).
  { intros f f' c H. apply is_derive_scal. auto. }
  set (W := fun s => qw (turn theta s)) in *. set (X := fun s => qx (turn theta s)) in *.
  set (Y := fun s => qy (turn theta s)) in *. set (Z := fun s => qz (turn theta s)) in *.
  assert (ET : forall s, turn theta s = Qn (W s) (X s) (Y s) (Z s)) by reflexivity.
  assert (W0 : W 0 = 1 /\ X 0 = 0 /\ Y 0 = 0 /\ Z 0 = 0).
  { unfold W, X, Y, Z. rewrite turn_0. auto. }
  change (is_derive W 0 0) in D1. change (is_derive X 0 (vx theta / 2)) in D2. change (is_derive Y 0 (vy theta / 2)) in D3. change (is_derive Z 0 (vz theta / 2)) in D4.
  clearbody W X Y Z. destruct W0 as [W0 [X0 [Y0 Z0]]].
  destruct q as [qa qb qc qd], t as [t1 t2 t3], d as [d1 d2 d3], theta as [h1 h2 h3], p as [p1 p2 p3]. cbn [vx vy vz] in *.
  assert (E1 : Derive (fun x0 => W x0) 0 = 0) by exact (is_derive_unique _ _ _ D1). assert (E2 : Derive (fun x0 => X x0) 0 = h1 / 2) by exact (is_derive_unique _ _ _ D2).
  assert (E3 : Derive (fun x0 => Y x0) 0 = h2 / 2) by exact (is_derive_unique _ _ _ D3). assert (E4 : Derive (fun x0 => Z x0) 0 = h3 / 2) by exact (is_derive_unique _ _ _ D4).
  eapply is_derive_ext with (f := fun s => vnth i (point_at (V3 p1 p2 p3)
     (Qn (qa * W s - qb * X s - qc * Y s - qd * Z s) (qa * X s + qb * W s + qc * Z s - qd * Y s)
         (qa * Y s + qc * W s + qd * X s - qb * Z s) (qa * Z s + qd * W s + qb * Y s - qc * X s)) (V3 (t1 + s * d1) (t2 + s * d2) (t3 + s * d3)))).
  { intros s. rewrite ET. reflexivity. }
  match goal with |- is_derive _ _ ?v => evar (v' : R); replace v with v'; [|symmetry] end.
  { unfold v'. apply (curve_point _ _ _ _ _ _ _ (- qb * (h1 / 2) - qc * (h2 / 2) - qd * (h3 / 2)) (qa * (h1 / 2) + qc * (h3 / 2) - qd * (h2 / 2))
      (qa * (h2 / 2) + qd * (h1 / 2) - qb * (h3 / 2)) (qa * (h3 / 2) + qb * (h2 / 2) - qc * (h1 / 2)) d1 d2 d3); auto.
    all: auto_derive; [repeat split; eexists; eassumption|]; rewrite ?E1, ?E2, ?E3, ?E4; ring. }
  unfold v'. rewrite W0, X0, Y0, Z0.
  destruct i as [|[|[|i]]]; [| | |lia]; unfold entries_app, make_m;
    cbn [map seq app vlist vx vy vz Nat.ltb Nat.leb Nat.add left_mul_matrix nth Nat.eqb Nat.sub fold_right]; vcbn; field.
Qed.


(** A residual that is an affine function of the moved point has the derivative of the
    point pushed through the same linear part. *)
Lemma turn_pose q t theta d s p : unit q ->
  transform (make_pose (qmul q (turn theta s)) (vadd t (vscale s d))) p = point_at p (qmul q (turn theta s)) (vadd t (vscale s d)).
Proof.
  intros U. unfold point_at, transform, make_pose. cbn [lin tra]. rewrite to_rotation_sandwich; auto.
  apply unit_mul; auto. apply turn_unit.
Qed.

Theorem C79_edge q t p0 p1 p2 theta d i : unit q -> (i < 3)%nat ->
  is_derive (fun s => nth i (vlist (edge_residual (make_pose (qmul q (turn theta s)) (vadd t (vscale s d))) p0 p1 p2)) 0) 0
    (nth i (mat_app (edge_jacobian q p0 p1 p2) (entries_app 7 6 (make_m q) (vlist theta ++ vlist d))) 0).
Proof.
  intros U Hi.
  pose proof (move_point q t theta d p0 0 ltac:(lia)) as D0. pose proof (move_point q t theta d p0 1 ltac:(lia)) as D1.
  pose proof (move_point q t theta d p0 2 ltac:(lia)) as D2.
  set (x := entries_app 7 6 (make_m q) (vlist theta ++ vlist d)) in *.
  assert (Hx : exists a b c e f g h, x = [a; b; c; e; f; g; h]) by (repeat eexists; reflexivity).
  clearbody x. destruct Hx as (x0 & x1 & x2 & x3 & x4 & x5 & x6 & ->).
  set (P := fun s => point_at p0 (qmul q (turn theta s)) (vadd t (vscale s d))) in *.
  apply (is_derive_ext (fun s => nth i (vlist (vcross (vsub (P s) p1) (vsub (P s) p2))) 0)).
  { intros s. unfold edge_residual. rewrite turn_pose; auto. }
  set (A := fun s => vx (P s)) in *. set (B := fun s => vy (P s)) in *. set (C := fun s => vz (P s)) in *.
  assert (EP : forall s, P s = V3 (A s) (B s) (C s)) by (intros s; unfold A, B, C; destruct (P s); reflexivity).
  match type of D0 with is_derive _ _ ?v => change (is_derive A 0 v) in D0; assert (E0 : Derive (fun s => A s) 0 = v) by exact (is_derive_unique _ _ _ D0) end.
  match type of D1 with is_derive _ _ ?v => change (is_derive B 0 v) in D1; assert (E1 : Derive (fun s => B s) 0 = v) by exact (is_derive_unique _ _ _ D1) end.
  match type of D2 with is_derive _ _ ?v => change (is_derive C 0 v) in D2; assert (E2 : Derive (fun s => C s) 0 = v) by exact (is_derive_unique _ _ _ D2) end.
  apply (is_derive_ext (fun s => nth i (vlist (vcross (vsub (V3 (A s) (B s) (C s)) p1) (vsub (V3 (A s) (B s) (C s)) p2))) 0)).
  { intros s. rewrite EP. reflexivity. }
  clearbody A B C. clear EP P.
  destruct q as [qa qb qc qd], p0 as [u1 u2 u3], p1 as [v1 v2 v3], p2 as [w1 w2 w3]. unfold edge_jacobian.
  destruct i as [|[|[|i]]]; [| | |lia]; vcbn; auto_derive; try (repeat split; eexists; eassumption);
    rewrite ?E0, ?E1, ?E2; vcbn; ring.
Qed.

Theorem C79_surface q t w p theta d : unit q ->
  is_derive (fun s => signed_distance w (transform (make_pose (qmul q (turn theta s)) (vadd t (vscale s d))) p)) 0
    (nth 0 (mat_app (surface_jacobian w q p) (entries_app 7 6 (make_m q) (vlist theta ++ vlist d))) 0).
Proof.
  intros U.
  pose proof (move_point q t theta d p 0 ltac:(lia)) as D0. pose proof (move_point q t theta d p 1 ltac:(lia)) as D1.
  pose proof (move_point q t theta d p 2 ltac:(lia)) as D2.
  set (x := entries_app 7 6 (make_m q) (vlist theta ++ vlist d)) in *.
  assert (Hx : exists a b c e f g h, x = [a; b; c; e; f; g; h]) by (repeat eexists; reflexivity).
  clearbody x. destruct Hx as (x0 & x1 & x2 & x3 & x4 & x5 & x6 & ->).
  set (P := fun s => point_at p (qmul q (turn theta s)) (vadd t (vscale s d))) in *.
  set (A := fun s => vx (P s)) in *. set (B := fun s => vy (P s)) in *. set (C := fun s => vz (P s)) in *.
  apply (is_derive_ext (fun s => (vx w * A s + vy w * B s + vz w * C s + 1) * / vnorm w)).
  { intros s. rewrite turn_pose; auto. }
  match type of D0 with is_derive _ _ ?v => change (is_derive A 0 v) in D0; assert (E0 : Derive (fun s => A s) 0 = v) by exact (is_derive_unique _ _ _ D0) end.
  match type of D1 with is_derive _ _ ?v => change (is_derive B 0 v) in D1; assert (E1 : Derive (fun s => B s) 0 = v) by exact (is_derive_unique _ _ _ D1) end.
  match type of D2 with is_derive _ _ ?v => change (is_derive C 0 v) in D2; assert (E2 : Derive (fun s => C s) 0 = v) by exact (is_derive_unique _ _ _ D2) end.
  clearbody A B C. clear P. unfold surface_jacobian. set (n := / vnorm w). clearbody n.
  destruct q as [qa qb qc qd], p as [u1 u2 u3], w as [w1 w2 w3].
  vcbn; auto_derive; try (repeat split; eexists; eassumption); rewrite ?E0, ?E1, ?E2; vcbn; ring.
Qed.

Theorem C79_alignment q t x y theta d i : unit q -> (i < 3)%nat ->
  is_derive (fun s => nth i (vlist (vsub (transform (make_pose (qmul q (turn theta s)) (vadd t (vscale s d))) x) y)) 0) 0
    (nth i (mat_app (beside (drpdq q x) [[1; 0; 0]; [0; 1; 0]; [0; 0; 1]]) (entries_app 7 6 (make_m q) (vlist theta ++ vlist d))) 0).
Proof.
  intros U Hi. pose proof (move_point q t theta d x i Hi) as D.
  apply (is_derive_ext (fun s => minus (vnth i (point_at x (qmul q (turn theta s)) (vadd t (vscale s d)))) (vnth i y))).
  { intros s. rewrite turn_pose; auto. destruct i as [|[|[|i]]]; [| | |lia]; reflexivity. }
  match goal with |- is_derive _ _ ?v => replace v with (minus v (zero : R_NormedModule)) at 1 by (unfold minus, zero, opp, plus; simpl; ring) end.
  apply (is_derive_minus (V := R_NormedModule)); [exact D|apply (is_derive_const (V := R_NormedModule))].
Qed.

(** The quaternion the optimiser multiplies on the right for the rotation part theta of its
    step is the end point of the motion differentiated above; below 1e-8 it is the start. *)
Theorem C79_increment theta :
  (/ 100000000 <= vnorm theta -> angle_axis_to_quaternion theta = turn theta 1) /\ (vnorm theta < / 100000000 -> angle_axis_to_quaternion theta = turn theta 0).
Proof.
  split; intros H; unfold angle_axis_to_quaternion.
  - rewrite lt_false by lra. unfold turn. rewrite Rmult_1_l. apply quat_ext; vcbn; unfold Rdiv; ring.
  - rewrite lt_true by lra. rewrite turn_0. reflexivity.
Qed.
Print Assumptions C79_edge.
Print Assumptions C79_surface.
Print Assumptions C79_alignment.
Print Assumptions C79_increment.

(** At a pose turned by a half turn about z, moving along x changes the distance to the
    plane x = 1 at rate one (the derivative is not trivially zero). *)
Example ex_C79 : unit (Qn 0 0 0 1) /\ nth 0 (mat_app (surface_jacobian (V3 (-1) 0 0) (Qn 0 0 0 1) (V3 2 0 0)) (entries_app 7 6 (make_m (Qn 0 0 0 1)) (vlist (V3 0 0 0) ++ vlist (V3 1 0 0)))) 0 = -1.
Proof.
  split; [unfold unit, qnorm2; cbn [qw qx qy qz]; ring|].
  assert (N : vnorm (V3 (-1) 0 0) = 1). { unfold vnorm, vdot. cbn [vx vy vz]. replace (-1 * -1 + 0 * 0 + 0 * 0) with 1 by ring. apply sqrt_1. }
  unfold surface_jacobian. rewrite N. unfold entries_app, make_m.
  cbn [map seq app vlist vx vy vz Nat.ltb Nat.leb Nat.add left_mul_matrix nth Nat.eqb Nat.sub fold_right]; vcbn; field.
Qed.
