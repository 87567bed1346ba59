(** Rotation algebra. *)
From Coq Require Import List ZArith Bool Lia Lra Reals Psatz Nsatz.
From Verif Require Import Base Arith PoseModel SpecPose AngleProofs.
Import ListNotations.
Open Scope R_scope.

Ltac vcbn := cbv beta iota zeta delta [sandwich hamilton qconj vcross qmul unit qnorm2 vdot vnth qvec vadd vsub vscale det3
  qw qx qy qz vx vy vz m00 m01 m02 m10 m11 m12 m20 m21 m22 to_rotation mapply qsum coords coords7 vlist mat_app left_mul_matrix
  right_mul_matrix hat drpdq row_mul mat_mul beside map combine fold_right nth seq app fst snd Nat.eqb Nat.add
  mmul3 transpose3 id3 lin tra transform edge_residual edge_jacobian] in *.
Ltac leq := repeat (apply (f_equal2 (@cons R)); [ring|]); reflexivity.
Lemma vec_ext a b : vx a = vx b -> vy a = vy b -> vz a = vz b -> a = b.
Proof. destruct a, b; simpl; intros; subst; auto. Qed.
Lemma quat_ext a b : qw a = qw b -> qx a = qx b -> qy a = qy b -> qz a = qz b -> a = b.
Proof. destruct a, b; simpl; intros; subst; auto. Qed.
Lemma mat3_ext a b : m00 a = m00 b -> m01 a = m01 b -> m02 a = m02 b -> m10 a = m10 b -> m11 a = m11 b -> m12 a = m12 b ->
  m20 a = m20 b -> m21 a = m21 b -> m22 a = m22 b -> a = b.
Proof. destruct a, b; simpl; intros; subst; auto. Qed.

Lemma qmul_hamilton p q : qmul p q = hamilton p q.
Proof. destruct p, q. apply quat_ext; vcbn; ring. Qed.

Lemma left_mul p q : mat_app (left_mul_matrix p) (coords q) = coords (hamilton p q).
Proof. destruct p, q. unfold mat_app, coords. vcbn. leq. Qed.
Lemma right_mul p q : mat_app (right_mul_matrix q) (coords p) = coords (hamilton p q).
Proof. destruct p, q. unfold mat_app, coords. vcbn. leq. Qed.
Lemma hat_cross a b : mat_app (hat a) (vlist b) = vlist (vcross a b).
Proof. destruct a, b. unfold mat_app, vlist. vcbn. leq. Qed.

Lemma qnorm2_mul p q : qnorm2 (qmul p q) = qnorm2 p * qnorm2 q.
Proof. destruct p, q. unfold qnorm2. vcbn. ring. Qed.
Lemma unit_mul p q : unit p -> unit q -> unit (qmul p q).
Proof. unfold unit. intros Hp Hq. rewrite qnorm2_mul, Hp, Hq. ring. Qed.

Lemma to_rotation_sandwich q p : unit q -> mapply (to_rotation q) p = sandwich q p.
Proof.
  destruct q as [w x y z], p as [a b c]. unfold unit, qnorm2. vcbn. intros H.
  assert (Hw : w * w = 1 - x * x - y * y - z * z) by lra. apply vec_ext; vcbn; ring [Hw].
Qed.
Lemma to_rotation_is_rotation q : unit q -> is_rotation (to_rotation q).
Proof.
  destruct q as [w x y z]. unfold unit, qnorm2. vcbn. intros H.
  assert (Hw : w * w = 1 - x * x - y * y - z * z) by lra. split.
  - apply mat3_ext; vcbn; ring [Hw].
  - unfold det3. vcbn. ring [Hw].
Qed.

Lemma sandwich_expand q h p :
  sandwich (qsum q h) p =
  vadd (vadd (sandwich q p)
    (V3 (nth 0 (mat_app (drpdq q p) (coords h)) 0) (nth 1 (mat_app (drpdq q p) (coords h)) 0) (nth 2 (mat_app (drpdq q p) (coords h)) 0)))
    (sandwich h p).
Proof. destruct q, h, p. apply vec_ext; vcbn; ring. Qed.
Lemma sandwich_norm h p : vdot (sandwich h p) (sandwich h p) = qnorm2 h * qnorm2 h * vdot p p.
Proof. destruct h, p. unfold vdot, qnorm2. vcbn. ring. Qed.

(** Rotation matrices equal their cofactor matrix. *)
Lemma rotation_cofactors a : is_rotation a ->
  m11 a * m22 a - m12 a * m21 a = m00 a /\ m12 a * m20 a - m10 a * m22 a = m01 a /\ m10 a * m21 a - m11 a * m20 a = m02 a /\
  m02 a * m21 a - m01 a * m22 a = m10 a /\ m00 a * m22 a - m02 a * m20 a = m11 a /\ m01 a * m20 a - m00 a * m21 a = m12 a /\
  m01 a * m12 a - m02 a * m11 a = m20 a /\ m02 a * m10 a - m00 a * m12 a = m21 a /\ m00 a * m11 a - m01 a * m10 a = m22 a.
Proof.
  destruct a as [a b c d e f g h i]. intros [H1 H2]. unfold det3 in H2. vcbn.
  injection H1 as E00 E01 E02 E10 E11 E12 E20 E21 E22.
  assert (P00 : a * (a*(e*i-f*h) - b*(d*i-f*g) + c*(d*h-e*g)) = (a*a + d*d + g*g)*(e*i - f*h) + (a*b + d*e + g*h)*(f*g - d*i) + (a*c + d*f + g*i)*(d*h - e*g)) by ring.
  rewrite H2, E00, E01, E02 in P00.
  assert (P01 : b * (a*(e*i-f*h) - b*(d*i-f*g) + c*(d*h-e*g)) = (b*a + e*d + h*g)*(e*i - f*h) + (b*b + e*e + h*h)*(f*g - d*i) + (b*c + e*f + h*i)*(d*h - e*g)) by ring.
  rewrite H2, E10, E11, E12 in P01.
  assert (P02 : c * (a*(e*i-f*h) - b*(d*i-f*g) + c*(d*h-e*g)) = (c*a + f*d + i*g)*(e*i - f*h) + (c*b + f*e + i*h)*(f*g - d*i) + (c*c + f*f + i*i)*(d*h - e*g)) by ring.
  rewrite H2, E20, E21, E22 in P02.
  assert (P10 : d * (a*(e*i-f*h) - b*(d*i-f*g) + c*(d*h-e*g)) = (a*a + d*d + g*g)*(h*c - i*b) + (a*b + d*e + g*h)*(i*a - g*c) + (a*c + d*f + g*i)*(g*b - h*a)) by ring.
  rewrite H2, E00, E01, E02 in P10.
  assert (P11 : e * (a*(e*i-f*h) - b*(d*i-f*g) + c*(d*h-e*g)) = (b*a + e*d + h*g)*(h*c - i*b) + (b*b + e*e + h*h)*(i*a - g*c) + (b*c + e*f + h*i)*(g*b - h*a)) by ring.
  rewrite H2, E10, E11, E12 in P11.
  assert (P12 : f * (a*(e*i-f*h) - b*(d*i-f*g) + c*(d*h-e*g)) = (c*a + f*d + i*g)*(h*c - i*b) + (c*b + f*e + i*h)*(i*a - g*c) + (c*c + f*f + i*i)*(g*b - h*a)) by ring.
  rewrite H2, E20, E21, E22 in P12.
  assert (P20 : g * (a*(e*i-f*h) - b*(d*i-f*g) + c*(d*h-e*g)) = (a*a + d*d + g*g)*(b*f - c*e) + (a*b + d*e + g*h)*(c*d - a*f) + (a*c + d*f + g*i)*(a*e - b*d)) by ring.
  rewrite H2, E00, E01, E02 in P20.
  assert (P21 : h * (a*(e*i-f*h) - b*(d*i-f*g) + c*(d*h-e*g)) = (b*a + e*d + h*g)*(b*f - c*e) + (b*b + e*e + h*h)*(c*d - a*f) + (b*c + e*f + h*i)*(a*e - b*d)) by ring.
  rewrite H2, E10, E11, E12 in P21.
  assert (P22 : i * (a*(e*i-f*h) - b*(d*i-f*g) + c*(d*h-e*g)) = (c*a + f*d + i*g)*(b*f - c*e) + (c*b + f*e + i*h)*(c*d - a*f) + (c*c + f*f + i*i)*(a*e - b*d)) by ring.
  rewrite H2, E20, E21, E22 in P22.
  clear H2 E00 E01 E02 E10 E11 E12 E20 E21 E22. repeat split; lra.
Qed.

Lemma rotation_rows a : is_rotation a ->
  m00 a * m00 a + m01 a * m01 a + m02 a * m02 a = 1 /\ m10 a * m10 a + m11 a * m11 a + m12 a * m12 a = 1 /\
  m20 a * m20 a + m21 a * m21 a + m22 a * m22 a = 1 /\
  m00 a * m10 a + m01 a * m11 a + m02 a * m12 a = 0 /\ m00 a * m20 a + m01 a * m21 a + m02 a * m22 a = 0 /\
  m10 a * m20 a + m11 a * m21 a + m12 a * m22 a = 0.
Proof.
  intros Ha. pose proof (rotation_cofactors a Ha) as C. destruct Ha as [_ H2].
  destruct a as [a b c d e f g h i]. vcbn. destruct C as [C1 [C2 [C3 [C4 [C5 [C6 [C7 [C8 C9]]]]]]]].
  repeat split.
  - transitivity (a * (e * i - f * h) + b * (f * g - d * i) + c * (d * h - e * g)); [rewrite C1, C2, C3; ring|]. rewrite <- H2. ring.
  - transitivity (d * (c * h - b * i) + e * (a * i - c * g) + f * (b * g - a * h)); [rewrite C4, C5, C6; ring|]. rewrite <- H2. ring.
  - transitivity (g * (b * f - c * e) + h * (c * d - a * f) + i * (a * e - b * d)); [rewrite C7, C8, C9; ring|]. rewrite <- H2. ring.
  - transitivity (a * (c * h - b * i) + b * (a * i - c * g) + c * (b * g - a * h)); [rewrite C4, C5, C6; ring|]. ring.
  - transitivity (a * (b * f - c * e) + b * (c * d - a * f) + c * (a * e - b * d)); [rewrite C7, C8, C9; ring|]. ring.
  - transitivity (d * (b * f - c * e) + e * (c * d - a * f) + f * (a * e - b * d)); [rewrite C7, C8, C9; ring|]. ring.
Qed.
Lemma rotation_cols a : is_rotation a ->
  m00 a * m00 a + m10 a * m10 a + m20 a * m20 a = 1 /\ m01 a * m01 a + m11 a * m11 a + m21 a * m21 a = 1 /\
  m02 a * m02 a + m12 a * m12 a + m22 a * m22 a = 1 /\
  m00 a * m01 a + m10 a * m11 a + m20 a * m21 a = 0 /\ m00 a * m02 a + m10 a * m12 a + m20 a * m22 a = 0 /\
  m01 a * m02 a + m11 a * m12 a + m21 a * m22 a = 0.
Proof.
  intros [H _]. destruct a as [a b c d e f g h i]. vcbn. injection H. intros. repeat split; auto.
Qed.

Lemma half_sq u : 0 < u -> let s := sqrt u in let h := / 2 / s in s * s = u /\ s * h = 1 / 2 /\ u * (h * h) = 1 / 4.
Proof.
  intros Hu s h. assert (Hs : 0 < s) by (apply sqrt_lt_R0; auto).
  assert (E : s * s = u) by (apply sqrt_sqrt; lra).
  assert (E2 : s * h = 1 / 2) by (unfold h; field; lra).
  split; auto. split; auto. rewrite <- E. replace (s * s * (h * h)) with ((s * h) * (s * h)) by ring. rewrite E2. field.
Qed.
Lemma half_prod u h X Y k : u * (h * h) = 1 / 4 -> X * Y = u * k -> X * h * (Y * h) = k / 4.
Proof. intros H E. replace (X * h * (Y * h)) with (X * Y * (h * h)) by ring. rewrite E. replace (u * k * (h * h)) with (u * (h * h) * k) by ring. rewrite H. field. Qed.
Lemma half_lin s h X : s * h = 1 / 2 -> / 2 * s * (X * h) = X / 4.
Proof. intros H. replace (/ 2 * s * (X * h)) with (/ 2 * (s * h) * X) by ring. rewrite H. lra. Qed.

(** The four branches of Eigen's conversion, with p the branch component and X, Y, Z the
    other three. *)
Lemma quat_of_ok a : is_rotation a -> unit (quat_of a) /\ to_rotation (quat_of a) = a.
Proof.
  intros Ha. destruct (rotation_cofactors a Ha) as [C1 [C2 [C3 [C4 [C5 [C6 [C7 [C8 C9]]]]]]]].
  destruct (rotation_rows a Ha) as [R1 [R2 [R3 [R4 [R5 R6]]]]].
  destruct (rotation_cols a Ha) as [K1 [K2 [K3 [K4 [K5 K6]]]]]. clear Ha.
  destruct a as [a b c d e f g h i]. cbn [m00 m01 m02 m10 m11 m12 m20 m21 m22] in *.
  unfold quat_of. cbn [m00 m01 m02 m10 m11 m12 m20 m21 m22].
  destruct (Rltb 0 (a + e + i)) eqn:T.
  - apply Rltb_spec in T. cbv zeta. set (u := a + e + i + 1).
    assert (Hu : 0 < u) by (unfold u; lra).
    destruct (half_sq u Hu) as [S1 [S2 S3]]. set (s := sqrt u) in *. set (k := / 2 / s) in *.
    pose proof (half_prod u k (h - f) (h - f) (1 + a - e - i) S3 ltac:(unfold u; lra)) as P1.
    pose proof (half_prod u k (c - g) (c - g) (1 - a + e - i) S3 ltac:(unfold u; lra)) as P2.
    pose proof (half_prod u k (d - b) (d - b) (1 - a - e + i) S3 ltac:(unfold u; lra)) as P3.
    pose proof (half_prod u k (h - f) (c - g) (b + d) S3 ltac:(unfold u; lra)) as P4.
    pose proof (half_prod u k (h - f) (d - b) (c + g) S3 ltac:(unfold u; lra)) as P5.
    pose proof (half_prod u k (c - g) (d - b) (f + h) S3 ltac:(unfold u; lra)) as P6.
    pose proof (half_lin s k (h - f) S2) as L1. pose proof (half_lin s k (c - g) S2) as L2. pose proof (half_lin s k (d - b) S2) as L3.
    assert (S4 : / 2 * s * (/ 2 * s) = u / 4) by (rewrite <- S1; lra).
    clearbody s k. unfold u in *.
    split; [unfold unit, qnorm2; cbn [qw qx qy qz]; lra|]. apply mat3_ext; cbn [to_rotation m00 m01 m02 m10 m11 m12 m20 m21 m22]; lra.
  - assert (T' : a + e + i <= 0) by (apply rltb_false in T; lra).
    destruct (Rltb (if Rltb a e then e else a) i) eqn:T2.
    + assert (T3 : a < i /\ e < i).
      { apply Rltb_spec in T2. destruct (Rltb a e) eqn:T3; [apply Rltb_spec in T3|apply rltb_false in T3]; lra. }
      cbv zeta. set (u := i - a - e + 1). assert (Hu : 0 < u) by (unfold u; lra).
      destruct (half_sq u Hu) as [S1 [S2 S3]]. set (s := sqrt u) in *. set (k := / 2 / s) in *.
      pose proof (half_prod u k (d - b) (d - b) (1 + a + e + i) S3 ltac:(unfold u; lra)) as P1.
      pose proof (half_prod u k (c + g) (c + g) (1 + a - e - i) S3 ltac:(unfold u; lra)) as P2.
      pose proof (half_prod u k (f + h) (f + h) (1 - a + e - i) S3 ltac:(unfold u; lra)) as P3.
      pose proof (half_prod u k (d - b) (c + g) (h - f) S3 ltac:(unfold u; lra)) as P4.
      pose proof (half_prod u k (d - b) (f + h) (c - g) S3 ltac:(unfold u; lra)) as P5.
      pose proof (half_prod u k (c + g) (f + h) (b + d) S3 ltac:(unfold u; lra)) as P6.
      pose proof (half_lin s k (d - b) S2) as L1. pose proof (half_lin s k (c + g) S2) as L2. pose proof (half_lin s k (f + h) S2) as L3.
      assert (S4 : / 2 * s * (/ 2 * s) = u / 4) by (rewrite <- S1; lra).
      clearbody s k. unfold u in *.
      split; [unfold unit, qnorm2; cbn [qw qx qy qz]; lra|]. apply mat3_ext; cbn [to_rotation m00 m01 m02 m10 m11 m12 m20 m21 m22]; lra.
    + apply rltb_false in T2. destruct (Rltb a e) eqn:T3.
      * apply Rltb_spec in T3. cbv zeta. set (u := e - i - a + 1). assert (Hu : 0 < u) by (unfold u; lra).
        destruct (half_sq u Hu) as [S1 [S2 S3]]. set (s := sqrt u) in *. set (k := / 2 / s) in *.
        pose proof (half_prod u k (c - g) (c - g) (1 + a + e + i) S3 ltac:(unfold u; lra)) as P1.
        pose proof (half_prod u k (b + d) (b + d) (1 + a - e - i) S3 ltac:(unfold u; lra)) as P2.
        pose proof (half_prod u k (h + f) (h + f) (1 - a - e + i) S3 ltac:(unfold u; lra)) as P3.
        pose proof (half_prod u k (c - g) (b + d) (h - f) S3 ltac:(unfold u; lra)) as P4.
        pose proof (half_prod u k (c - g) (h + f) (d - b) S3 ltac:(unfold u; lra)) as P5.
        pose proof (half_prod u k (b + d) (h + f) (c + g) S3 ltac:(unfold u; lra)) as P6.
        pose proof (half_lin s k (c - g) S2) as L1. pose proof (half_lin s k (b + d) S2) as L2. pose proof (half_lin s k (h + f) S2) as L3.
        assert (S4 : / 2 * s * (/ 2 * s) = u / 4) by (rewrite <- S1; lra).
        clearbody s k. unfold u in *.
        split; [unfold unit, qnorm2; cbn [qw qx qy qz]; lra|]. apply mat3_ext; cbn [to_rotation m00 m01 m02 m10 m11 m12 m20 m21 m22]; lra.
      * apply rltb_false in T3. cbv zeta. set (u := a - e - i + 1). assert (Hu : 0 < u) by (unfold u; lra).
        destruct (half_sq u Hu) as [S1 [S2 S3]]. set (s := sqrt u) in *. set (k := / 2 / s) in *.
        pose proof (half_prod u k (h - f) (h - f) (1 + a + e + i) S3 ltac:(unfold u; lra)) as P1.
        pose proof (half_prod u k (d + b) (d + b) (1 - a + e - i) S3 ltac:(unfold u; lra)) as P2.
        pose proof (half_prod u k (g + c) (g + c) (1 - a - e + i) S3 ltac:(unfold u; lra)) as P3.
        pose proof (half_prod u k (h - f) (d + b) (c - g) S3 ltac:(unfold u; lra)) as P4.
        pose proof (half_prod u k (h - f) (g + c) (d - b) S3 ltac:(unfold u; lra)) as P5.
        pose proof (half_prod u k (d + b) (g + c) (f + h) S3 ltac:(unfold u; lra)) as P6.
        pose proof (half_lin s k (h - f) S2) as L1. pose proof (half_lin s k (d + b) S2) as L2. pose proof (half_lin s k (g + c) S2) as L3.
        assert (S4 : / 2 * s * (/ 2 * s) = u / 4) by (rewrite <- S1; lra).
        clearbody s k. unfold u in *.
        split; [unfold unit, qnorm2; cbn [qw qx qy qz]; lra|]. apply mat3_ext; cbn [to_rotation m00 m01 m02 m10 m11 m12 m20 m21 m22]; lra.
Qed.
