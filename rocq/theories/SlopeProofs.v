(** The two quaternions of an orientation in the optimiser: uniqueness of the step, the step
    for the opposite quaternion, and steps about the vertical axis. *)
From Coq Require Import List ZArith Bool Lia Lra Reals Classical_Prop.
From Verif Require Import Base Arith LibModel SpecLib LibProofs LocModel PoseModel OptModel SpecPose SpecOpt SpecStep SpecMsg
  AngleProofs RotProofs WitnessProofs StepProofs.
Import ListNotations.
Open Scope R_scope.

(** * The minimiser is unique *)
Section Unique.
Variable eig : nat -> (nat -> nat -> R) -> list R.
Variable q : quat.
Hypothesis Uq : unit q.
Variables (w : list R) (Js : list mat) (rs : list (list R)).
Hypothesis HS : well_shaped Js rs.
Hypothesis Hlen : length w = length Js.
Hypothesis Hw : Forall (fun c => 0 < c) w.
Hypothesis HE : eigenvalues_of 7 (normal_matrix Js) (eig 7%nat (normal_matrix Js)).
Hypothesis Hnd : forall e, In e (eig 7%nat (normal_matrix Js)) -> / 10 <= Rabs e.
Notation l := (flat w Js rs).
Notation M := (make_m q).

Lemma curved y : nonzero 6 y -> 0 < lsum (fun t => t_w t * (rho t (mapp M y) * rho t (mapp M y))) l.
Proof.
  intros Hy. apply weighted_pos with (f := fun t => rho t (mapp M y) * rho t (mapp M y)); [apply weights_pos; auto|intros; nra|].
  apply (normal_pd eig w Js rs HS Hlen HE Hnd).
  assert (D : forall n f, total n f <> 0 -> exists i, (i < n)%nat /\ f i <> 0).
  { intros n f H. destruct (classic (exists i, (i < n)%nat /\ f i <> 0)) as [|N]; auto.
    exfalso. apply H. rewrite <- (total_zero n). apply total_ext. intros i Hi.
    destruct (Req_dec (f i) 0); auto. exfalso. apply N. eauto. }
  destruct (Req_dec (total 7 (fun i => mapp M y i * mapp M y i)) 0) as [Hz|Hz].
  - exfalso. rewrite (mapp_norm q y Uq) in Hz. destruct Hy as [i [Hi Hy]]. apply Hy.
    pose proof (Rle_0_sqr (y 0%nat)). pose proof (Rle_0_sqr (y 1%nat)). pose proof (Rle_0_sqr (y 2%nat)).
    pose proof (Rle_0_sqr (y 3%nat)). pose proof (Rle_0_sqr (y 4%nat)). pose proof (Rle_0_sqr (y 5%nat)).
    unfold Rsqr in *.
    do 6 (destruct i as [|i]; [apply Rsqr_eq_0; unfold Rsqr; lra|]). lia.
  - destruct (D _ _ Hz) as [i [Hi Hf]]. exists i. split; auto. intros E0. apply Hf. rewrite E0. ring.
Qed.

Lemma error_at y : linear_error w Js rs (tangent q y) = lsum (fun t => t_w t * (t_res t + rho t (mapp M y)) * (t_res t + rho t (mapp M y))) l.
Proof.
  rewrite linear_error_flat by auto using tangent_len. apply lsum_ext. intros t _.
  assert (EX : rho t (fun i => nth i (tangent q y) 0) = rho t (mapp M y)).
  { unfold rho. apply total_ext. intros i Hi. rewrite tangent_mapp by auto. reflexivity. }
  rewrite EX. reflexivity.
Qed.

Lemma minimiser_unique x x' :
  (forall y, linear_error w Js rs (tangent q x) <= linear_error w Js rs (tangent q y)) ->
  (forall y, linear_error w Js rs (tangent q x') <= linear_error w Js rs (tangent q y)) ->
  forall k, (k < 6)%nat -> x k = x' k.
Proof.
  intros H H' k Hk. destruct (Req_dec (x k) (x' k)) as [|N]; auto. exfalso.
  set (d := fun k => x k - x' k). set (m := fun k => (x k + x' k) / 2).
  assert (P : 0 < lsum (fun t => t_w t * (rho t (mapp M d) * rho t (mapp M d))) l) by (apply curved; exists k; split; auto; unfold d; lra).
  specialize (H m). specialize (H' m). rewrite !error_at in *.
  assert (LM : forall t, rho t (mapp M m) = (rho t (mapp M x) + rho t (mapp M x')) / 2 /\ rho t (mapp M d) = rho t (mapp M x) - rho t (mapp M x')).
  { intros t. unfold rho, mapp, m, d, total. cbn [seq map fold_right]. split; field. }
  set (E := fun z => lsum (fun t => t_w t * (t_res t + rho t (mapp M z)) * (t_res t + rho t (mapp M z))) l) in *.
  assert (EM : E m + / 4 * lsum (fun t => t_w t * (rho t (mapp M d) * rho t (mapp M d))) l = / 2 * E x + / 2 * E x').
  { unfold E. rewrite <- !lsum_scal, <- !lsum_plus. apply lsum_ext. intros t _. destruct (LM t) as [-> ->]. field. }
  fold (E x) (E x') (E m) in H, H'. lra.
Qed.
End Unique.

(** * The opposite quaternion *)
Definition backwards (y : nat -> R) (k : nat) : R := if (k <? 3)%nat then - y k else y k.
Lemma tangent_opp q y : tangent (qopp q) (backwards y) = tangent q y.
Proof.
  destruct q as [a b c d]. unfold tangent, backwards, qopp. cbn [qw qx qy qz Nat.ltb Nat.leb].
  unfold hamilton, coords, vdot, vadd, vscale, vcross, qvec. cbn [qw qx qy qz vx vy vz app].
  repeat (apply (f_equal2 (@cons R)); [field|]). reflexivity.
Qed.
Lemma unit_opp q : unit q -> unit (qopp q).
Proof. destruct q as [a b c d]. unfold unit, qnorm2, qopp. cbn [qw qx qy qz]. intros <-. ring. Qed.
Lemma aa_opp a b c : angle_axis_to_quaternion (V3 (- a) (- b) (- c)) = qconj (angle_axis_to_quaternion (V3 a b c)).
Proof.
  unfold angle_axis_to_quaternion. assert (E : vnorm (V3 (- a) (- b) (- c)) = vnorm (V3 a b c)).
  { unfold vnorm, vdot. cbn [vx vy vz]. f_equal. ring. }
  rewrite E. destruct (Rltb _ _).
  - unfold qconj, qid. cbn [qw qx qy qz]. f_equal; ring.
  - unfold qconj, vscale. cbn [qw qx qy qz vx vy vz]. f_equal; ring.
Qed.
Lemma qconj_conj p : qconj (qconj p) = p.
Proof. destruct p as [a b c d]. unfold qconj. cbn [qw qx qy qz]. rewrite !Ropp_involutive. reflexivity. Qed.
Lemma opposite_step eig llt q w Js rs dq dt :
  solves_positive_definite llt ->
  unit q -> well_shaped Js rs -> length w = length Js -> Forall (fun c => 0 < c) w ->
  eigenvalues_of 7 (normal_matrix Js) (eig 7%nat (normal_matrix Js)) ->
  (forall e, In e (eig 7%nat (normal_matrix Js)) -> / 10 <= Rabs e) ->
  calc_update eig llt q w Js rs = Ok (dq, dt) ->
  calc_update eig llt (qopp q) w Js rs = Ok (qconj dq, dt).
Proof.
  intros HL Uq HS Hlen Hw HE Hnd H.
  destruct (step_minimises eig llt HL q Uq w Js rs HS Hlen Hw HE Hnd) as [x [E1 Mx]].
  destruct (step_minimises eig llt HL (qopp q) (unit_opp q Uq) w Js rs HS Hlen Hw HE Hnd) as [x' [E2 Mx']].
  rewrite E1 in H. injection H as <- <-. rewrite E2.
  assert (U : forall k, (k < 6)%nat -> x k = backwards x' k).
  { apply (minimiser_unique eig q Uq w Js rs HS Hlen Hw HE Hnd); auto. intros y.
    assert (B : forall z, tangent q (backwards z) = tangent (qopp q) z).
    { intros z. rewrite <- (tangent_opp (qopp q) z). f_equal. destruct q as [q1 q2 q3 q4]. unfold qopp. cbn [qw qx qy qz]. f_equal; ring. }
    rewrite (B x'). rewrite <- (tangent_opp q y). apply Mx'. }
  assert (V : x 0%nat = - x' 0%nat /\ x 1%nat = - x' 1%nat /\ x 2%nat = - x' 2%nat /\ x 3%nat = x' 3%nat /\ x 4%nat = x' 4%nat /\ x 5%nat = x' 5%nat)
    by (repeat split; apply U; lia).
  destruct V as (-> & -> & -> & -> & -> & ->). rewrite aa_opp. f_equal. f_equal.
  symmetry. apply qconj_conj.
Qed.

(** * Turns about the vertical *)
Definition zq (phi : R) : quat := Qn (cos phi) 0 0 (sin phi).
Lemma zq_unit phi : unit (zq phi).
Proof. unfold unit, qnorm2, zq. cbn [qw qx qy qz]. pose proof (sin2_cos2 phi) as H. unfold Rsqr in H. lra. Qed.
Lemma double_angle phi : cos (2 * phi) = 1 - 2 * sin phi * sin phi /\ sin (2 * phi) = 2 * sin phi * cos phi.
Proof. split; [apply cos_2a_sin|apply sin_2a]. Qed.
Lemma zq_rotation phi : to_rotation (zq phi) = rot_z (2 * phi).
Proof.
  destruct (double_angle phi) as [C S]. pose proof (sin2_cos2 phi) as H. unfold Rsqr in H.
  unfold rot_z. rewrite C, S. unfold to_rotation, zq. apply mat3_ext; cbn [m00 m01 m02 m10 m11 m12 m20 m21 m22]; ring.
Qed.
(** The quaternion made from the matrix: the scalar part is positive if the heading is less
    than 120 degrees from zero, otherwise the vertical part is. *)
Lemma quat_near phi : / 4 < cos phi * cos phi -> quat_of (rot_z (2 * phi)) = if Rltb 0 (cos phi) then zq phi else qopp (zq phi).
Proof.
  intros HC. destruct (double_angle phi) as [C S]. pose proof (sin2_cos2 phi) as H. unfold Rsqr in H.
  unfold quat_of, rot_z. cbn [m00 m01 m02 m10 m11 m12 m20 m21 m22]. rewrite C, S.
  set (c := cos phi) in *. set (s := sin phi) in *. rewrite lt_true by nra.
  replace (1 - 2 * s * s + (1 - 2 * s * s) + 1 + 1) with (2 * c * (2 * c)) by nra.
  destruct (Rltb 0 c) eqn:E.
  - apply Rltb_spec in E. rewrite sqrt_square by lra. unfold zq. fold c s. apply quat_ext; cbn [qw qx qy qz]; field; lra.
  - apply rltb_false in E. assert (c <> 0) by (intros Z; rewrite Z in HC; lra).
    replace (2 * c * (2 * c)) with (2 * - c * (2 * - c)) by ring. rewrite sqrt_square by lra. unfold zq, qopp. fold c s. apply quat_ext; cbn [qw qx qy qz]; field; lra.
Qed.
Lemma quat_far phi : cos phi * cos phi <= / 4 -> 0 < sin phi -> quat_of (rot_z (2 * phi)) = zq phi.
Proof.
  intros HC HS. destruct (double_angle phi) as [C S]. pose proof (sin2_cos2 phi) as H. unfold Rsqr in H.
  unfold quat_of, rot_z. cbn [m00 m01 m02 m10 m11 m12 m20 m21 m22]. rewrite C, S.
  set (c := cos phi) in *. set (s := sin phi) in *. rewrite lt_false by nra. rewrite (lt_false (1 - 2 * s * s)) by lra. rewrite lt_true by nra.
  replace (1 - (1 - 2 * s * s) - (1 - 2 * s * s) + 1) with (2 * s * (2 * s)) by ring. rewrite sqrt_square by lra.
  unfold zq. fold c s. apply quat_ext; cbn [qw qx qy qz]; field; lra.
Qed.
Lemma zq_mul a b : qmul (zq a) (zq b) = zq (a + b).
Proof. unfold zq. rewrite cos_plus, sin_plus. unfold qmul. cbn [qw qx qy qz]. f_equal; ring. Qed.
Lemma aa_vertical a : / 100000000 <= Rabs a -> angle_axis_to_quaternion (V3 0 0 a) = zq (a / 2).
Proof.
  intros Ha. unfold angle_axis_to_quaternion.
  assert (E : vnorm (V3 0 0 a) = Rabs a).
  { unfold vnorm, vdot. cbn [vx vy vz]. replace (0 * 0 + 0 * 0 + a * a) with (Rsqr a) by (unfold Rsqr; ring). apply sqrt_Rsqr_abs. }
  rewrite E. rewrite lt_false by lra. unfold vscale, zq. cbn [vx vy vz].
  assert (N : Rabs a <> 0) by lra. revert N. unfold Rabs. destruct (Rcase_abs a); intros N.
  - replace (- a / 2) with (- (a / 2)) by field. rewrite cos_neg, sin_neg. apply quat_ext; cbn [qw qx qy qz]; field; lra.
  - apply quat_ext; cbn [qw qx qy qz]; field; lra.
Qed.

(** * Four points of a square *)
Definition square : list vec := [V3 1 0 0; V3 (-1) 0 0; V3 0 1 0; V3 0 (-1) 0].
Definition heading (psi : R) : pose := Iso (rot_z psi) (V3 0 0 0).
Definition square_jacobians (q : quat) : list mat := alignment_jacobian q square.
Definition square_residuals (C S a b : R) : list (list R) :=
  [[a - C; b - S; 0]; [C - a; S - b; 0]; [S - b; a - C; 0]; [b - S; C - a; 0]].
Lemma square_problem truth psi : alignment_make (square, map (transform (heading truth)) square) (heading psi)
  = Ok (square_jacobians (quat_of (rot_z psi)), square_residuals (cos truth) (sin truth) (cos psi) (sin psi)).
Proof.
  unfold alignment_make, alignment_residual, square, heading. cbn [fst snd map length Nat.eqb assert_ bind combine lin]. unfold square_jacobians, square, square_residuals.
  f_equal. f_equal. unfold transform, rot_z, mapply, vadd, vsub, vlist. cbn [lin tra vx vy vz m00 m01 m02 m10 m11 m12 m20 m21 m22].
  repeat (apply (f_equal2 (@cons (list R))); [repeat (apply (f_equal2 (@cons R)); [ring|]); reflexivity|]). reflexivity.
Qed.
Lemma square_shaped q C S a b : well_shaped (square_jacobians q) (square_residuals C S a b).
Proof. unfold well_shaped, square_jacobians, square_residuals, alignment_jacobian, square. cbn [map]. repeat constructor. Qed.

Lemma square_quad c s x : quad 7 (normal_matrix (square_jacobians (Qn c 0 0 s))) x =
  (c * c + s * s) * (16 * (x 0%nat * x 0%nat + x 3%nat * x 3%nat) + 8 * (x 1%nat * x 1%nat + x 2%nat * x 2%nat))
  + 4 * (x 4%nat * x 4%nat + x 5%nat * x 5%nat + x 6%nat * x 6%nat).
Proof.
  unfold quad, total, normal_matrix, square_jacobians, alignment_jacobian, square.
  cbv beta iota zeta delta [drpdq hat beside vnth vcross vdot qvec qw qx qy qz vx vy vz map combine fold_right nth seq app fst snd Nat.eqb]. ring.
Qed.
Lemma square_regular c s e x : c * c + s * s = 1 -> nonzero 7 x ->
  (forall i, (i < 7)%nat -> total 7 (fun j => normal_matrix (square_jacobians (Qn c 0 0 s)) i j * x j) = e * x i) -> 4 <= e.
Proof.
  intros U Hx HE. pose proof (total_sq_pos 7 x Hx) as P.
  assert (Q : quad 7 (normal_matrix (square_jacobians (Qn c 0 0 s))) x = e * total 7 (fun i => x i * x i)).
  { unfold quad. rewrite <- total_scal. apply total_ext. intros i Hi.
    rewrite (total_ext 7 _ (fun j => x i * (normal_matrix (square_jacobians (Qn c 0 0 s)) i j * x j))) by (intros; ring).
    rewrite total_scal, HE by auto. ring. }
  rewrite square_quad, U in Q.
  assert (T : total 7 (fun i => x i * x i) = x 0%nat * x 0%nat + x 3%nat * x 3%nat + (x 1%nat * x 1%nat + x 2%nat * x 2%nat) + (x 4%nat * x 4%nat + x 5%nat * x 5%nat + x 6%nat * x 6%nat)).
  { unfold total. cbn [seq map fold_right]. ring. }
  rewrite T in *.
  pose proof (Rle_0_sqr (x 0%nat)). pose proof (Rle_0_sqr (x 1%nat)). pose proof (Rle_0_sqr (x 2%nat)). pose proof (Rle_0_sqr (x 3%nat)).
  unfold Rsqr in *. nra.
Qed.

Lemma square_error w c s C S y : c * c + s * s = 1 ->
  let a := c * c - s * s in let b := 2 * s * c in let sd := S * a - C * b in
  linear_error [w; w; w; w] (square_jacobians (Qn c 0 0 s)) (square_residuals C S a b) (tangent (Qn c 0 0 s) y)
  = w * (2 * (y 0%nat * y 0%nat + y 1%nat * y 1%nat) + 4 * ((y 2%nat - sd) * (y 2%nat - sd)) + 4 * (y 3%nat * y 3%nat + y 4%nat * y 4%nat + y 5%nat * y 5%nat))
    + w * (4 * ((a - C) * (a - C) + (b - S) * (b - S)) - 4 * (sd * sd)).
Proof.
  intros U a b sd.
  transitivity (w * ((c * c + s * s) * (c * c + s * s) * (2 * (y 0%nat * y 0%nat + y 1%nat * y 1%nat) + 4 * (y 2%nat * y 2%nat)) - 8 * sd * y 2%nat
     + 4 * (y 3%nat * y 3%nat + y 4%nat * y 4%nat + y 5%nat * y 5%nat)) + w * (4 * ((a - C) * (a - C) + (b - S) * (b - S)))).
  2:{ rewrite U. ring. }
  unfold linear_error, square_jacobians, square_residuals, alignment_jacobian, square, tangent, row_dot, hamilton, coords, sd, a, b.
  cbv beta iota zeta delta [drpdq hat beside vnth vcross vdot vadd vscale qvec qw qx qy qz vx vy vz map combine fold_right nth seq app fst snd Nat.eqb]. field.
Qed.

(** * Runs on the square *)
Section Runs.
Variable eig : nat -> (nat -> nat -> R) -> list R.
Variable llt : nat -> (nat -> nat -> R) -> (nat -> R) -> (nat -> R).
Variable sel : selector exact.
Hypothesis HL : solves_positive_definite llt.
Hypothesis HE : forall phi, eigenvalues_of 7 (normal_matrix (square_jacobians (zq phi))) (eig 7%nat (normal_matrix (square_jacobians (zq phi)))).
Hypothesis Hsel : valid_nth exact sel.

Lemma square_eigen phi : forall e, In e (eig 7%nat (normal_matrix (square_jacobians (zq phi)))) -> / 10 <= Rabs e.
Proof.
  intros e He. destruct (HE phi) as [H1 _]. destruct (H1 e He) as [x [Hx E]].
  pose proof (sin2_cos2 phi) as H. unfold Rsqr in H.
  assert (4 <= e) by (apply (square_regular (cos phi) (sin phi) e x); auto; lra).
  rewrite Rabs_right; lra.
Qed.
Lemma square_step w phi truth : 0 < w ->
  calc_update eig llt (zq phi) [w; w; w; w] (square_jacobians (zq phi)) (square_residuals (cos truth) (sin truth) (cos (2 * phi)) (sin (2 * phi)))
  = Ok (angle_axis_to_quaternion (V3 0 0 (sin (truth - 2 * phi))), V3 0 0 0).
Proof.
  intros Hw.
  destruct (step_minimises eig llt HL (zq phi) (zq_unit phi) [w; w; w; w] (square_jacobians (zq phi))
    (square_residuals (cos truth) (sin truth) (cos (2 * phi)) (sin (2 * phi)))) as [x [E Mx]]; auto.
  { apply square_shaped. }
  { apply square_eigen. }
  rewrite E. specialize (Mx (fun k => if Nat.eqb k 2 then sin (truth - 2 * phi) else 0)).
  pose proof (sin2_cos2 phi) as H. unfold Rsqr in H.
  assert (EC : cos (2 * phi) = cos phi * cos phi - sin phi * sin phi) by apply cos_2a.
  assert (ES : sin (2 * phi) = 2 * sin phi * cos phi) by apply sin_2a.
  assert (ED : sin (truth - 2 * phi) = sin truth * (cos phi * cos phi - sin phi * sin phi) - cos truth * (2 * sin phi * cos phi))
    by (rewrite sin_minus, EC, ES; ring).
  rewrite ED in *. rewrite EC, ES in Mx. unfold zq in Mx.
  rewrite !square_error in Mx by lra. cbn [Nat.eqb] in Mx.
  set (sd := sin truth * (cos phi * cos phi - sin phi * sin phi) - cos truth * (2 * sin phi * cos phi)) in *.
  set (K := w * _ - _) in Mx || set (K := w * (4 * _ - _)) in Mx. clearbody K.
  assert (Z : w * (2 * (x 0%nat * x 0%nat + x 1%nat * x 1%nat) + 4 * ((x 2%nat - sd) * (x 2%nat - sd)) + 4 * (x 3%nat * x 3%nat + x 4%nat * x 4%nat + x 5%nat * x 5%nat)) <= 0) by nra.
  assert (Z2 : 2 * (x 0%nat * x 0%nat + x 1%nat * x 1%nat) + 4 * ((x 2%nat - sd) * (x 2%nat - sd)) + 4 * (x 3%nat * x 3%nat + x 4%nat * x 4%nat + x 5%nat * x 5%nat) <= 0).
  { apply Rnot_lt_le. intros N. pose proof (Rmult_lt_0_compat _ _ Hw N). lra. }
  pose proof (Rle_0_sqr (x 0%nat)). pose proof (Rle_0_sqr (x 1%nat)). pose proof (Rle_0_sqr (x 2%nat - sd)).
  pose proof (Rle_0_sqr (x 3%nat)). pose proof (Rle_0_sqr (x 4%nat)). pose proof (Rle_0_sqr (x 5%nat)). unfold Rsqr in *.
  assert (X0 : x 0%nat = 0) by (apply Rsqr_eq_0; unfold Rsqr; lra). assert (X1 : x 1%nat = 0) by (apply Rsqr_eq_0; unfold Rsqr; lra).
  assert (X2 : x 2%nat = sd) by (apply Rminus_diag_uniq, Rsqr_eq_0; unfold Rsqr; lra).
  assert (X3 : x 3%nat = 0) by (apply Rsqr_eq_0; unfold Rsqr; lra). assert (X4 : x 4%nat = 0) by (apply Rsqr_eq_0; unfold Rsqr; lra).
  assert (X5 : x 5%nat = 0) by (apply Rsqr_eq_0; unfold Rsqr; lra).
  rewrite X0, X1, X2, X3, X4, X5. reflexivity.
Qed.
Lemma zq_pi phi : zq (phi + PI) = qopp (zq phi).
Proof. unfold zq, qopp. rewrite neg_cos, neg_sin. cbn [qw qx qy qz]. rewrite Ropp_0. reflexivity. Qed.
Lemma square_step_back w phi truth : 0 < w ->
  calc_update eig llt (zq phi) [w; w; w; w] (square_jacobians (qopp (zq phi))) (square_residuals (cos truth) (sin truth) (cos (2 * phi)) (sin (2 * phi)))
  = Ok (angle_axis_to_quaternion (V3 0 0 (- sin (truth - 2 * phi))), V3 0 0 0).
Proof.
  intros Hw. rewrite <- zq_pi.
  assert (Q : zq phi = qopp (zq (phi + PI))).
  { rewrite zq_pi. unfold zq, qopp. cbn [qw qx qy qz]. rewrite !Ropp_involutive. reflexivity. }
  rewrite Q. replace (- sin (truth - 2 * phi)) with (- sin (truth - 2 * (phi + PI))).
  2:{ replace (truth - 2 * (phi + PI)) with (truth - 2 * phi - 2 * PI) by ring. rewrite sin_minus, sin_2PI, cos_2PI. ring. }
  replace (V3 0 0 (- sin (truth - 2 * (phi + PI)))) with (V3 (- 0) (- 0) (- sin (truth - 2 * (phi + PI)))) by (rewrite Ropp_0; reflexivity).
  rewrite aa_opp. apply opposite_step; auto.
  - apply zq_unit.
  - apply square_shaped.
  - apply square_eigen.
  - replace (cos (2 * phi)) with (cos (2 * (phi + PI))). 2:{ replace (2 * (phi + PI)) with (2 * phi + 2 * PI) by ring. rewrite cos_plus, sin_2PI, cos_2PI. ring. }
    replace (sin (2 * phi)) with (sin (2 * (phi + PI))). 2:{ replace (2 * (phi + PI)) with (2 * phi + 2 * PI) by ring. rewrite sin_plus, sin_2PI, cos_2PI. ring. }
    apply square_step. auto.
Qed.

Definition off_by (delta : R) : R := 8 - 8 * cos delta.
Lemma square_errors truth psi : map rdot (square_residuals (cos truth) (sin truth) (cos psi) (sin psi)) =
  [2 - 2 * cos (truth - psi); 2 - 2 * cos (truth - psi); 2 - 2 * cos (truth - psi); 2 - 2 * cos (truth - psi)].
Proof.
  rewrite cos_minus. pose proof (sin2_cos2 truth) as H1. pose proof (sin2_cos2 psi) as H2. unfold Rsqr in *.
  unfold square_residuals, rdot. cbn [map fold_right].
  repeat (apply (f_equal2 (@cons R)); [lra|]). reflexivity.
Qed.
Lemma scale_same e : scale exact sel b_robust [e; e; e; e] = Ok 0.
Proof.
  rewrite scale_defined by (auto; discriminate). f_equal. unfold madv.
  assert (MD : forall a, med [a; a; a; a] = a).
  { intros a. rewrite (med_eq _ [a; a; a; a]); [cbn; field|discriminate|reflexivity|].
    repeat (constructor; [|repeat constructor; lra]). constructor. }
  rewrite MD. cbn [map]. rewrite MD. replace (e - e) with 0 by ring. rewrite Rabs_R0. ring.
Qed.

Notation loop truth := (opt_loop exact quat vec pose mat (list R) (alignment_make (square, map (transform (heading truth)) square)) make_pose rdot
    (calc_update eig llt) qmul vadd check_convergence sel b_robust k_robust tiny_robust).
Lemma make_heading phi : make_pose (zq phi) (V3 0 0 0) = heading (2 * phi).
Proof. unfold make_pose, heading. rewrite zq_rotation. reflexivity. Qed.

(** One accepted iteration, with the sign g of the conversion. *)
Lemma loop_step g truth n iter phi pe ps :
  quat_of (rot_z (2 * phi)) = (if g : bool then zq phi else qopp (zq phi)) ->
  off_by (truth - 2 * phi) <= pe -> 0 <= ps ->
  / 1000 <= Rabs (sin (sin (truth - 2 * phi) / 2)) ->
  loop truth (S n) iter (zq phi) (V3 0 0 0) pe ps
  = loop truth n (iter + 1)%Z (zq (phi + (if g then 1 else -1) * sin (truth - 2 * phi) / 2)) (V3 0 0 0) (off_by (truth - 2 * phi)) 0.
Proof.
  intros Hg Hpe Hps Hc. cbn [opt_loop]. rewrite make_heading, square_problem. cbn [bind].
  set (rs := square_residuals _ _ _ _).
  assert (N : exists r0 rs', rs = r0 :: rs') by (eexists; eexists; reflexivity).
  unfold compute_errors, normalize_error_scale, compute_weights, sum_errors.
  assert (EE := square_errors truth (2 * phi)). fold rs in EE.
  set (e := 2 - 2 * cos (truth - 2 * phi)) in *.
  assert (SE : fold_left (d_add exact) [e; e; e; e] (d_of_Z exact 0) = off_by (truth - 2 * phi)).
  { change (0 + e + e + e + e = off_by (truth - 2 * phi)). unfold off_by, e. ring. }
  assert (ST : calc_update eig llt (zq phi) (map (fun e0 => huber_derivative exact e0 k_robust) (map (fun e0 => d_div exact e0 (d_add exact 0 tiny_robust)) [e; e; e; e]))
      (square_jacobians (quat_of (rot_z (2 * phi)))) rs
     = Ok (zq ((if g then 1 else -1) * sin (truth - 2 * phi) / 2), V3 0 0 0)).
  { cbn [map]. set (w := huber_derivative exact _ k_robust). assert (Hw : 0 < w) by apply huber_pos. rewrite Hg. unfold rs.
    set (sd := sin (truth - 2 * phi)) in *.
    assert (B : / 100000000 <= Rabs sd).
    { apply Rle_trans with (/ 1000); [lra|]. apply Rle_trans with (1 := Hc).
      pose proof (Rabs_pos sd). apply Rle_trans with (Rabs (sd / 2)).
      - unfold Rabs at 2. destruct (Rcase_abs (sd / 2)) as [C|C].
        + replace (sd / 2) with (- (- (sd / 2))) by ring. rewrite sin_neg, Rabs_Ropp. apply Rabs_le. set (u := - (sd / 2)) in *. assert (0 < u) by (unfold u; lra).
          clear - H0. pose proof (sin_lt_x u H0). destruct (Rle_dec u 1).
          * assert (0 <= sin u) by (apply sin_ge_0; [lra|pose proof PI2_1; lra]). lra.
          * pose proof (SIN_bound u). lra.
        + set (u := sd / 2) in *. apply Rge_le in C. destruct (Req_dec u 0) as [Z|Z]; [rewrite Z, sin_0, Rabs_R0; lra|]. assert (0 < u) by lra.
          apply Rabs_le. clear - H0. pose proof (sin_lt_x u H0). destruct (Rle_dec u 1).
          * assert (0 <= sin u) by (apply sin_ge_0; [lra|pose proof PI2_1; lra]). lra.
          * pose proof (SIN_bound u). lra.
      - unfold Rdiv. rewrite Rabs_mult, (Rabs_right (/ 2)) by lra. lra. }
    destruct g.
    - rewrite square_step by auto. fold sd. rewrite aa_vertical by auto. rewrite Rmult_1_l. reflexivity.
    - rewrite square_step_back by auto. fold sd. rewrite aa_vertical by (rewrite Rabs_Ropp; auto). f_equal. f_equal. f_equal. field. }
  destruct N as (r0 & rs' & N). rewrite N in *. change (D exact) with R in *. rewrite EE, scale_same. cbn [bind]. rewrite SE.
  change (d_ltb exact) with Rltb. rewrite (lt_false pe) by auto. rewrite (lt_false ps) by auto.
  change (D exact) with R in *. rewrite ST. cbn [bind].
  assert (CV : check_convergence (zq ((if g then 1 else -1) * sin (truth - 2 * phi) / 2)) (V3 0 0 0) = false).
  { unfold check_convergence. rewrite lt_false; [reflexivity|]. unfold zq, qvec. cbn [qx qy qz].
    set (u := sin (_ * _ / 2)). assert (EU : vnorm (V3 0 0 u) = Rabs u).
    { unfold vnorm, vdot. cbn [vx vy vz]. replace (0 * 0 + 0 * 0 + u * u) with (Rsqr u) by (unfold Rsqr; ring). apply sqrt_Rsqr_abs. }
    rewrite EU. unfold u. destruct g; [rewrite Rmult_1_l; auto|]. replace (-1 * sin (truth - 2 * phi) / 2) with (- (sin (truth - 2 * phi) / 2)) by field.
    rewrite sin_neg, Rabs_Ropp. auto. }
  rewrite CV, zq_mul. f_equal. unfold vadd. cbn [vx vy vz]. rewrite !Rplus_0_l. reflexivity.
Qed.
Lemma loop_stop truth n iter phi pe ps : pe < off_by (truth - 2 * phi) ->
  loop truth (S n) iter (zq phi) (V3 0 0 0) pe ps = Ok (larger_error exact pose (heading (2 * phi)) iter (off_by (truth - 2 * phi)) 0).
Proof.
  intros Hpe. cbn [opt_loop]. rewrite make_heading, square_problem. cbn [bind].
  set (rs := square_residuals _ _ _ _).
  assert (N : exists r0 rs', rs = r0 :: rs') by (eexists; eexists; reflexivity).
  unfold compute_errors, normalize_error_scale, sum_errors.
  assert (EE := square_errors truth (2 * phi)). fold rs in EE.
  set (e := 2 - 2 * cos (truth - 2 * phi)) in *.
  assert (SE : fold_left (d_add exact) [e; e; e; e] (d_of_Z exact 0) = off_by (truth - 2 * phi)).
  { change (0 + e + e + e + e = off_by (truth - 2 * phi)). unfold off_by, e. ring. }
  destruct N as (r0 & rs' & N). rewrite N in *. change (D exact) with R in *. rewrite EE, scale_same. cbn [bind]. rewrite SE.
  change (d_ltb exact) with Rltb. rewrite lt_true by auto. reflexivity.
Qed.
End Runs.
