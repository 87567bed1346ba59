(** Property C118: the steps of the optimiser and the two quaternions of an
    orientation. *)
From Coq Require Import List ZArith Bool Lia Lra Reals.
From Coquelicot Require Import Coquelicot.
From Verif Require Import Base Arith LibModel SpecLib LocModel PoseModel OptModel SpecPose SpecOpt SpecStep SpecMsg SpecSlope
  AngleProofs RotProofs WitnessProofs StepProofs SlopeProofs SolverProofs Prop_Chart Prop_Msg.
Import ListNotations.
Open Scope R_scope.

(** ** C118 In every iteration, the linear model that is minimised has the slopes of the
    residuals at the current pose. *)
Definition C118_statement : Prop := forall q t theta d, unit q -> slopes_along q t theta d theta.

Lemma opp_opp p : qopp (qopp p) = p.
Proof. destruct p as [a b c e]. unfold qopp. cbn [qw qx qy qz]. rewrite !Ropp_involutive. reflexivity. Qed.
Lemma slopes_same q t theta d : unit q -> quat_of (to_rotation q) = q -> slopes_along q t theta d theta.
Proof.
  intros U E. unfold slopes_along, expected, edge_slope, surface_slope, alignment_slope, moved. cbn [lin make_pose]. rewrite E.
  split; [|split]; intros.
  - apply C79_edge; auto.
  - apply C79_surface; auto.
  - apply C79_alignment; auto.
Qed.
Lemma turn_neg theta s : turn (vscale (-1) theta) s = qconj (turn theta s).
Proof.
  assert (N : vnorm (vscale (-1) theta) = vnorm theta) by (unfold vnorm, vdot, vscale; cbn [vx vy vz]; f_equal; ring).
  unfold turn, qconj. rewrite N. unfold vscale. cbn [qw qx qy qz vx vy vz]. f_equal; unfold Rdiv; ring.
Qed.
Lemma moved_opp q t theta d s : moved (qopp q) t theta d s = moved q t theta d s.
Proof.
  unfold moved, make_pose. f_equal. destruct (turn theta s) as [a b c e], q as [w x y z].
  unfold qmul, qopp, to_rotation. cbn [qw qx qy qz]. apply mat3_ext; cbn [m00 m01 m02 m10 m11 m12 m20 m21 m22]; ring.
Qed.
Lemma m_opp q theta d : entries_app 7 6 (make_m (qopp q)) (vlist (vscale (-1) theta) ++ vlist d) = entries_app 7 6 (make_m q) (vlist theta ++ vlist d).
Proof.
  destruct q as [w x y z], theta as [a b c], d as [e f g]. unfold entries_app, make_m, vscale, qopp, vlist, left_mul_matrix.
  cbn [map seq app vx vy vz Nat.ltb Nat.leb Nat.add nth Nat.eqb Nat.sub fold_right combine fst snd qw qx qy qz].
  repeat (apply (f_equal2 (@cons R)); [ring|]). reflexivity.
Qed.
Lemma slopes_opposite q t theta d : unit q -> quat_of (to_rotation q) = qopp q -> slopes_along q t theta d (vscale (-1) theta).
Proof.
  intros U E. pose proof (unit_opp q U) as U'. unfold slopes_along, expected, edge_slope, surface_slope, alignment_slope. cbn [lin make_pose]. rewrite E.
  rewrite <- m_opp.
  split; [|split]; intros.
  - eapply is_derive_ext; [|apply (C79_edge (qopp q) t); auto]. intros s. cbv beta. rewrite <- moved_opp. reflexivity.
  - eapply is_derive_ext; [|apply (C79_surface (qopp q) t); auto]. intros s. cbv beta. rewrite <- moved_opp. reflexivity.
  - eapply is_derive_ext; [|apply (C79_alignment (qopp q) t); auto]. intros s. cbv beta. rewrite <- moved_opp. reflexivity.
Qed.
Lemma rotation_back q : unit q -> quat_of (to_rotation q) = q \/ quat_of (to_rotation q) = qopp q.
Proof.
  intros U. destruct (quat_of_ok (to_rotation q) (to_rotation_is_rotation q U)) as [H1 H2].
  apply rotation_inj; auto.
Qed.
Lemma quat_small q : unit q -> / 2 < qw q -> quat_of (to_rotation q) = q.
Proof.
  destruct q as [w x y z]. unfold unit, qnorm2. cbn [qw qx qy qz]. intros U Hw.
  unfold quat_of, to_rotation. cbn [m00 m01 m02 m10 m11 m12 m20 m21 m22 qw qx qy qz].
  rewrite lt_true by nra. replace (_ + 1) with (2 * w * (2 * w)) by nra. rewrite sqrt_square by lra.
  apply quat_ext; cbn [qw qx qy qz]; field; lra.
Qed.

(** What holds: the expected changes are the slopes along the step itself, or else all of
    them are the slopes along the step turning the other way round; the former in the
    first iteration (where the quaternion is made from the pose), and as long as the
    orientation of the estimate differs by less than 120 degrees from none and is held by
    the quaternion with positive scalar part. *)
Theorem C118_slopes_partial q t : unit q ->
  ((forall theta d, slopes_along q t theta d theta) \/ (forall theta d, slopes_along q t theta d (vscale (-1) theta))) /\
  ((exists T, is_rotation (lin T) /\ of_pose T = (q, t)) \/ / 2 < qw q -> forall theta d, slopes_along q t theta d theta).
Proof.
  intros U. split.
  - destruct (rotation_back q U) as [E|E]; [left|right]; intros; [apply slopes_same|apply slopes_opposite]; auto.
  - intros [[T [RT E]]|Hw] theta d; apply slopes_same; auto.
    + unfold of_pose in E. injection E as E _. rewrite <- E. f_equal. apply quat_of_ok. auto.
    + apply quat_small; auto.
Qed.
Print Assumptions C118_slopes_partial.

(** What does not hold: where the conversion of the pose yields the opposite of the
    quaternion that the optimiser keeps, every expected change is the slope along the step
    turning the other way round. *)
Theorem C118_opposite_slopes_refuted :
  (forall q t theta d, unit q -> quat_of (to_rotation q) = qopp q -> slopes_along q t theta d (vscale (-1) theta)) /\
  ~ C118_statement.
Proof.
  split; [exact slopes_opposite|]. intros H.
  pose proof (zq_unit PI) as U.
  assert (E : quat_of (to_rotation (zq PI)) = qopp (zq PI)).
  { rewrite zq_rotation, quat_near by (rewrite cos_PI; lra). rewrite lt_false by (rewrite cos_PI; lra). reflexivity. }
  destruct (H (zq PI) (V3 0 0 0) (V3 0 0 1) (V3 0 0 0) U) as [_ [_ H1]].
  destruct (slopes_opposite (zq PI) (V3 0 0 0) (V3 0 0 1) (V3 0 0 0) U E) as [_ [_ H2]].
  specialize (H1 (V3 1 0 0) (V3 0 0 0) 1%nat ltac:(lia)). clear H2.
  pose proof (C79_alignment (zq PI) (V3 0 0 0) (V3 1 0 0) (V3 0 0 0) (V3 0 0 1) (V3 0 0 0) 1 U ltac:(lia)) as H3.
  assert (EQ := eq_trans (eq_sym (is_derive_unique _ _ _ H1)) (is_derive_unique _ _ _ H3)). revert EQ.
  unfold expected, alignment_slope, make_pose. cbn [lin]. rewrite E. unfold zq. rewrite cos_PI, sin_PI.
  unfold alignment_jacobian, entries_app, make_m, qopp, mat_app.
  cbn [map seq app vlist vx vy vz Nat.ltb Nat.leb Nat.add left_mul_matrix nth Nat.eqb Nat.sub fold_right combine fst snd qw qx qy qz]. vcbn. lra.
Qed.
Print Assumptions C118_opposite_slopes_refuted.

(** The step computed there is the one for the quaternion that the slopes belong to, with
    the turn reversed. *)
Theorem C118_turns_backwards_refuted eig llt q w Js rs dq dt :
  solves_positive_definite llt ->
  unit q -> well_shaped Js rs -> length w = length Js -> Forall (fun c => 0 < c) w ->
  eigenvalues_of 7 (normal_matrix Js) (eig 7%nat (normal_matrix Js)) ->
  (forall e, In e (eig 7%nat (normal_matrix Js)) -> / 10 <= Rabs e) ->
  calc_update eig llt q w Js rs = Ok (dq, dt) ->
  calc_update eig llt (qopp q) w Js rs = Ok (qconj dq, dt).
Proof. apply opposite_step. Qed.
Print Assumptions C118_turns_backwards_refuted.

(** Runs reach such orientations: the corners of a square are to be aligned with those of
    the same square turned about its centre, the estimate starts at a heading between 180
    and 240 degrees, delta short of the truth, and the first iteration takes it past 240
    degrees (= -120).  The first iteration turns by sin delta towards the truth, the second
    by the same rule away from it, and the run ends there and reports success. *)
Definition square_truth (psi : R) : list vec * list vec := (square, map (transform (heading psi)) square).
Definition square_eigenvalues (eig : nat -> (nat -> nat -> R) -> list R) : Prop :=
  forall q, unit q -> qx q = 0 -> qy q = 0 ->
    eigenvalues_of 7 (normal_matrix (alignment_jacobian q square)) (eig 7%nat (normal_matrix (alignment_jacobian q square))).
Lemma square_eig eig : square_eigenvalues eig ->
  forall phi, eigenvalues_of 7 (normal_matrix (square_jacobians (zq phi))) (eig 7%nat (normal_matrix (square_jacobians (zq phi)))).
Proof. intros H phi. apply (H (zq phi)); auto using zq_unit. Qed.

Lemma half_sin x : 0 <= x <= 2 -> sin x / 2 <= sin (x / 2).
Proof.
  intros Hx. pose proof PI2_1. replace (sin x) with (2 * sin (x / 2) * cos (x / 2)).
  2:{ rewrite <- sin_2a. f_equal. field. }
  assert (0 <= sin (x / 2)) by (apply sin_ge_0; lra). pose proof (COS_bound (x / 2)). nra.
Qed.
Lemma first_gap delta : 0 < delta <= PI / 2 -> 0 < sin delta < delta.
Proof. intros H. pose proof PI_RGT_0. split; [apply sin_gt_0; lra|apply sin_lt_x; lra]. Qed.
Lemma bigger_step a b : 0 <= a <= b -> b <= PI / 2 -> / 1000 <= sin (sin a / 2) -> / 1000 <= Rabs (sin (sin b / 2)).
Proof.
  intros H1 H2 H. pose proof PI2_1. pose proof PI_4.
  assert (sin a <= sin b) by (apply sin_incr_1; lra). pose proof (SIN_bound b). assert (0 <= sin a) by (apply sin_ge_0; lra).
  apply Rle_trans with (1 := H). apply Rle_trans with (2 := Rle_abs _). apply sin_incr_1; lra.
Qed.
Lemma far_heading phi : PI / 2 < phi <= 2 * PI / 3 -> quat_of (rot_z (2 * phi)) = zq phi.
Proof.
  intros H. pose proof PI_RGT_0.
  assert (S0 : 0 < sin phi) by (apply sin_gt_0; lra).
  assert (C1 : cos phi < 0) by (apply cos_lt_0; lra).
  assert (C2 : - / 2 <= cos phi).
  { replace (- / 2) with (cos (2 * (PI / 3))) by (rewrite cos_2PI3; field). apply cos_decr_1; lra. }
  apply quat_far; [nra|auto].
Qed.
Lemma near_heading phi : 2 * PI / 3 < phi <= PI -> quat_of (rot_z (2 * phi)) = qopp (zq phi).
Proof.
  intros H. pose proof PI_RGT_0.
  assert (C2 : cos phi < - / 2).
  { replace (- / 2) with (cos (2 * (PI / 3))) by (rewrite cos_2PI3; field). apply cos_decreasing_1; lra. }
  rewrite quat_near by nra. rewrite lt_false by lra. reflexivity.
Qed.
Lemma off_big delta : off_by delta <= 16.
Proof. unfold off_by. pose proof (COS_bound delta). lra. Qed.
Lemma dbl_max_16 : 16 <= dbl_max.
Proof.
  unfold dbl_max. assert (H1 : 1 <= 2 ^ 52) by (apply pow_R1_Rle; lra).
  assert (H2 : / 2 ^ 52 <= 1) by (rewrite <- Rinv_1; apply Rinv_le_contravar; lra).
  assert (H3 : 1 <= 2 ^ 1019) by (apply pow_R1_Rle; lra).
  replace 1023%nat with (4 + 1019)%nat by reflexivity. rewrite pow_add.
  replace (2 ^ 4) with 16 by ring. nra.
Qed.

Section Runs.
Variable eig : nat -> (nat -> nat -> R) -> list R.
Variable llt : nat -> (nat -> nat -> R) -> (nat -> R) -> (nat -> R).
Variable sel : selector exact.
Hypothesis HL : solves_positive_definite llt.
Hypothesis HE : square_eigenvalues eig.
Hypothesis Hsel : valid_nth exact sel.
Variable delta : R.
Hypothesis Hd : 0 < delta <= PI / 2.
Let d1 := delta - sin delta.
Hypothesis Hs : / 1000 <= sin (sin d1 / 2).

Lemma gaps : 0 < d1 < delta /\ 0 < sin d1 < d1.
Proof.
  pose proof (first_gap delta Hd) as H. assert (D1 : 0 < d1 < delta) by (unfold d1; lra). split; auto.
  apply first_gap. lra.
Qed.
Lemma start_heading psi : of_pose (heading psi) = (quat_of (rot_z psi), V3 0 0 0).
Proof. reflexivity. Qed.

Lemma run_far max_iter psi : (2 <= max_iter)%Z ->
  PI < psi <= 4 * PI / 3 -> 4 * PI / 3 < psi + sin delta <= 2 * PI ->
  exists r, optimize eig llt sel (alignment_make (square_truth (psi + delta))) max_iter (heading psi) = Ok r /\
    r_pose r = heading (psi + delta - (d1 + sin d1)) /\ ((3 <= max_iter)%Z -> r_success r = true /\ r_message r = LargerErrorThanPrevious).
Proof.
  intros Hm H1 H2. pose proof gaps as [G1 G2]. pose proof dbl_max_16. pose proof PI_RGT_0.
  assert (Q0 : quat_of (rot_z psi) = zq (psi / 2)).
  { replace psi with (2 * (psi / 2)) at 1 by field. apply far_heading. lra. }
  unfold optimize, opt_run. rewrite start_heading, Q0. unfold square_truth.
  destruct (Z.to_nat max_iter) as [|[|n]] eqn:En; [lia|lia|].
  rewrite (loop_step eig llt sel HL (square_eig eig HE) Hsel true).
  2:{ apply far_heading. lra. }
  2:{ pose proof (off_big (psi + delta - 2 * (psi / 2))). lra. }
  2:{ lra. }
  2:{ replace (psi + delta - 2 * (psi / 2)) with delta by field. apply (bigger_step d1); auto; lra. }
  replace (psi + delta - 2 * (psi / 2)) with delta by field.
  rewrite (loop_step eig llt sel HL (square_eig eig HE) Hsel false).
  2:{ apply near_heading. lra. }
  2:{ replace (psi + delta - 2 * (psi / 2 + 1 * sin delta / 2)) with d1 by (unfold d1; field). unfold off_by.
      assert (cos delta < cos d1) by (apply cos_decreasing_1; lra). lra. }
  2:{ lra. }
  2:{ replace (psi + delta - 2 * (psi / 2 + 1 * sin delta / 2)) with d1 by (unfold d1; field). apply (bigger_step d1); auto; lra. }
  replace (psi + delta - 2 * (psi / 2 + 1 * sin delta / 2)) with d1 by (unfold d1; field).
  set (phi := psi / 2 + _ + _). assert (EP : 2 * phi = psi + delta - (d1 + sin d1)) by (unfold phi, d1; field).
  destruct n as [|n].
  - cbn [opt_loop bind]. destruct (Z.ltb_spec max_iter 0); [lia|]. eexists. split; [reflexivity|]. split.
    + unfold reached_maximum. cbn [r_pose]. rewrite make_heading, EP. reflexivity.
    + intros Hm3. lia.
  - rewrite loop_stop; auto.
    2:{ rewrite EP. replace (psi + delta - (psi + delta - (d1 + sin d1))) with (d1 + sin d1) by ring. unfold off_by.
        assert (cos (d1 + sin d1) < cos d1) by (apply cos_decreasing_1; lra). lra. }
    cbn [bind]. destruct (Z.ltb_spec max_iter 0); [lia|]. eexists. split; [reflexivity|]. unfold larger_error. cbn [r_pose r_success r_message].
    rewrite EP. auto.
Qed.
Lemma run_near : exists r, optimize eig llt sel (alignment_make (square_truth delta)) 2 (heading 0) = Ok r /\ r_pose r = heading (delta - (d1 - sin d1)).
Proof.
  pose proof gaps as [G1 G2]. pose proof dbl_max_16. pose proof PI_RGT_0. pose proof PI_4.
  assert (NZ : forall phi, 0 <= phi < PI / 3 -> quat_of (rot_z (2 * phi)) = zq phi).
  { intros phi Hp. assert (C : / 2 < cos phi). { replace (/ 2) with (cos (PI / 3)) by (rewrite cos_PI3; field). apply cos_decreasing_1; lra. }
    rewrite quat_near by nra. rewrite lt_true by lra. reflexivity. }
  assert (Q0 : quat_of (rot_z 0) = zq 0).
  { replace 0 with (2 * 0) at 1 by ring. apply NZ. lra. }
  unfold optimize, opt_run. rewrite start_heading, Q0. unfold square_truth.
  change (Z.to_nat 2) with 2%nat.
  rewrite (loop_step eig llt sel HL (square_eig eig HE) Hsel true).
  2:{ apply NZ. lra. }
  2:{ pose proof (off_big (delta - 2 * 0)). lra. }
  2:{ lra. }
  2:{ replace (delta - 2 * 0) with delta by ring. apply (bigger_step d1); auto; lra. }
  replace (delta - 2 * 0) with delta by ring.
  pose proof (first_gap delta Hd). pose proof (SIN_bound delta). pose proof PI2_1. assert (3 < PI) by (pose proof PI2_3_2; lra).
  rewrite (loop_step eig llt sel HL (square_eig eig HE) Hsel true).
  2:{ apply NZ. lra. }
  2:{ replace (delta - 2 * (0 + 1 * sin delta / 2)) with d1 by (unfold d1; field). unfold off_by.
      assert (cos delta < cos d1) by (apply cos_decreasing_1; lra). lra. }
  2:{ lra. }
  2:{ replace (delta - 2 * (0 + 1 * sin delta / 2)) with d1 by (unfold d1; field). apply (bigger_step d1); auto; lra. }
  replace (delta - 2 * (0 + 1 * sin delta / 2)) with d1 by (unfold d1; field).
  cbn [opt_loop bind]. change (2 <? 0)%Z with false. cbv iota. eexists. split; [reflexivity|]. unfold reached_maximum. cbn [r_pose]. rewrite make_heading. apply f_equal. unfold d1. field.
Qed.
End Runs.

Theorem C118_wrong_way_refuted eig llt sel max_iter psi delta :
  solves_positive_definite llt -> square_eigenvalues eig -> valid_nth exact sel -> (3 <= max_iter)%Z ->
  PI < psi <= 4 * PI / 3 -> 0 < delta <= PI / 2 -> 4 * PI / 3 < psi + sin delta <= 2 * PI ->
  let short := delta - sin delta in / 1000 <= sin (sin short / 2) ->
  exists r, optimize eig llt sel (alignment_make (square_truth (psi + delta))) max_iter (heading psi) = Ok r /\
    r_success r = true /\ 0 < short < short + sin short /\ short + sin short < PI /\ r_pose r = heading (psi + delta - (short + sin short)).
Proof.
  intros HL HE Hsel Hm H1 H2 H3 short H4. pose proof (gaps delta H2) as [G1 G2]. fold short in G1, G2.
  destruct (run_far eig llt sel HL HE Hsel delta H2 H4 max_iter psi ltac:(lia) H1 H3) as [r [E1 [E2 E3]]].
  exists r. split; auto. split; [apply E3; auto|]. split; [lra|]. split; [pose proof PI_RGT_0; lra|auto].
Qed.
Print Assumptions C118_wrong_way_refuted.

(** The hypotheses are met by a start at 225 degrees (-135) that is 90 degrees short; the
    run ends more than a radian off. *)
Lemma quarter_gap : / 1000 <= sin (sin (PI / 2 - sin (PI / 2)) / 2) /\ / 2 <= sin (PI / 2 - sin (PI / 2)) <= 1.
Proof.
  rewrite sin_PI2. rewrite <- cos_sin || idtac. rewrite (sin_shift 1).
  assert (3 < PI) by (pose proof PI2_3_2; lra). pose proof PI_4.
  assert (C : / 2 <= cos 1) by (replace (/ 2) with (cos (PI / 3)) by (rewrite cos_PI3; field); apply cos_decr_1; lra).
  pose proof (COS_bound 1). split; [|lra].
  pose proof (half_sin (cos 1) ltac:(lra)) as B1. pose proof (half_sin (2 * cos 1) ltac:(lra)) as B2.
  replace (2 * cos 1 / 2) with (cos 1) in B2 by field.
  assert (B3 : sin (PI / 6) <= sin (2 * cos 1) \/ sin (PI / 6) <= sin (cos 1)).
  { destruct (Rle_dec (PI / 6) (cos 1)); [right|left]; apply sin_incr_1; lra. }
  rewrite sin_PI6 in B3. lra.
Qed.
Example ex_C118 : exists eig llt sel r,
  solves_positive_definite llt /\ square_eigenvalues eig /\ valid_nth exact sel /\
  optimize eig llt sel (alignment_make (square_truth (5 * PI / 4 + PI / 2))) 20 (heading (5 * PI / 4)) = Ok r /\
  r_success r = true /\ exists off, 1 < off < PI /\ r_pose r = heading (5 * PI / 4 + PI / 2 - off).
Proof.
  destruct solver_exists as [llt HL].
  set (eig := fun (n : nat) (A : nat -> nat -> R) => map (fun i => A i i) (seq 0 n)).
  assert (HE : square_eigenvalues eig).
  { intros q U X Y. destruct q as [c a b s]. cbn [qx qy] in X, Y. subst a b. unfold unit, qnorm2 in U. cbn [qw qx qy qz] in U.
    set (N := normal_matrix (alignment_jacobian (Qn c 0 0 s) square)).
    set (dg := fun i : nat => nth i [16; 8; 8; 16; 4; 4; 4] 0).
    assert (EN : forall i j, (i < 7)%nat -> (j < 7)%nat -> N i j = if Nat.eqb i j then dg i else 0).
    { intros i j Hi Hj. assert (C2 : c * c = 1 - s * s) by lra. unfold N, normal_matrix, alignment_jacobian, square, dg.
      do 7 (destruct i as [|i]; [do 7 (destruct j as [|j]; [
        cbv beta iota zeta delta [drpdq hat beside vnth vcross vdot qvec qw qx qy qz vx vy vz map combine fold_right nth seq app fst snd Nat.eqb]; ring [C2]|]); lia|]). lia. }
    assert (App : forall x i, (i < 7)%nat -> SpecStep.total 7 (fun j => N i j * x j) = dg i * x i).
    { intros x i Hi. rewrite (total_ext 7 _ (fun j => (if Nat.eqb i j then dg i else 0) * x j)) by (intros j Hj; rewrite EN by auto; reflexivity).
      unfold SpecStep.total. do 7 (destruct i as [|i]; [cbn; ring|]). lia. }
    split.
    - intros e He. unfold eig in He. apply in_map_iff in He. destruct He as [i [<- Hi]]. apply in_seq in Hi.
      exists (fun j => if Nat.eqb i j then 1 else 0). split; [exists i; split; [lia|rewrite Nat.eqb_refl; lra]|].
      intros k Hk. rewrite App by auto. rewrite EN by lia. rewrite Nat.eqb_refl. destruct (Nat.eqb_spec i k); [subst; ring|ring].
    - intros x. exists 4. split.
      + unfold eig. apply in_map_iff. exists 4%nat. split; [rewrite EN by lia; reflexivity|apply in_seq; lia].
      + unfold quad. rewrite (total_ext 7 (fun i => SpecStep.total 7 (fun j => x i * N i j * x j)) (fun i => dg i * (x i * x i))).
        2:{ intros i Hi. rewrite (total_ext 7 _ (fun j => x i * (N i j * x j))) by (intros; ring). rewrite total_scal, App by auto. ring. }
        unfold SpecStep.total, dg. cbn [seq map fold_right nth].
        pose proof (Rle_0_sqr (x 0%nat)). pose proof (Rle_0_sqr (x 1%nat)). pose proof (Rle_0_sqr (x 2%nat)). pose proof (Rle_0_sqr (x 3%nat)).
        unfold Rsqr in *. lra. }
  pose proof quarter_gap as [Q1 Q2]. assert (3 < PI) by (pose proof PI2_3_2; lra). pose proof PI_4.
  destruct (C118_wrong_way_refuted eig llt LibProofs.sel_sort 20 (5 * PI / 4) (PI / 2) HL HE LibProofs.sel_sort_valid ltac:(lia)) as [r [E1 [E2 [E3 [E5 E4]]]]]; auto; try lra.
  { rewrite sin_PI2. lra. }
  exists eig, llt, LibProofs.sel_sort, r. split; auto. split; auto. split; [apply LibProofs.sel_sort_valid|]. split; auto. split; auto.
  eexists. split; [|exact E4]. rewrite sin_PI2 in *. lra.
Qed.
