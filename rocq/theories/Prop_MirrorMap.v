(** C121: left and right and the optimiser. *)
From Coq Require Import List ZArith Bool Lia Lra Reals.
From Verif Require Prop_Optimizer.
From Verif Require Import Base Arith LibModel SpecLib LibProofs LocModel PoseModel OptModel ProblemModel LocNodeModel SpecPose SpecFit SpecOpt SpecStep SpecMsg
  SpecRotMap SpecMirrorMap AngleProofs RotProofs WitnessProofs StepProofs FitProofs LeastSquares SlopeProofs SolverProofs MirrorMapProofs Prop_Fit Prop_Slope Prop_RotMap.
From Verif Require RotMapProofs.
Import ListNotations.
Open Scope R_scope.
Notation first_neighbors := Prop_Optimizer.first_neighbors.

(** ** C121 If the points to be met, the points that shall meet them and the initial estimate
    are seen in a mirror that exchanges left and right, the result is the mirror image. *)
Definition C121_statement eig llt sel : Prop := forall source target max_iter T r r',
  is_rotation (lin T) ->
  optimize eig llt sel (alignment_make (source, target)) max_iter T = Ok r ->
  optimize eig llt sel (alignment_make (map mirrored_point source, map mirrored_point target)) max_iter (mirrored_pose T) = Ok r' ->
  r_pose r' = mirrored_pose (r_pose r).

(** The eigenvalues computed for the mirrored square are right. *)
Definition mirrored_square_eigenvalues (eig : nat -> (nat -> nat -> R) -> list R) : Prop :=
  forall q, unit q -> qx q = 0 -> qy q = 0 ->
    eigenvalues_of 7 (normal_matrix (alignment_jacobian q (map mirrored_point square))) (eig 7%nat (normal_matrix (alignment_jacobian q (map mirrored_point square)))).

Lemma mirrored_heading a : mirrored_pose (heading a) = heading (- a).
Proof.
  unfold mirrored_pose, heading. cbn [lin tra]. f_equal; [|apply vec_ext; mcbn; ring].
  unfold rot_z. rewrite cos_neg, sin_neg. apply mat3_ext; mcbn; ring.
Qed.
Lemma heading_period a b : cos a = cos b -> sin a = sin b -> heading a = heading b.
Proof. intros E1 E2. unfold heading, rot_z. rewrite E1, E2. reflexivity. Qed.
Lemma mq_zq phi : mirrored_quat (zq phi) = zq (- phi).
Proof. unfold zq, mirrored_quat. cbn [qw qx qy qz]. rewrite cos_neg, sin_neg. f_equal; ring. Qed.
Lemma mirrored_target a : map mirrored_point (map (transform (heading a)) square) = map (transform (heading (- a))) (map mirrored_point square).
Proof.
  rewrite !map_map. apply map_ext. intros p. rewrite <- mirrored_heading. unfold transform, mirrored_pose. cbn [lin tra]. rewrite mirrored_apply, mp_add. reflexivity.
Qed.
Lemma turned_headings a b src : map (turned_point (zq (a / 2))) (map (transform (heading b)) src) = map (transform (heading (a + b))) src.
Proof.
  rewrite map_map. apply map_ext. intros p. rewrite <- turned_heading. unfold turned_pose, transform, turned_point.
  cbn [lin tra heading]. unfold rot_z. destruct (to_rotation (zq (a / 2))) as [k1 k2 k3 k4 k5 k6 k7 k8 k9], p as [p1 p2 p3]. unfold mapply, mmul3, vadd. cbn [vx vy vz m00 m01 m02 m10 m11 m12 m20 m21 m22]. f_equal; ring.
Qed.

(** The code violates it: a square that has to be turned by 90 degrees to the left, from 225
    degrees, is turned the wrong way in the second step; its mirror image, which has to be
    turned by 90 degrees to the right, from 135 degrees, is turned the right way. *)
Theorem C121_left_right_refuted eig llt sel : solves_positive_definite llt ->
  square_eigenvalues eig -> mirrored_square_eigenvalues eig -> valid_nth exact sel ->
  ~ C121_statement eig llt sel.
Proof.
  intros HL HE HE' Hsel C. pose proof quarter_gap as [Q1 Q2]. assert (3 < PI) by (pose proof PI2_3_2; lra). pose proof PI_4. pose proof (sin_PI2) as S1.
  destruct (run_near eig llt sel HL HE Hsel (PI / 2) ltac:(lra) Q1) as [r [E1 E2]].
  destruct (run_far eig llt sel HL HE Hsel (PI / 2) ltac:(lra) Q1 2 (5 * PI / 4) ltac:(lia)) as [r' [E3 [E4 _]]]; [lra|lra|].
  set (a := 3 * PI / 4). set (psi := 5 * PI / 4) in *. set (g := zq (a / 2)).
  assert (SG : forall phi, 0 <= phi <= PI / 4 -> quat_of (rot_z (2 * phi)) = zq phi).
  { intros phi Hp. assert (C0 : / 2 < cos phi). { replace (/ 2) with (cos (PI / 3)) by (rewrite cos_PI3; field). apply cos_decreasing_1; lra. }
    rewrite quat_near by nra. rewrite lt_true by lra. reflexivity. }
  assert (SG' : forall phi, 0 < phi < PI / 2 -> quat_of (rot_z (2 * phi)) = zq phi).
  { intros phi Hp. assert (C0 : 0 < cos phi) by (apply cos_gt_0; lra). assert (0 < sin phi) by (apply sin_gt_0; lra).
    destruct (Rlt_dec (/ 4) (cos phi * cos phi)); [|apply quat_far; lra]. rewrite quat_near by auto. rewrite lt_true by lra. reflexivity. }
  assert (TQ : forall phi, tq g (zq phi) = zq (a / 2 - phi)) by (intros phi; unfold tq, g; rewrite mq_zq, zq_mul; reflexivity).
  assert (ET : map (tp g) (map (transform (heading (PI / 2))) square) = map (transform (heading (a - PI / 2))) (map mirrored_point square)).
  { unfold tp. rewrite <- (map_map mirrored_point (turned_point g)). rewrite mirrored_target. unfold g. rewrite turned_headings. reflexivity. }
  assert (EP : forall b, tpose g (heading b) = heading (a - b)).
  { intros b. unfold tpose. rewrite mirrored_heading. unfold g. rewrite turned_heading. reflexivity. }
  assert (R : optimize eig llt sel (alignment_make (map mirrored_point square, map (tp g) (map (transform (heading (PI / 2))) square))) 2 (tpose g (heading 0))
     = (r <- optimize eig llt sel (alignment_make (square_truth (PI / 2))) 2 (heading 0) ;; Ok (turned_result g r))).
  { apply (optimize_turned g (zq_unit _) eig llt sel HL _ _ (heading 0) (heading_rotation 0) 2%nat); [|reflexivity|].
    - intros q t HR Uq. destruct (square_reaches eig llt sel (PI / 2) 2 q t HL HE Hsel ltac:(lra) HR) as (phi & Hp & -> & ->).
      apply alignment_turned; auto using zq_unit; [apply zq_unit|..].
      + unfold good_sign. rewrite (TQ phi), !zq_rotation, (SG phi), (SG' (a / 2 - phi)), TQ by (unfold a; lra). reflexivity.
      + intros Js rs E. change (alignment_make (square, map (transform (heading (PI / 2))) square)) with (alignment_make (square_truth (PI / 2))) in E.
        unfold square_truth in E. rewrite make_heading, square_problem in E. injection E as <- _. rewrite SG by lra. apply square_eig. auto.
      + intros Js rs E. rewrite TQ, ET in E. unfold alignment_make, alignment_residual in E. cbn [fst snd] in E. rewrite !map_length in E. rewrite Nat.eqb_refl in E. cbn [assert_ bind make_pose lin] in E.
        rewrite zq_rotation, SG' in E by (unfold a; lra).
        match type of E with Ok (?J, _) = _ => assert (EJ : Js = J) by congruence end. rewrite EJ. apply HE'; auto using zq_unit.
    - apply start_turned; [apply zq_unit|apply heading_rotation|]. unfold good_sign.
      assert (E0 : quat_of (lin (heading 0)) = zq 0). { cbn [heading lin]. replace 0 with (2 * 0) at 1 by ring. apply SG. lra. }
      rewrite E0, (TQ 0), !zq_rotation, (SG 0), (SG' (a / 2 - 0)), TQ by (unfold a; lra). reflexivity. }
  rewrite E1, ET, EP in R. cbn [bind] in R.
  assert (PE : forall b, heading (a - PI / 2 + b) = heading (- (psi + PI / 2) + b)).
  { intros b. assert (D2 : a - PI / 2 + b = - (psi + PI / 2) + b + 2 * PI) by (unfold a, psi; field).
    apply heading_period; rewrite D2; [rewrite cos_plus, cos_2PI, sin_2PI|rewrite sin_plus, cos_2PI, sin_2PI]; ring. }
  pose proof (PE 0) as P0. rewrite !Rplus_0_r in P0. rewrite P0 in R.
  pose proof (PE (PI / 2)) as P1. replace (a - PI / 2 + PI / 2) with (a - 0) in P1 by ring. replace (- (psi + PI / 2) + PI / 2) with (- psi) in P1 by ring. rewrite P1 in R.
  pose proof (C square (map (transform (heading (psi + PI / 2))) square) 2%Z (heading psi) r' (turned_result g r) (heading_rotation psi)) as K.
  rewrite mirrored_target, mirrored_heading in K. specialize (K E3 R). unfold turned_result in K. cbn [r_pose] in K. rewrite E2, E4, EP, mirrored_heading in K.
  set (d1 := PI / 2 - sin (PI / 2)) in *.
  assert (EC := f_equal (fun T => m00 (lin T)) K). assert (ES := f_equal (fun T => m10 (lin T)) K). cbn [heading lin rot_z m00 m10] in EC, ES.
  set (b := a - (PI / 2 - (d1 - sin d1))) in *.
  assert (EB : - (psi + PI / 2 - (d1 + sin d1)) = b + 2 * sin d1 - 2 * PI) by (unfold b, a, psi; field). rewrite EB in EC, ES.
  rewrite cos_minus, cos_2PI, sin_2PI in EC. rewrite sin_minus, cos_2PI, sin_2PI in ES.
  assert (EC' : cos (b + 2 * sin d1) = cos b) by (rewrite EC; ring). assert (ES' : sin (b + 2 * sin d1) = sin b) by (rewrite ES; ring).
  assert (CC : cos (2 * sin d1) = 1).
  { replace (2 * sin d1) with (b + 2 * sin d1 - b) by ring. rewrite cos_minus, EC', ES'. pose proof (sin2_cos2 b) as U. unfold Rsqr in U. lra. }
  rewrite cos_2a_sin in CC. assert (0 < sin (sin d1)) by (apply sin_gt_0; lra). nra.
Qed.

(** The sign as a quaternion. *)
Lemma sign_unit s : s = 1 \/ s = -1 -> unit (Qn s 0 0 0).
Proof. intros [-> | ->]; unfold unit, qnorm2; cbn [qw qx qy qz]; ring. Qed.
Lemma sign_rotation s : s = 1 \/ s = -1 -> to_rotation (Qn s 0 0 0) = id3.
Proof. intros [-> | ->]; unfold id3; apply mat3_ext; vcbn; ring. Qed.
Lemma sign_point s p : s = 1 \/ s = -1 -> tp (Qn s 0 0 0) p = mirrored_point p.
Proof. intros H. unfold tp, turned_point. rewrite sign_rotation by auto. destruct p. unfold id3. apply vec_ext; mcbn; ring. Qed.
Lemma sign_pose s T : s = 1 \/ s = -1 -> tpose (Qn s 0 0 0) T = mirrored_pose T.
Proof.
  intros H. unfold tpose, turned_pose, turned_point. rewrite sign_rotation by auto. destruct T as [[a b c d e f h i j] [x y z]]. unfold mirrored_pose, id3. cbn [lin tra].
  f_equal; [apply mat3_ext; mcbn; ring|apply vec_ext; mcbn; ring].
Qed.
Lemma sign_good s q : s = 1 \/ s = -1 -> mirror_sign s q -> good_sign (Qn s 0 0 0) q.
Proof.
  intros H HS. unfold good_sign. unfold mirror_sign in HS.
  assert (E : to_rotation (tq (Qn s 0 0 0) q) = mirrored_rotation (to_rotation q)).
  { rewrite <- mq_rotation. unfold tq. destruct q. destruct H as [-> | ->]; apply mat3_ext; mcbn; ring. }
  rewrite E, HS. unfold tq. generalize (quat_of (to_rotation q)). intros [e f h k]. apply quat_ext; mcbn; ring.
Qed.

(** What holds: the results are mirror images, failures included, if the conversion treats
    all estimates that the run passes in the same way.  The solvers are right on the matrices
    met. *)
Theorem C121_alignment_partial eig llt sel s source target max_iter T :
  s = 1 \/ s = -1 -> is_rotation (lin T) -> solves_positive_definite llt -> (1 <= max_iter)%Z ->
  let problem := alignment_make (source, target) in
  let problem' := alignment_make (map mirrored_point source, map mirrored_point target) in
  (forall q t, reaches eig llt sel problem T (Z.to_nat max_iter) q t ->
     mirror_sign s q /\ right_eigenvalues eig (problem (make_pose q t)) /\
     right_eigenvalues eig (problem' (mirrored_pose (make_pose q t)))) ->
  optimize eig llt sel problem' max_iter (mirrored_pose T) =
  (r <- optimize eig llt sel problem max_iter T ;;
   Ok {| r_pose := mirrored_pose (r_pose r); r_message := r_message r; r_iteration := r_iteration r;
         r_error := r_error r; r_error_scale := r_error_scale r; r_success := r_success r |}).
Proof.
  intros Hs HT HL HM problem problem' H. set (g := Qn s 0 0 0). pose proof (sign_unit s Hs) as Ug. fold g in Ug.
  assert (EP : problem' = alignment_make (map mirrored_point source, map (tp g) target)).
  { unfold problem'. do 2 f_equal. apply map_ext. intros p. symmetry. apply sign_point. auto. }
  rewrite <- (sign_pose s T Hs). fold g.
  rewrite (optimize_turned g Ug eig llt sel HL problem problem' T HT (Z.to_nat max_iter)); auto.
  - destruct (optimize eig llt sel problem max_iter T) as [r| | | | |]; cbn [bind]; auto. unfold turned_result, g. rewrite sign_pose by auto. reflexivity.
  - intros q t HR Uq. destruct (H q t HR) as [H1 [H2 H3]]. rewrite <- (sign_pose s) in H3 by auto. fold g in H3. rewrite <- tp_pose in H3 by auto.
    rewrite EP in *. apply alignment_turned; auto. apply sign_good; auto.
  - apply start_turned; auto. apply sign_good; auto. apply (H (fst (of_pose T)) (snd (of_pose T))). exists [], dbl_max, dbl_max. split; [cbn; lia|]. constructor.
Qed.
(** The same for a scan and the two maps of the localizer. *)
Theorem C121_localizer_partial principal qr find downsample eig llt sel s edge_map surface_map max_iter scan T :
  s = 1 \/ s = -1 -> is_rotation (lin T) -> solves_positive_definite llt -> (1 <= max_iter)%Z ->
  searches_mirrored find -> (forall X, solves_least_squares qr X (repeat (-1) (length X))) ->
  downsample (map mirrored_point (snd scan)) = map mirrored_point (downsample (snd scan)) ->
  (fst scan = [] \/ elongated_mirrored principal find edge_map n_neighbors) ->
  (downsample (snd scan) = [] \/ determined find surface_map n_neighbors) ->
  let scan' := (map mirrored_point (fst scan), map mirrored_point (snd scan)) in
  let problem := loam_problem principal qr find downsample edge_map surface_map n_neighbors scan in
  let problem' := loam_problem principal qr find downsample (map mirrored_point edge_map) (map mirrored_point surface_map) n_neighbors scan' in
  (forall q t, reaches eig llt sel problem T (Z.to_nat max_iter) q t ->
     mirror_sign s q /\ right_eigenvalues eig (problem (make_pose q t)) /\
     right_eigenvalues eig (problem' (mirrored_pose (make_pose q t)))) ->
  localizer_result principal qr find downsample eig llt sel (map mirrored_point edge_map) (map mirrored_point surface_map) max_iter scan' (mirrored_pose T) =
  (r <- localizer_result principal qr find downsample eig llt sel edge_map surface_map max_iter scan T ;;
   Ok {| r_pose := mirrored_pose (r_pose r); r_message := r_message r; r_iteration := r_iteration r;
         r_error := r_error r; r_error_scale := r_error_scale r; r_success := r_success r |}).
Proof.
  intros Hs HT HL HM HF HQ HD H1 H2 scan' problem problem' H. set (g := Qn s 0 0 0). pose proof (sign_unit s Hs) as Ug. fold g in Ug.
  assert (EM : forall m, map (tp g) m = map mirrored_point m) by (intros m; apply map_ext; intros p; apply sign_point; auto).
  assert (EP : problem' = loam_problem principal qr find downsample (map (tp g) edge_map) (map (tp g) surface_map) n_neighbors scan') by (rewrite !EM; reflexivity).
  unfold localizer_result. fold problem problem'. rewrite <- (sign_pose s T Hs). fold g.
  rewrite (optimize_turned g Ug eig llt sel HL problem problem' T HT (Z.to_nat max_iter)); auto.
  - destruct (optimize eig llt sel problem max_iter T) as [r| | | | |]; cbn [bind]; auto. unfold turned_result, g. rewrite sign_pose by auto. reflexivity.
  - intros q t HR Uq. destruct (H q t HR) as [H3 [H4 H5]]. rewrite <- (sign_pose s) in H5 by auto. fold g in H5. rewrite <- tp_pose in H5 by auto.
    rewrite EP in *. apply loam_turned; auto.
    + intros m p n. rewrite EM. unfold g. rewrite sign_point by auto. apply HF.
    + destruct H1 as [H1|H1]; auto. right. intros p X EX. destruct (H1 p X EX) as [H6 H7]. split; auto. rewrite EM. exact H7.
    + apply sign_good; auto.
  - apply start_turned; auto. apply sign_good; auto. apply (H (fst (of_pose T)) (snd (of_pose T))). exists [], dbl_max, dbl_max. split; [cbn; lia|]. constructor.
Qed.
(** Which sign it is depends on the orientation only through the diagonal of its matrix: the
    mirror image for turns of less than 120 degrees in all and for turns mainly about the y
    axis, the opposite for turns of more than 120 degrees mainly about the z or the x axis. *)
Theorem C121_signs_partial q : let m := to_rotation q in
  (0 < m00 m + m11 m + m22 m -> mirror_sign 1 q) /\
  (m00 m + m11 m + m22 m <= 0 -> m00 m < m22 m -> m11 m < m22 m -> mirror_sign (-1) q) /\
  (m00 m + m11 m + m22 m <= 0 -> m00 m < m11 m -> m22 m <= m11 m -> mirror_sign 1 q) /\
  (m00 m + m11 m + m22 m <= 0 -> m11 m <= m00 m -> m22 m <= m00 m -> mirror_sign (-1) q).
Proof.
  cbv zeta. unfold mirror_sign. generalize (to_rotation q). clear q. intros [a b c d e f h i j]. cbn [m00 m01 m02 m10 m11 m12 m20 m21 m22 mirrored_rotation].
  unfold quat_of, mirrored_rotation. cbn [m00 m01 m02 m10 m11 m12 m20 m21 m22].
  split; [|split; [|split]]; intros H.
  - rewrite (lt_true 0 (a + e + j)) by auto. cbv zeta. set (k := / 2 / _). apply quat_ext; cbn [mirrored_quat qw qx qy qz]; ring.
  - intros H1 H2. rewrite (lt_false 0 (a + e + j)) by auto. rewrite (lt_true (if Rltb a e then e else a) j) by (destruct (Rltb a e); auto).
    cbv zeta. set (k := / 2 / _). apply quat_ext; cbn [mirrored_quat qw qx qy qz]; ring.
  - intros H1 H2. rewrite (lt_false 0 (a + e + j)) by auto. rewrite (lt_true a e) by auto. rewrite (lt_false e j) by auto.
    cbv zeta. set (k := / 2 / _). apply quat_ext; cbn [mirrored_quat qw qx qy qz]; ring.
  - intros H1 H2. rewrite (lt_false 0 (a + e + j)) by auto. rewrite (lt_false a e) by auto. rewrite (lt_false a j) by auto.
    cbv zeta. set (k := / 2 / _). apply quat_ext; cbn [mirrored_quat qw qx qy qz]; ring.
Qed.
Print Assumptions C121_left_right_refuted.
Print Assumptions C121_alignment_partial.
Print Assumptions C121_localizer_partial.
Print Assumptions C121_signs_partial.

(** * Concrete cases *)
(** Both squares have diagonal matrices. *)
Definition diagonal (n : nat) (A : nat -> nat -> R) : list R := map (fun i => A i i) (seq 0 n).
Lemma diagonal_right N : (forall i j, (i < 7)%nat -> (j < 7)%nat -> N i j = if Nat.eqb i j then nth i [16; 8; 8; 16; 4; 4; 4] 0 else 0) ->
  eigenvalues_of 7 N (diagonal 7 N).
Proof.
  set (dg := fun i : nat => nth i [16; 8; 8; 16; 4; 4; 4] 0). intros EN.
  assert (App : forall x i, (i < 7)%nat -> SpecStep.total 7 (fun j => N i j * x j) = dg i * x i).
  { intros x i Hi. rewrite (total_ext 7 _ (fun j => (if Nat.eqb i j then dg i else 0) * x j)) by (intros j Hj; rewrite EN by auto; reflexivity).
    unfold SpecStep.total. do 7 (destruct i as [|i]; [cbn; ring|]). lia. }
  split.
  - intros e He. unfold diagonal in He. apply in_map_iff in He. destruct He as [i [<- Hi]]. apply in_seq in Hi.
    exists (fun j => if Nat.eqb i j then 1 else 0). split; [exists i; split; [lia|rewrite Nat.eqb_refl; lra]|].
    intros k Hk. rewrite App by auto. rewrite EN by lia. rewrite Nat.eqb_refl. destruct (Nat.eqb_spec i k); [subst; unfold dg; ring|ring].
  - intros x. exists 4. split.
    + unfold diagonal. apply in_map_iff. exists 4%nat. split; [rewrite EN by lia; reflexivity|apply in_seq; lia].
    + unfold quad. rewrite (total_ext 7 (fun i => SpecStep.total 7 (fun j => x i * N i j * x j)) (fun i => dg i * (x i * x i))).
      2:{ intros i Hi. rewrite (total_ext 7 _ (fun j => x i * (N i j * x j))) by (intros; ring). rewrite total_scal, App by auto. ring. }
      unfold SpecStep.total, dg. cbn [seq map fold_right nth].
      pose proof (Rle_0_sqr (x 0%nat)). pose proof (Rle_0_sqr (x 1%nat)). pose proof (Rle_0_sqr (x 2%nat)). pose proof (Rle_0_sqr (x 3%nat)).
      unfold Rsqr in *. lra.
Qed.
Lemma diagonal_square : square_eigenvalues diagonal /\ mirrored_square_eigenvalues diagonal.
Proof.
  split; intros q U X Y; destruct q as [c a b s]; cbn [qx qy] in X, Y; subst a b; unfold unit, qnorm2 in U; cbn [qw qx qy qz] in U;
    apply diagonal_right; intros i j Hi Hj; (assert (C2 : c * c = 1 - s * s) by lra); unfold normal_matrix, alignment_jacobian, square, mirrored_point;
    (do 7 (destruct i as [|i]; [do 7 (destruct j as [|j]; [
        cbv beta iota zeta delta [drpdq hat beside vnth vcross vdot qvec qw qx qy qz vx vy vz map combine fold_right nth seq app fst snd Nat.eqb]; ring [C2]|]); lia|]); lia).
Qed.
Example ex_C121_refuted : exists llt, solves_positive_definite llt /\ square_eigenvalues diagonal /\ mirrored_square_eigenvalues diagonal /\ valid_nth exact LibProofs.sel_sort.
Proof. destruct solver_exists as [llt HL]. exists llt. split; auto. destruct diagonal_square. split; auto. split; auto. apply LibProofs.sel_sort_valid. Qed.

(** A square that has to be turned by 60 degrees to the left, and its mirror image; any number
    of iterations. *)
Example ex_C121_alignment : exists llt, let eig := diagonal in let sel := LibProofs.sel_sort in let T := heading 0 in
  let problem := alignment_make (square_truth (PI / 3)) in
  let problem' := alignment_make (map mirrored_point (fst (square_truth (PI / 3))), map mirrored_point (snd (square_truth (PI / 3)))) in
  is_rotation (lin T) /\ solves_positive_definite llt /\
  (forall n q t, reaches eig llt sel problem T n q t ->
     mirror_sign 1 q /\ right_eigenvalues eig (problem (make_pose q t)) /\
     right_eigenvalues eig (problem' (mirrored_pose (make_pose q t)))) /\
  mirrored_pose T = heading 0 /\ snd (map mirrored_point (fst (square_truth (PI / 3))), map mirrored_point (snd (square_truth (PI / 3)))) = map (transform (heading (- (PI / 3)))) (map mirrored_point square).
Proof.
  destruct ex_C121_refuted as (llt & HL & HE & HE' & Hsel). exists llt. cbv zeta. pose proof PI_RGT_0.
  split; [apply heading_rotation|]. split; auto. split; [|split; [rewrite mirrored_heading; f_equal; ring|cbn [snd square_truth]; apply mirrored_target]].
  intros n q t HR. destruct (square_reaches diagonal llt LibProofs.sel_sort (PI / 3) n q t HL HE Hsel) as (phi & Hp & -> & ->); auto; [lra|].
  assert (C : forall a, - (PI / 4) <= a <= PI / 4 -> / 2 < qw (zq a)).
  { intros a Ha. cbn [zq qw]. replace (/ 2) with (cos (PI / 3)) by (rewrite cos_PI3; field).
    destruct (Rle_dec 0 a); [apply cos_decreasing_1; lra|]. rewrite <- (cos_neg a). apply cos_decreasing_1; lra. }
  split.
  - apply (proj1 (C121_signs_partial _)). rewrite zq_rotation. specialize (C phi ltac:(lra)). cbn [zq qw] in C. unfold rot_z. cbn [m00 m11 m22]. rewrite cos_2a_cos.
    assert (/ 4 < cos phi * cos phi) by (apply Rlt_le_trans with (/ 2 * cos phi); [lra|apply Rmult_le_compat_r; lra]). lra.
  - split.
    + intros Js rs E. unfold square_truth in E. rewrite make_heading, square_problem in E. injection E as <- _.
      rewrite <- zq_rotation, quat_small by (auto using zq_unit; apply C; lra). apply square_eig. auto.
    + intros Js rs E. rewrite make_heading, mirrored_heading in E. unfold alignment_make, alignment_residual, square_truth in E. cbn [fst snd] in E. rewrite !map_length in E. rewrite Nat.eqb_refl in E. cbn [assert_ bind heading lin] in E.
      replace (- (2 * phi)) with (2 * - phi) in E by ring. rewrite <- zq_rotation, quat_small in E by (auto using zq_unit; apply C; lra).
      match type of E with Ok (?J, _) = _ => assert (EJ : Js = J) by congruence end. rewrite EJ. apply HE'; auto using zq_unit.
Qed.

(** A pole along the x axis and a wall, and their mirror images; one step of the localizer. *)
Example ex_C121_localizer : exists llt, let T := Iso id3 (V3 0 0 0) in
  let eig := fun (_ : nat) (_ : nat -> nat -> R) => [0] in
  let scan := ([V3 9 0 2], [V3 5 3 (-2)]) in
  is_rotation (lin T) /\ solves_positive_definite llt /\ searches_mirrored first_neighbors /\
  (forall X, solves_least_squares cramer X (repeat (-1) (length X))) /\
  elongated_mirrored x_axis first_neighbors pole n_neighbors /\ determined first_neighbors wall n_neighbors /\
  let problem := loam_problem x_axis cramer first_neighbors (fun l => l) pole wall n_neighbors scan in
  let problem' := loam_problem x_axis cramer first_neighbors (fun l => l) (map mirrored_point pole) (map mirrored_point wall) n_neighbors
    (map mirrored_point (fst scan), map mirrored_point (snd scan)) in
  (forall q t, reaches eig llt sel_sort problem T 1 q t ->
     mirror_sign 1 q /\ right_eigenvalues eig (problem (make_pose q t)) /\
     right_eigenvalues eig (problem' (mirrored_pose (make_pose q t)))).
Proof.
  destruct solver_exists as [llt HL]. exists llt. cbv zeta.
  split. { unfold is_rotation, id3, mmul3, transpose3, det3. cbn. split; [f_equal; ring|ring]. }
  split; auto. split. { intros m q n. unfold first_neighbors. rewrite map_length. reflexivity. }
  split; [apply cramer_least_squares|]. split.
  { intros q X EX. pose proof (pole_elongated q X EX) as [P1 _]. split; auto. change n_neighbors with 15%nat in EX. rewrite pole_found in EX. injection EX as <-.
    intros c C. apply (x_axis_principal _ 0 1). intros x Hx. apply in_map_iff in Hx. destruct Hx as [y [<- Hy]].
    destruct (pole_in y Hy) as [->| ->]; cbn [mirrored_point vx vy vz]; split; auto; ring. }
  assert (DT : determined first_neighbors wall n_neighbors).
  { intros q X EX. change n_neighbors with 15%nat in EX. rewrite wall_found in EX. injection EX as <-. apply wall_independent. }
  split; auto. intros q t (l & e & s & Hl & HI). destruct l; [|cbn in Hl; lia]. inversion HI; subst. clear HI Hl.
  assert (EI : to_rotation qid = id3) by (unfold to_rotation, qid, id3; cbn [qw qx qy qz]; apply mat3_ext; cbn [m00 m01 m02 m10 m11 m12 m20 m21 m22]; ring).
  assert (Q : quat_of id3 = qid).
  { rewrite <- EI. apply quat_small; [unfold unit, qnorm2, qid; cbn [qw qx qy qz]; ring|unfold qid; cbn [qw]; lra]. }
  unfold of_pose. cbn [lin tra fst snd]. rewrite Q.
  split. { apply (proj1 (C121_signs_partial _)). rewrite EI. unfold id3. cbn [m00 m11 m22]. lra. }
  assert (EW : estimate_plane cramer wall_neighbors = V3 0 (-1) (-1)).
  { rewrite (exact_plane cramer wall_neighbors (V3 0 1 1) 1); [|apply cramer_least_squares|apply wall_independent|lra|apply wall_in].
    unfold vscale. cbn [vx vy vz]. f_equal; field. }
  assert (S1 : 1 = 1 \/ 1 = -1) by (left; reflexivity). pose proof (sign_unit 1 S1) as UI.
  assert (EM : forall m, map (tp (Qn 1 0 0 0)) m = map mirrored_point m) by (intros m; apply map_ext; intros p; apply sign_point; auto).
  destruct (mean_cov_ok pole_neighbors) as [m [C HM]]; [discriminate|].
  destruct (mean_turned (Qn 1 0 0 0) UI pole_neighbors) as [[N _]|(c' & C1 & C' & _ & HM' & _)]; [congruence|].
  split.
  - apply (free_x pole wall _ _ _ pole_neighbors m C wall_neighbors (V3 0 (-1) (-1))); auto; apply pole_found || apply wall_found.
  - rewrite EM in HM'. cbn [map fst snd].
    apply (free_x _ _ _ _ _ (map mirrored_point pole_neighbors) (tp (Qn 1 0 0 0) c') C' (map mirrored_point wall_neighbors) (tp (Qn 1 0 0 0) (V3 0 (-1) (-1)))).
    + reflexivity.
    + exact HM'.
    + reflexivity.
    + rewrite <- EM. rewrite (plane_turned (Qn 1 0 0 0) UI cramer wall_neighbors cramer_least_squares wall_independent), EW. reflexivity.
    + rewrite sign_point by auto. reflexivity.
Qed.
