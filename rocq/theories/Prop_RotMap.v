(** C119: the directions of the axes of the map and the optimiser. *)
From Coq Require Import List ZArith Bool Lia Lra Reals.
From Verif Require Prop_Optimizer.
From Verif Require Import Base Arith LibModel SpecLib LibProofs LocModel PoseModel OptModel ProblemModel LocNodeModel SpecPose SpecFit SpecOpt SpecStep SpecMsg
  SpecRotMap AngleProofs RotProofs WitnessProofs StepProofs FitProofs LeastSquares SlopeProofs SolverProofs RotMapProofs Prop_Fit Prop_Slope.
Import ListNotations.
Open Scope R_scope.
Notation first_neighbors := Prop_Optimizer.first_neighbors.

(** ** C119 If the points to be met and the initial estimate are told in axes of other
    directions, the result is the same pose, told in these axes. *)
Definition C119_statement eig llt sel : Prop := forall g source target max_iter T r r',
  unit g -> is_rotation (lin T) ->
  optimize eig llt sel (alignment_make (source, target)) max_iter T = Ok r ->
  optimize eig llt sel (alignment_make (source, map (turned_point g) target)) max_iter (turned_pose g T) = Ok r' ->
  r_pose r' = turned_pose g (r_pose r).

Lemma turned_heading a b : turned_pose (zq (a / 2)) (heading b) = heading (a + b).
Proof.
  unfold turned_pose, turned_point, heading. cbn [lin tra]. rewrite zq_rotation. replace (2 * (a / 2)) with a by field. f_equal.
  - unfold rot_z. rewrite cos_plus, sin_plus. apply mat3_ext; cbn [mmul3 m00 m01 m02 m10 m11 m12 m20 m21 m22]; ring.
  - unfold mapply, rot_z. cbn [vx vy vz m00 m01 m02 m10 m11 m12 m20 m21 m22]. f_equal; ring.
Qed.
Lemma turned_target a b : (fst (square_truth b), map (turned_point (zq (a / 2))) (snd (square_truth b))) = square_truth (a + b).
Proof.
  unfold square_truth. cbn [fst snd]. f_equal. rewrite map_map. apply map_ext. intros p. rewrite <- turned_heading. unfold turned_pose, transform, turned_point.
  cbn [lin tra heading]. unfold rot_z. destruct (to_rotation (zq (a / 2))) as [k1 k2 k3 k4 k5 k6 k7 k8 k9], p as [p1 p2 p3]. unfold mapply, mmul3, vadd. cbn [vx vy vz m00 m01 m02 m10 m11 m12 m20 m21 m22]. f_equal; ring.
Qed.
Lemma heading_rotation psi : is_rotation (lin (heading psi)).
Proof. replace psi with (2 * (psi / 2)) by field. rewrite <- make_heading. apply to_rotation_is_rotation. apply zq_unit. Qed.

(** The code violates it: a square that has to be turned by 90 degrees is met more closely
    with the estimate 0 than with the estimate 225 degrees, all told in turned axes. *)
Theorem C119_axes_refuted eig llt sel : solves_positive_definite llt -> square_eigenvalues eig -> valid_nth exact sel ->
  ~ C119_statement eig llt sel.
Proof.
  intros HL HE Hsel C. pose proof quarter_gap as [Q1 Q2]. assert (3 < PI) by (pose proof PI2_3_2; lra). pose proof PI_4. pose proof (sin_PI2) as S1.
  destruct (run_near eig llt sel HL HE Hsel (PI / 2) ltac:(lra) Q1) as [r [E1 E2]].
  destruct (run_far eig llt sel HL HE Hsel (PI / 2) ltac:(lra) Q1 2 (5 * PI / 4) ltac:(lia)) as [r' [E3 [E4 _]]]; [lra|lra|].
  set (psi := 5 * PI / 4) in *.
  rewrite <- (turned_target psi (PI / 2)) in E3.
  pose proof (C (zq (psi / 2)) (fst (square_truth (PI / 2))) (snd (square_truth (PI / 2))) 2%Z (heading 0) r r' (zq_unit _) (heading_rotation 0)) as K.
  rewrite turned_heading, Rplus_0_r in K. specialize (K E1 E3). rewrite E2, E4, turned_heading in K.
  set (d1 := PI / 2 - sin (PI / 2)) in *.
  assert (EC := f_equal (fun T => m00 (lin T)) K). assert (ES := f_equal (fun T => m10 (lin T)) K). cbn [heading lin rot_z m00 m10] in EC, ES.
  set (a := psi + PI / 2 - (d1 + sin d1)) in *. replace (psi + (PI / 2 - (d1 - sin d1))) with (a + 2 * sin d1) in EC, ES by (unfold a; ring).
  assert (CC : cos (2 * sin d1) = 1).
  { replace (2 * sin d1) with (a + 2 * sin d1 - a) by ring. rewrite cos_minus, <- EC, <- ES. pose proof (sin2_cos2 a) as U. unfold Rsqr in U. lra. }
  rewrite cos_2a_sin in CC. assert (0 < sin (sin d1)) by (apply sin_gt_0; lra). nra.
Qed.

(** What holds: the results agree, failures included, if the estimates that the run passes
    and the turned ones get corresponding quaternions.  The solvers are right on the
    matrices met. *)
Theorem C119_alignment_partial eig llt sel g source target max_iter T :
  unit g -> is_rotation (lin T) -> solves_positive_definite llt -> (1 <= max_iter)%Z ->
  let problem := alignment_make (source, target) in
  let problem' := alignment_make (source, map (turned_point g) target) in
  (forall q t, reaches eig llt sel problem T (Z.to_nat max_iter) q t ->
     same_sign g q /\ right_eigenvalues eig (problem (make_pose q t)) /\
     right_eigenvalues eig (problem' (make_pose (qmul g q) (turned_point g t)))) ->
  optimize eig llt sel problem' max_iter (turned_pose g T) =
  (r <- optimize eig llt sel problem max_iter T ;;
   Ok {| r_pose := turned_pose g (r_pose r); r_message := r_message r; r_iteration := r_iteration r;
         r_error := r_error r; r_error_scale := r_error_scale r; r_success := r_success r |}).
Proof.
  intros Ug HT HL HM problem problem' H.
  apply (optimize_turned g Ug eig llt sel HL problem problem' T HT (Z.to_nat max_iter)); auto.
  - intros q t HR Uq. destruct (H q t HR) as [H1 [H2 H3]]. apply alignment_turned; auto.
  - apply start_turned; auto. apply (H (fst (of_pose T)) (snd (of_pose T))). exists [], dbl_max, dbl_max. split; [cbn; lia|]. constructor.
Qed.
(** The same for a scan and the two maps of the localizer. *)
Theorem C119_localizer_partial principal qr find downsample eig llt sel g edge_map surface_map max_iter scan T :
  unit g -> is_rotation (lin T) -> solves_positive_definite llt -> (1 <= max_iter)%Z ->
  searches_turned g find -> (forall X, solves_least_squares qr X (repeat (-1) (length X))) ->
  (fst scan = [] \/ elongated g principal find edge_map n_neighbors) ->
  (downsample (snd scan) = [] \/ determined find surface_map n_neighbors) ->
  let problem := loam_problem principal qr find downsample edge_map surface_map n_neighbors scan in
  let problem' := loam_problem principal qr find downsample (map (turned_point g) edge_map) (map (turned_point g) surface_map) n_neighbors scan in
  (forall q t, reaches eig llt sel problem T (Z.to_nat max_iter) q t ->
     same_sign g q /\ right_eigenvalues eig (problem (make_pose q t)) /\
     right_eigenvalues eig (problem' (make_pose (qmul g q) (turned_point g t)))) ->
  localizer_result principal qr find downsample eig llt sel (map (turned_point g) edge_map) (map (turned_point g) surface_map) max_iter scan (turned_pose g T) =
  (r <- localizer_result principal qr find downsample eig llt sel edge_map surface_map max_iter scan T ;;
   Ok {| r_pose := turned_pose g (r_pose r); r_message := r_message r; r_iteration := r_iteration r;
         r_error := r_error r; r_error_scale := r_error_scale r; r_success := r_success r |}).
Proof.
  intros Ug HT HL HM HF HQ H1 H2 problem problem' H. unfold localizer_result.
  apply (optimize_turned g Ug eig llt sel HL problem problem' T HT (Z.to_nat max_iter)); auto.
  - intros q t HR Uq. destruct (H q t HR) as [H3 [H4 H5]]. apply loam_turned; auto.
  - apply start_turned; auto. apply (H (fst (of_pose T)) (snd (of_pose T))). exists [], dbl_max, dbl_max. split; [cbn; lia|]. constructor.
Qed.
(** The quaternions correspond whenever both orientations differ by less than 120 degrees
    from none, the estimate and the turn being held by quaternions of positive scalar part. *)
Theorem C119_small_turns_partial g q : unit g -> unit q -> / 2 < qw q -> / 2 < qw (qmul g q) -> same_sign g q.
Proof. intros Ug Uq H1 H2. unfold same_sign. rewrite !quat_small; auto. apply unit_mul; auto. Qed.
Print Assumptions C119_axes_refuted.
Print Assumptions C119_alignment_partial.
Print Assumptions C119_localizer_partial.
Print Assumptions C119_small_turns_partial.

(** * Concrete cases *)
(** The estimates passed by a run from heading 0 to heading delta. *)
Lemma square_reaches eig llt sel delta n q t : solves_positive_definite llt -> square_eigenvalues eig -> valid_nth exact sel ->
  0 < delta <= PI / 2 -> reaches eig llt sel (alignment_make (square_truth delta)) (heading 0) n q t ->
  exists phi, 0 <= phi <= delta / 2 /\ q = zq phi /\ t = V3 0 0 0.
Proof.
  intros HL HE Hsel Hd (l & e & s & _ & HI). pose proof PI_RGT_0.
  assert (NZ : forall phi, 0 <= phi <= PI / 4 -> quat_of (rot_z (2 * phi)) = zq phi).
  { intros phi Hp. assert (C : / 2 < cos phi). { replace (/ 2) with (cos (PI / 3)) by (rewrite cos_PI3; field). apply cos_decreasing_1; lra. }
    rewrite quat_near by nra. rewrite lt_true by lra. reflexivity. }
  rewrite start_heading in HI. cbn [fst snd] in HI. replace 0 with (2 * 0) in HI at 1 by ring. rewrite NZ in HI by lra.
  assert (G : forall q0 t0 e0 s0, iterations exact quat vec pose mat (list R) (alignment_make (square_truth delta)) make_pose rdot (calc_update eig llt) qmul vadd
      check_convergence sel b_robust k_robust tiny_robust q0 t0 e0 s0 l q t e s -> (exists phi, 0 <= phi <= delta / 2 /\ q0 = zq phi /\ t0 = V3 0 0 0) ->
      exists phi, 0 <= phi <= delta / 2 /\ q = zq phi /\ t = V3 0 0 0).
  { clear HI. intros q0 t0 e0 s0 HI. induction HI as [q t e s|q t e0 s0 J1 r1 e1 s1 dq1 dt1 l q' t' e2 s2 M1 L1 L2 S1 C1 H1 IH]; auto.
    intros (phi & Hp & -> & ->). apply IH. destruct M1 as [M1 _]. unfold square_truth in M1. rewrite make_heading, square_problem, NZ in M1 by lra. injection M1 as <- <-.
    unfold SpecOpt.step in S1. change (D exact) with R in *. rewrite square_errors in S1. cbn [map] in S1.
    match type of S1 with context [[?x; _; _; _]] => set (w := x) in S1 end. assert (Hw : 0 < w) by apply huber_pos.
    rewrite (square_step eig llt HL (square_eig eig HE) w phi delta Hw) in S1. injection S1 as <- <-.
    assert (B1 : 0 <= sin (delta - 2 * phi) <= delta - 2 * phi).
    { destruct (Req_dec (delta - 2 * phi) 0) as [Z|Z]; [rewrite Z, sin_0; lra|]. pose proof (sin_lt_x (delta - 2 * phi) ltac:(lra)).
      assert (0 <= sin (delta - 2 * phi)) by (apply sin_ge_0; lra). lra. }
    set (sd := sin (delta - 2 * phi)) in *. exists (phi + sd / 2). split; [lra|].
    split; [|unfold vadd; cbn [vx vy vz]; rewrite !Rplus_0_l; reflexivity].
    destruct (Rlt_dec sd (/ 100000000)) as [L|L].
    - exfalso. assert (true = false); [|discriminate]. rewrite <- C1. symmetry.
      assert (EN : vnorm (V3 0 0 sd) = sd).
      { unfold vnorm, vdot. cbn [vx vy vz]. replace (0 * 0 + 0 * 0 + sd * sd) with (sd * sd) by ring. apply sqrt_square. lra. }
      unfold angle_axis_to_quaternion. rewrite EN, lt_true by lra. unfold check_convergence.
      assert (E0 : vnorm (V3 0 0 0) = 0) by (unfold vnorm, vdot; cbn [vx vy vz]; replace (0 * 0 + 0 * 0 + 0 * 0) with 0 by ring; apply sqrt_0).
      unfold qid, qvec. cbn [qx qy qz]. rewrite E0, lt_true by lra. reflexivity.
    - rewrite aa_vertical by (rewrite Rabs_right; lra). apply zq_mul. }
  apply (G _ _ _ _ HI). exists 0. split; [lra|]. auto.
Qed.

(** A square that has to be turned by 60 degrees, told in axes turned by another 30 degrees;
    any number of iterations. *)
Example ex_C119_alignment : exists eig llt sel, let g := zq (PI / 6 / 2) in let T := heading 0 in
  let problem := alignment_make (square_truth (PI / 3)) in
  let problem' := alignment_make (fst (square_truth (PI / 3)), map (turned_point g) (snd (square_truth (PI / 3)))) in
  unit g /\ is_rotation (lin T) /\ solves_positive_definite llt /\
  (forall n q t, reaches eig llt sel problem T n q t ->
     same_sign g q /\ right_eigenvalues eig (problem (make_pose q t)) /\
     right_eigenvalues eig (problem' (make_pose (qmul g q) (turned_point g t)))) /\
  turned_pose g T = heading (PI / 6) /\ problem' = alignment_make (square_truth (PI / 2)).
Proof.
  destruct ex_C118 as (eig & llt & sel & _ & HL & HE & Hsel & _). exists eig, llt, sel. cbv zeta. rewrite turned_target, turned_heading.
  replace (PI / 6 + PI / 3) with (PI / 2) by field. pose proof PI_RGT_0.
  split; [apply zq_unit|]. split; [apply heading_rotation|]. split; auto. split; [|split; [f_equal; ring|reflexivity]].
  intros n q t HR. destruct (square_reaches eig llt sel (PI / 3) n q t HL HE Hsel) as (phi & Hp & -> & ->); auto; [lra|].
  assert (C : forall a, 0 <= a <= PI / 4 -> / 2 < qw (zq a)).
  { intros a Ha. cbn [zq qw]. replace (/ 2) with (cos (PI / 3)) by (rewrite cos_PI3; field). apply cos_decreasing_1; lra. }
  split.
  - apply C119_small_turns_partial; auto using zq_unit; [apply C; lra|]. rewrite zq_mul. apply C. lra.
  - assert (RE : forall truth a, 0 <= a <= PI / 4 -> right_eigenvalues eig (alignment_make (square_truth truth) (make_pose (zq a) (V3 0 0 0)))).
    { intros truth a Ha Js rs E. unfold square_truth in E. rewrite make_heading, square_problem in E. injection E as <- _.
      rewrite <- zq_rotation, quat_small by auto using zq_unit. apply square_eig. auto. }
    split; [apply RE; lra|]. rewrite zq_mul, tp_zero. apply RE. lra.
Qed.

(** A pole along the x axis and a wall, told in axes turned about the x axis. *)
Definition about_x : quat := Qn (4 / 5) (3 / 5) 0 0.
Lemma about_x_point p : turned_point about_x p = V3 (vx p) (7 / 25 * vy p - 24 / 25 * vz p) (24 / 25 * vy p + 7 / 25 * vz p).
Proof. unfold turned_point, about_x, to_rotation, mapply. cbn [qw qx qy qz vx vy vz m00 m01 m02 m10 m11 m12 m20 m21 m22]. f_equal; field. Qed.
Lemma about_x_unit : unit about_x.
Proof. unfold unit, qnorm2, about_x. cbn [qw qx qy qz]. field. Qed.
Definition x_axis : mat3 -> vec := fun _ => V3 1 0 0.
Lemma pole_elongated : elongated about_x x_axis first_neighbors pole n_neighbors.
Proof.
  intros q X EX. change n_neighbors with 15%nat in EX. rewrite pole_found in EX. injection EX as <-. split.
  - intros c C HM. split; [apply (pole_principal c C HM)|]. intros u [Hu HP]. unfold x_axis.
    pose proof (HP (V3 1 0 0)) as H1. assert (U1 : vdot (V3 1 0 0) (V3 1 0 0) = 1) by (unfold vdot; cbn [vx vy vz]; ring). specialize (H1 U1).
    pose proof (n_pos pole_neighbors c C HM) as P.
    apply (Rmult_le_compat_l (INR (length pole_neighbors))) in H1; [|lra]. rewrite <- !(cov_quad pole_neighbors c C HM) in H1.
    destruct (mean_cov_inv _ c C HM) as [_ [EC _]]. rewrite vsum_so in EC. unfold pole_neighbors, sum_over, vscale in EC. cbn [repeat map fold_right vx vy vz length] in EC.
    assert (c = V3 (-13 / 15) 0 1). { rewrite EC. cbn [INR]. f_equal; field. }
    clear EC HM. subst c. unfold pole_neighbors, sum_over, vdot, vsub in H1. cbn [repeat map fold_right vx vy vz] in H1.
    unfold vdot in Hu. destruct u as [a b d]. cbn [vx vy vz] in *.
    assert (a * a >= 1) by nra. assert (b * b + d * d <= 0) by lra. pose proof (Rle_0_sqr b). pose proof (Rle_0_sqr d). unfold Rsqr in *.
    assert (b = 0) by nra. assert (d = 0) by nra. subst. assert (HH : (a - 1) * (a + 1) = 0) by lra. apply Rmult_integral in HH. unfold vscale. cbn [vx vy vz].
    destruct HH; [left|right]; f_equal; lra.
  - intros c C. apply (x_axis_principal _ (7 / 25 * 0 - 24 / 25 * 1) (24 / 25 * 0 + 7 / 25 * 1)). intros x Hx. apply in_map_iff in Hx. destruct Hx as [y [<- Hy]].
    rewrite about_x_point. cbn [vx vy vz]. destruct (pole_in y Hy) as [->| ->]; auto.
Qed.

(** Nothing in these problems depends on the first coordinate of the position. *)
Lemma free_x em sm T p s X c C Y w : nearest_k_search vec first_neighbors em (transform T p) 15 = Ok X -> mean_and_covariance X = Ok (c, C) ->
  nearest_k_search vec first_neighbors sm (transform T s) 15 = Ok Y -> estimate_plane cramer Y = w -> vx w = 0 ->
  right_eigenvalues (fun _ _ => [0]) (loam_problem x_axis cramer first_neighbors (fun l => l) em sm n_neighbors ([p], [s]) T).
Proof.
  intros EX HM EY EW Hw Js rs E. unfold loam_problem in E. cbn [fst snd mapM] in E.
  unfold edge_term, edge_fit in E. change n_neighbors with 15%nat in E. rewrite EX in E. cbn [bind] in E. rewrite HM in E. cbn [bind fst snd] in E.
  unfold surface_term, plane_fit in E. rewrite EY in E. cbn [bind map app fst snd] in E. rewrite EW in E. injection E as <- <-. unfold x_axis.
  match goal with |- eigenvalues_of _ (normal_matrix ?J) _ => set (Js := J) end.
  assert (HS : well_shaped Js [[0; 0; 0]; [0]]) by (unfold Js; repeat constructor).
  split.
  - intros e [<-|[]]. exists (fun i => if Nat.eqb i 4 then 1 else 0). split; [exists 4%nat; split; [lia|cbn; lra]|].
    intros i Hi. rewrite Rmult_0_l.
    assert (F : normal_matrix Js i 4 = 0).
    { unfold normal_matrix, Js. cbn [map fold_right]. unfold edge_jacobian, surface_jacobian.
      destruct c as [m1 m2 m3]. cbn [beside combine map hat vsub vadd vx vy vz mat_mul fst snd fold_right].
      unfold vscale, vlist. cbn [vx vy vz row_mul seq map app nth]. rewrite Hw. ring. }
    unfold SpecStep.total. cbn [seq map fold_right Nat.eqb]. rewrite F. ring.
  - intros x. exists 0. split; [left; auto|]. rewrite Rmult_0_l. eapply normal_psd; eauto.
Qed.
(** One step of the localizer. *)
Example ex_C119_localizer : exists llt, let g := about_x in let T := Iso id3 (V3 0 0 0) in
  let eig := fun (_ : nat) (_ : nat -> nat -> R) => [0] in
  let scan := ([V3 9 0 2], [V3 5 3 (-2)]) in
  unit g /\ is_rotation (lin T) /\ solves_positive_definite llt /\ searches_turned g first_neighbors /\
  (forall X, solves_least_squares cramer X (repeat (-1) (length X))) /\
  elongated g x_axis first_neighbors pole n_neighbors /\ determined first_neighbors wall n_neighbors /\
  let problem := loam_problem x_axis cramer first_neighbors (fun l => l) pole wall n_neighbors scan in
  let problem' := loam_problem x_axis cramer first_neighbors (fun l => l) (map (turned_point g) pole) (map (turned_point g) wall) n_neighbors scan in
  (forall q t, reaches eig llt sel_sort problem T 1 q t ->
     same_sign g q /\ right_eigenvalues eig (problem (make_pose q t)) /\
     right_eigenvalues eig (problem' (make_pose (qmul g q) (turned_point g t)))).
Proof.
  destruct solver_exists as [llt HL]. exists llt. cbv zeta. split; [apply about_x_unit|].
  split. { unfold is_rotation, id3, mmul3, transpose3, det3. cbn. split; [f_equal; ring|ring]. }
  split; auto. split. { intros m q n. unfold first_neighbors. rewrite map_length. reflexivity. }
  split; [apply cramer_least_squares|]. split; [apply pole_elongated|].
  assert (DT : determined first_neighbors wall n_neighbors).
  { intros q X EX. change n_neighbors with 15%nat in EX. rewrite wall_found in EX. injection EX as <-. apply wall_independent. }
  split; auto. intros q t (l & e & s & Hl & HI). destruct l; [|cbn in Hl; lia]. inversion HI; subst. clear HI Hl.
  assert (Q : quat_of id3 = qid).
  { replace id3 with (to_rotation qid) by (unfold to_rotation, qid, id3; cbn [qw qx qy qz]; apply mat3_ext; cbn [m00 m01 m02 m10 m11 m12 m20 m21 m22]; ring).
    apply quat_small; [unfold unit, qnorm2, qid; cbn [qw qx qy qz]; ring|unfold qid; cbn [qw]; lra]. }
  unfold of_pose. cbn [lin tra fst snd]. rewrite Q.
  assert (UI : unit qid) by (unfold unit, qnorm2, qid; cbn [qw qx qy qz]; ring).
  assert (EM : qmul about_x qid = about_x) by (unfold qmul, qid, about_x; cbn [qw qx qy qz]; f_equal; ring).
  split. { apply C119_small_turns_partial; auto; [apply about_x_unit|unfold qid; cbn [qw]; lra|rewrite EM; unfold about_x; cbn [qw]; lra]. }
  assert (EW : estimate_plane cramer wall_neighbors = V3 0 (-1) (-1)).
  { rewrite (exact_plane cramer wall_neighbors (V3 0 1 1) 1); [|apply cramer_least_squares|apply wall_independent|lra|apply wall_in].
    unfold vscale. cbn [vx vy vz]. f_equal; field. }
  destruct (mean_cov_ok pole_neighbors) as [m [C HM]]; [discriminate|].
  destruct (mean_turned about_x about_x_unit pole_neighbors) as [[N _]|(c' & C1 & C' & _ & HM' & _)]; [congruence|].
  split.
  - apply (free_x pole wall _ _ _ pole_neighbors m C wall_neighbors (V3 0 (-1) (-1))); auto; apply pole_found || apply wall_found.
  - apply (free_x _ _ _ _ _ (map (turned_point about_x) pole_neighbors) (turned_point about_x c') C' (map (turned_point about_x) wall_neighbors) (turned_point about_x (V3 0 (-1) (-1)))).
    + reflexivity.
    + exact HM'.
    + reflexivity.
    + rewrite (plane_turned about_x about_x_unit cramer wall_neighbors cramer_least_squares wall_independent), EW. reflexivity.
    + rewrite about_x_point. reflexivity.
Qed.
