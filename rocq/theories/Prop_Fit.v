(** C92-C94: the lines and planes fitted to the neighbours in the map, and scans that fit
    the map exactly. *)
From Coq Require Import List ZArith Bool Reals Lra Lia.
From Verif Require Import Base Arith Spec LibModel SpecLib LibProofs LocModel PoseModel OptModel ProblemModel SpecPose SpecOpt SpecStep
  RotProofs Prop_Rotation StepProofs SolverProofs WitnessProofs Prop_Optimizer SpecFit FitProofs FitRunProofs.
Import ListNotations.
Open Scope R_scope.

(** ** C92 The line through the mean of the points along the direction of largest variance
    is a line for which the sum of the squared distances of the points is smallest: for
    every other line (a, u) and all points s x on it, the sum of the squared distances
    between the x and those points is not smaller. *)
Theorem C92_best_line principal X mean C : mean_and_covariance X = Ok (mean, C) ->
  principal_direction C (principal C) ->
  exists foot, forall (a u : vec) (s : vec -> R),
    sum_over (fun x => squared_distance x (ray_point mean (principal C) (foot x))) X <=
    sum_over (fun x => squared_distance x (ray_point a u (s x))) X.
Proof. exact (fun HM => best_line X mean C (principal C) HM). Qed.
(** Mean and covariance are defined for every non-empty list, and are what their names say. *)
Theorem C92_mean_and_covariance X : X <> [] -> exists mean C,
  mean_and_covariance X = Ok (mean, C) /\
  (forall k, sum_over (fun x => vdot (vsub x mean) k) X = 0) /\
  (forall u, INR (length X) * vdot u (mapply C u) = sum_over (fun x => vdot (vsub x mean) u * vdot (vsub x mean) u) X).
Proof.
  intros H. destruct (mean_cov_ok X H) as [m [C HM]]. exists m, C. split; auto. split.
  - intros k. apply (deviations X m C HM).
  - intros u. symmetry. apply (cov_quad X m C HM).
Qed.
Theorem C92_no_points : mean_and_covariance [] = AssertFail.
Proof. reflexivity. Qed.
(** If the neighbours lie on a line (and are not all the same point), it is that line that
    is found. *)
Theorem C92_found_line principal find map_ n query (X : list vec) (a u : vec) mean v :
  nearest_k_search vec find map_ query n = Ok X ->
  (forall x, In x X -> on_ray a u x) -> (exists x y, In x X /\ In y X /\ x <> y) ->
  (forall m C, mean_and_covariance X = Ok (m, C) -> principal_direction C (principal C)) ->
  edge_fit principal find map_ n query = Ok (mean, v) ->
  forall p, on_ray mean v p <-> on_ray a u p.
Proof.
  intros HX HL H2 HP E. unfold edge_fit in E. rewrite HX in E. cbn [bind] in E.
  destruct (mean_cov_ok X) as [m [C HM]]; [destruct H2 as [x [_ [Hx _]]]; intros ->; destruct Hx|].
  rewrite HM in E. cbn [bind fst snd] in E. injection E as <- <-.
  apply (found_line X m C (principal C) a u HM (HP m C HM) HL H2).
Qed.
(** The squared residual of an edge point is four times its squared distance from the line
    found for it. *)
Theorem C92_edge_distance principal find map_ n T p0 (X : list vec) J r mean v d :
  nearest_k_search vec find map_ (transform T p0) n = Ok X ->
  (forall m C, mean_and_covariance X = Ok (m, C) -> principal_direction C (principal C)) ->
  edge_fit principal find map_ n (transform T p0) = Ok (mean, v) ->
  edge_term principal find map_ n T p0 = Ok (J, r) ->
  distance_from_line mean v (transform T p0) d -> rdot r = (2 * d) * (2 * d).
Proof.
  intros HX HP E E2 Hd. unfold edge_term in E2. rewrite E in E2. cbn [bind] in E2. injection E2 as <- <-.
  apply edge_distance; auto. unfold edge_fit in E. rewrite HX in E. cbn [bind] in E.
  destruct (mean_and_covariance X) as [[m C]| | | | |] eqn:HM; try discriminate. cbn [bind fst snd] in E. injection E as <- <-.
  apply (HP m C eq_refl).
Qed.
Print Assumptions C92_best_line.
Print Assumptions C92_mean_and_covariance.
Print Assumptions C92_found_line.
Print Assumptions C92_edge_distance.

(** Points that differ only in x: the direction of largest variance is the x axis. *)
Lemma x_axis_principal (X : list vec) y z m C : (forall x, In x X -> vy x = y /\ vz x = z) ->
  mean_and_covariance X = Ok (m, C) -> principal_direction C (V3 1 0 0).
Proof.
  intros HX HM. split; [unfold vdot; cbn [vx vy vz]; ring|]. intros u Hu.
  pose proof (n_pos X m C HM) as P.
  apply Rmult_le_reg_l with (INR (length X)); auto. rewrite <- !(cov_quad X m C HM).
  assert (My : vy m = y).
  { destruct (mean_cov_inv X m C HM) as [_ [-> _]]. rewrite vsum_so. unfold vscale. cbn [vy].
    rewrite (so_ext vy (fun _ => y)) by (intros x Hx; apply HX; auto). rewrite so_const. field. lra. }
  assert (Mz : vz m = z).
  { destruct (mean_cov_inv X m C HM) as [_ [-> _]]. rewrite vsum_so. unfold vscale. cbn [vz].
    rewrite (so_ext vz (fun _ => z)) by (intros x Hx; apply HX; auto). rewrite so_const. field. lra. }
  apply so_le. intros x Hx. destruct (HX x Hx) as [E1 E2]. unfold vdot, vsub in *. cbn [vx vy vz].
  rewrite E1, E2, My, Mz. set (k := vx x - vx m). pose proof (Rle_0_sqr k). pose proof (Rle_0_sqr (vy u)). pose proof (Rle_0_sqr (vz u)).
  unfold Rsqr in *. assert (vx u * vx u <= 1) by lra. nra.
Qed.
(** A map of two points of a line; a search for 15 neighbours gives both, the first one
    also for the entries that are not found. *)
Definition pole : list vec := [V3 (-1) 0 1; V3 1 0 1].
Definition pole_neighbors : list vec := V3 (-1) 0 1 :: V3 1 0 1 :: repeat (V3 (-1) 0 1) 13.
Lemma pole_found q : nearest_k_search vec first_neighbors pole q 15 = Ok pole_neighbors.
Proof. reflexivity. Qed.
Lemma pole_in x : In x pole_neighbors -> x = V3 (-1) 0 1 \/ x = V3 1 0 1.
Proof. intros [<-|[<-|H]]; auto. apply repeat_spec in H. auto. Qed.
Lemma pole_principal m C : mean_and_covariance pole_neighbors = Ok (m, C) -> principal_direction C (V3 1 0 0).
Proof. apply (x_axis_principal _ 0 1). intros x Hx. destruct (pole_in x Hx) as [->| ->]; auto. Qed.
Example ex_C92 : let principal := fun _ : mat3 => V3 1 0 0 in
  exists mean C J r d,
    mean_and_covariance pole_neighbors = Ok (mean, C) /\ principal_direction C (principal C) /\
    (forall x, In x pole_neighbors -> on_ray (V3 0 0 1) (V3 3 0 0) x) /\
    edge_fit principal first_neighbors pole 15 (V3 7 3 5) = Ok (mean, V3 1 0 0) /\
    edge_term principal first_neighbors pole 15 (Iso id3 (V3 0 0 0)) (V3 7 3 5) = Ok (J, r) /\
    distance_from_line mean (V3 1 0 0) (V3 7 3 5) d /\ d = 5.
Proof.
  intros principal. destruct (mean_cov_ok pole_neighbors) as [m [C HM]]; [discriminate|].
  assert (E : edge_fit principal first_neighbors pole 15 (V3 7 3 5) = Ok (m, V3 1 0 0)).
  { unfold edge_fit. rewrite pole_found. cbn [bind]. rewrite HM. reflexivity. }
  assert (HR : forall x, In x pole_neighbors -> on_ray (V3 0 0 1) (V3 3 0 0) x).
  { intros x Hx. destruct (pole_in x Hx) as [->| ->]; [exists (-1/3)|exists (1/3)]; apply vec_ext3; vb; field. }
  exists m, C. do 2 eexists. exists 5. split; [exact HM|]. split; [apply (pole_principal m C HM)|]. split; auto. split; [exact E|].
  split; [|split; auto].
  - unfold edge_term. replace (transform (Iso id3 (V3 0 0 0)) (V3 7 3 5)) with (V3 7 3 5)
      by (apply vec_ext3; unfold transform, id3, mapply, vadd; cbn; ring).
    rewrite E. reflexivity.
  - assert (My : vy m = 0 /\ vz m = 1).
    { destruct (mean_cov_inv _ m C HM) as [_ [-> _]]. rewrite vsum_so. unfold vscale. cbn [vy vz].
      unfold sum_over, pole_neighbors. cbn. split; field. }
    destruct m as [m1 m2 m3]. cbn [vy vz] in My. destruct My as [-> ->].
    split; [lra|]. split; [exists (7 - m1); vb; field|]. intros s. vb. pose proof (Rle_0_sqr (7 - (m1 + s * 1))) as Q. unfold Rsqr in Q. nra.
Qed.

(** ** C93 The plane fitted to the neighbours of a surface point.  When the equations
    w.x = -1 determine w, the fitted w has the smallest sum of squares of w.x + 1. *)
Theorem C93_least_squares qr_solve X w : solves_least_squares qr_solve X (repeat (-1) (length X)) -> independent X ->
  sum_over (fun x => (vdot (estimate_plane qr_solve X) x + 1) * (vdot (estimate_plane qr_solve X) x + 1)) X <=
  sum_over (fun x => (vdot w x + 1) * (vdot w x + 1)) X.
Proof.
  intros HQ HI. specialize (HQ HI w). unfold estimate_plane. set (w0 := qr_solve X _) in *. clearbody w0.
  assert (E : forall w, misfit X (repeat (-1) (length X)) w = sum_over (fun x => (vdot w x + 1) * (vdot w x + 1)) X).
  { intros w'. unfold misfit, sum_over. clear. induction X as [|x X IH]; [reflexivity|].
    cbn [length repeat combine map fold_right fst snd]. rewrite IH. ring. }
  rewrite !E in HQ. exact HQ.
Qed.
(** Neighbours in a plane n.x = d that does not contain the origin of the map: the fitted
    plane is that plane, and the residual of the point is its distance from the plane.
    Missing: planes through the origin. *)
Theorem C93_exact_plane_partial qr_solve find map_ k T p X n d J r e :
  nearest_k_search vec find map_ (transform T p) k = Ok X ->
  solves_least_squares qr_solve X (repeat (-1) (length X)) ->
  independent X -> (forall x, In x X -> in_plane n d x) -> d <> 0 ->
  surface_term qr_solve find map_ k T p = Ok (J, r) -> distance_from_plane n d (transform T p) e ->
  (forall x, on_plane (estimate_plane qr_solve X) x <-> in_plane n d x) /\ exists s, r = [s] /\ Rabs s = e.
Proof.
  intros HX HQ HI HP Hd E He. unfold surface_term, plane_fit in E. rewrite HX in E. cbn [bind] in E. injection E as <- <-.
  rewrite (exact_plane qr_solve X n d HQ HI Hd HP). split.
  - intros x. unfold on_plane, in_plane.
    replace (vdot (vscale (- / d) n) x) with (- / d * vdot n x) by (unfold vdot, vscale; cbn [vx vy vz]; ring).
    split; intros H; [|rewrite H; field; auto]. apply Rmult_eq_reg_l with (- / d); [|apply Ropp_neq_0_compat, Rinv_neq_0_compat; auto].
    replace (- / d * d) with (-1) by (field; auto). lra.
  - eexists. split; [reflexivity|]. apply plane_distance; auto.
    intros ->. destruct He as [_ [[q [Hq _]] _]]. unfold in_plane, vdot, origin in Hq. cbn [vx vy vz] in Hq. apply Hd. rewrite <- Hq. ring.
Qed.
(** For a plane through the origin of the map no w represents the plane, whatever solver is
    used, and the equations do not determine w. *)
Theorem C93_through_origin_refuted X n : n <> origin -> (forall x, In x X -> in_plane n 0 x) -> ~ collinear X ->
  ~ independent X /\ forall w, ~ (forall x, In x X -> on_plane w x).
Proof. exact (origin_plane X n). Qed.
(** So the plane fitted is not the plane of the neighbours, for every solver. *)
Theorem C93_fitted_plane_refuted : exists X n, n <> origin /\ (forall x, In x X -> in_plane n 0 x) /\ ~ collinear X /\
  forall qr_solve, ~ (forall x, In x X -> on_plane (estimate_plane qr_solve X) x).
Proof.
  exists [V3 1 0 0; V3 0 1 0; V3 2 2 0], (V3 0 0 1).
  assert (HX : forall x, In x [V3 1 0 0; V3 0 1 0; V3 2 2 0] -> in_plane (V3 0 0 1) 0 x).
  { intros x [<-|[<-|[<-|[]]]]; unfold in_plane; vb; ring. }
  assert (N : V3 0 0 1 <> origin) by (unfold origin; intros E; injection E; lra).
  assert (NC : ~ collinear [V3 1 0 0; V3 0 1 0; V3 2 2 0]).
  { intros [a [u [_ H]]].
    destruct (H (V3 1 0 0)) as [s1 E1]; [left; auto|]. destruct (H (V3 0 1 0)) as [s2 E2]; [right; left; auto|].
    destruct (H (V3 2 2 0)) as [s3 E3]; [right; right; left; auto|].
    destruct a as [a b c], u as [u v w]. vb. injection E1 as A1 A2 A3. injection E2 as B1 B2 B3. injection E3 as D1 D2 D3.
    assert (K1 : (s1 - s2) * u = 1) by lra. assert (K2 : (s1 - s2) * v = -1) by lra.
    assert (K3 : (s3 - s2) * u = 2) by lra. assert (K4 : (s3 - s2) * v = 1) by lra.
    assert (K5 : ((s1 - s2) * u) * ((s3 - s2) * v) = ((s1 - s2) * v) * ((s3 - s2) * u)) by ring.
    rewrite K1, K2, K3, K4 in K5. lra. }
  split; auto. split; auto. split; auto. intros qr. apply (C93_through_origin_refuted _ (V3 0 0 1)); auto.
Qed.
Print Assumptions C93_least_squares.
Print Assumptions C93_exact_plane_partial.
Print Assumptions C93_through_origin_refuted.
Print Assumptions C93_fitted_plane_refuted.

(** A map of three points of the plane y + z = 1. *)
Definition wall : list vec := [V3 0 1 0; V3 0 0 1; V3 1 1 0].
Definition wall_neighbors : list vec := V3 0 1 0 :: V3 0 0 1 :: V3 1 1 0 :: repeat (V3 0 1 0) 12.
Lemma wall_found q : nearest_k_search vec first_neighbors wall q 15 = Ok wall_neighbors.
Proof. reflexivity. Qed.
Lemma wall_in x : In x wall_neighbors -> in_plane (V3 0 1 1) 1 x.
Proof.
  intros [<-|[<-|[<-|H]]]; try (unfold in_plane; vb; ring). apply repeat_spec in H. subst. unfold in_plane; vb; ring.
Qed.
Lemma wall_independent : independent wall_neighbors.
Proof.
  intros [a b c] H.
  pose proof (H (V3 0 1 0) (or_introl eq_refl)) as H1. pose proof (H (V3 0 0 1) (or_intror (or_introl eq_refl))) as H2.
  pose proof (H (V3 1 1 0) (or_intror (or_intror (or_introl eq_refl)))) as H3. vb. f_equal; lra.
Qed.
Lemma wall_solved : solves_least_squares (fun _ _ => V3 0 (-1) (-1)) wall_neighbors (repeat (-1) (length wall_neighbors)).
Proof.
  intros _ w. replace (misfit wall_neighbors _ (V3 0 (-1) (-1))) with 0.
  - unfold misfit. generalize (combine wall_neighbors (repeat (-1) (length wall_neighbors))). intros l.
    induction l as [|a l IH]; cbn [map fold_right]; [lra|]. pose proof (Rle_0_sqr (vdot w (fst a) - snd a)). unfold Rsqr in *. lra.
  - unfold misfit, wall_neighbors. cbn [length repeat combine map fold_right fst snd]. vb. ring.
Qed.
Example ex_C93 : exists J r,
  nearest_k_search vec first_neighbors wall (V3 5 3 4) 15 = Ok wall_neighbors /\
  solves_least_squares (fun _ _ => V3 0 (-1) (-1)) wall_neighbors (repeat (-1) (length wall_neighbors)) /\
  independent wall_neighbors /\ (forall x, In x wall_neighbors -> in_plane (V3 0 1 1) 1 x) /\
  surface_term (fun _ _ => V3 0 (-1) (-1)) first_neighbors wall 15 (Iso id3 (V3 0 0 0)) (V3 5 3 4) = Ok (J, r) /\
  distance_from_plane (V3 0 1 1) 1 (V3 5 3 4) (3 * sqrt 2).
Proof.
  do 2 eexists. split; [reflexivity|]. split; [exact wall_solved|]. split; [exact wall_independent|]. split; [exact wall_in|].
  split; [reflexivity|].
  assert (S : 3 * sqrt 2 * (3 * sqrt 2) = 18) by (pose proof (sqrt_sqrt 2 ltac:(lra)); nra).
  split; [pose proof (sqrt_pos 2); lra|]. rewrite S. split.
  - exists (V3 5 0 1). unfold in_plane. vb. split; ring.
  - intros [x y z] H. unfold in_plane in H. vb. assert (z = 1 - y) by lra. subst z.
    pose proof (Rle_0_sqr (5 - x)). pose proof (Rle_0_sqr y). unfold Rsqr in *. nra.
Qed.

(** ** C94 If, at the pose of the prior, every edge point of the scan lies on the line of its
    neighbours in the edge map, and every (downsampled) surface point in the plane of its
    neighbours in the surface map, then the localizer reports success after one iteration,
    with error zero, and its pose is the prior. *)
Theorem C94_exact_scan principal qr_solve find_neighbors downsample eig llt sel edge_map surface_map max_iter scan T :
  is_rotation (lin T) -> (1 <= max_iter)%Z -> fst scan <> [] \/ downsample (snd scan) <> [] ->
  (forall p, In p (fst scan) -> exists X,
     nearest_k_search vec find_neighbors edge_map (transform T p) n_neighbors = Ok X /\ line_through X (transform T p) /\
     forall m C, mean_and_covariance X = Ok (m, C) -> principal_direction C (principal C)) ->
  (forall p, In p (downsample (snd scan)) -> exists X,
     nearest_k_search vec find_neighbors surface_map (transform T p) n_neighbors = Ok X /\ plane_through X (transform T p) /\
     solves_least_squares qr_solve X (repeat (-1) (length X))) ->
  valid_nth exact sel -> solves_positive_definite llt ->
  (forall Js rs, loam_problem principal qr_solve find_neighbors downsample edge_map surface_map n_neighbors scan T = Ok (Js, rs) ->
     eigenvalues_of 7 (normal_matrix Js) (eig 7%nat (normal_matrix Js))) ->
  exists r, localizer_result principal qr_solve find_neighbors downsample eig llt sel edge_map surface_map max_iter scan T = Ok r /\
    r_pose r = T /\ r_success r = true /\ r_message r = SuccessfullyConverged /\ r_iteration r = 0%Z /\ r_error r = 0 :> R.
Proof.
  intros H1 H2 H3 H4 H5 H6 H7 H8. eexists. split; [apply true_pose; eauto|]. repeat split.
Qed.
(** The same for the alignment of two lists of points: at a pose that maps the source
    points to the target points. *)
Theorem C94_exact_alignment eig llt sel max_iter source T :
  is_rotation (lin T) -> (1 <= max_iter)%Z -> source <> [] ->
  valid_nth exact sel -> solves_positive_definite llt ->
  (forall Js rs, alignment_make (source, map (transform T) source) T = Ok (Js, rs) ->
     eigenvalues_of 7 (normal_matrix Js) (eig 7%nat (normal_matrix Js))) ->
  exists r, optimize eig llt sel (alignment_make (source, map (transform T) source)) max_iter T = Ok r /\
    r_pose r = T /\ r_success r = true /\ r_message r = SuccessfullyConverged /\ r_iteration r = 0%Z /\ r_error r = 0 :> R.
Proof.
  intros HR HM Hne HN HL HE.
  set (Js := alignment_jacobian (quat_of (lin T)) source).
  set (rs := map (fun xy => vlist (vsub (transform T (fst xy)) (snd xy))) (combine source (map (transform T) source))).
  assert (EP : alignment_make (source, map (transform T) source) T = Ok (Js, rs)).
  { unfold alignment_make, alignment_residual. cbn [fst snd]. rewrite map_length, Nat.eqb_refl. reflexivity. }
  assert (W : well_shaped Js rs /\ Forall zeros rs).
  { unfold Js, rs, well_shaped, alignment_jacobian. clear. generalize (quat_of (lin T)). intros q.
    induction source as [|p l [I1 I2]]; [split; constructor|]. cbn [map combine fst snd]. split; constructor; auto.
    - split; [reflexivity|repeat constructor].
    - unfold zeros, vlist, vsub. cbn [vx vy vz]. repeat constructor; ring. }
  destruct W as [W1 W2]. eexists. split.
  - apply (zero_run eig llt HL sel HN _ max_iter T Js rs HR HM EP); auto.
    + unfold rs. destruct source; [congruence|discriminate].
    + eapply HE; eauto.
  - repeat split.
Qed.
Print Assumptions C94_exact_scan.
Print Assumptions C94_exact_alignment.

Lemma normal_psd Js rs x : well_shaped Js rs -> 0 <= quad 7 (normal_matrix Js) x.
Proof.
  intros HS. set (w := repeat 1 (length Js)).
  assert (E : quad 7 (normal_matrix Js) x = lsum (fun t => rho t x * rho t x) (flat w Js rs)).
  { pose proof (quad_flat (map (fun t => (1, snd t)) (flat w Js rs)) x) as Q.
    rewrite lsum_map in Q. unfold t_w, rho, t_row in Q. cbn [fst snd] in Q.
    rewrite (lsum_ext _ (fun t => rho t x * rho t x)) in Q by (intros t _; unfold rho, t_row; ring).
    rewrite <- Q. unfold quad. apply total_ext. intros i _. apply total_ext. intros j _.
    rewrite (normal_flat w Js rs i j HS) by apply repeat_length. rewrite lsum_map. cbn [fst snd].
    f_equal. f_equal. apply lsum_ext. intros t _. unfold t_row. ring. }
  rewrite E. rewrite <- (lsum_zero (flat w Js rs)). apply lsum_le. intros t _. apply Rle_0_sqr.
Qed.
(** A scan with one edge point and one surface point, which lie on the line and the plane
    of the maps above. *)
Example ex_C94 : let principal := fun _ : mat3 => V3 1 0 0 in
  let qr := fun (_ : list vec) (_ : list R) => V3 0 (-1) (-1) in
  let scan := ([V3 9 0 1], [V3 5 3 (-2)]) in let T := Iso id3 (V3 0 0 0) in
  is_rotation (lin T) /\ valid_nth exact sel_sort /\
  (forall p, In p (fst scan) -> exists X,
     nearest_k_search vec first_neighbors pole (transform T p) n_neighbors = Ok X /\ line_through X (transform T p) /\
     forall m C, mean_and_covariance X = Ok (m, C) -> principal_direction C (principal C)) /\
  (forall p, In p (snd scan) -> exists X,
     nearest_k_search vec first_neighbors wall (transform T p) n_neighbors = Ok X /\ plane_through X (transform T p) /\
     solves_least_squares qr X (repeat (-1) (length X))) /\
  (forall Js rs, loam_problem principal qr first_neighbors (fun l => l) pole wall n_neighbors scan T = Ok (Js, rs) ->
     eigenvalues_of 7 (normal_matrix Js) [0]).
Proof.
  intros principal qr scan T.
  assert (TR : forall p, transform T p = p).
  { intros [x y z]. unfold transform, T, id3, mapply, vadd. cbn [lin tra vx vy vz m00 m01 m02 m10 m11 m12 m20 m21 m22]. f_equal; ring. }
  assert (A1 : is_rotation (lin T)).
  { unfold is_rotation, T, id3, mmul3, transpose3, det3. cbn. split; [f_equal; ring|ring]. }
  assert (A3 : forall p, In p (fst scan) -> exists X,
     nearest_k_search vec first_neighbors pole (transform T p) n_neighbors = Ok X /\ line_through X (transform T p) /\
     forall m C, mean_and_covariance X = Ok (m, C) -> principal_direction C (principal C)).
  { intros p [<-|[]]. exists pole_neighbors. split; [apply pole_found|]. split; [|apply pole_principal].
    rewrite TR. exists (V3 0 0 1), (V3 1 0 0). split; [|split].
    - intros x Hx. destruct (pole_in x Hx) as [->| ->]; [exists (-1)|exists 1]; apply vec_ext3; vb; ring.
    - exists 9. apply vec_ext3; vb; ring.
    - exists (V3 (-1) 0 1), (V3 1 0 1). split; [left; auto|]. split; [right; left; auto|]. intros E. injection E. lra. }
  assert (A4 : forall p, In p (snd scan) -> exists X,
     nearest_k_search vec first_neighbors wall (transform T p) n_neighbors = Ok X /\ plane_through X (transform T p) /\
     solves_least_squares qr X (repeat (-1) (length X))).
  { intros p [<-|[]]. exists wall_neighbors. split; [apply wall_found|]. split; [|apply wall_solved].
    rewrite TR. exists (V3 0 1 1), 1. split; [lra|]. split; [apply wall_in|]. split; [|apply wall_independent].
    unfold in_plane. vb. ring. }
  split; auto. split; [apply sel_sort_valid|]. split; auto. split; auto.
  intros Js rs E. unfold loam_problem, scan in E. cbn [fst snd mapM] in E.
  unfold edge_term, edge_fit in E. rewrite TR in E. change n_neighbors with 15%nat in E. rewrite pole_found in E. cbn [bind] in E.
  destruct (mean_cov_ok pole_neighbors) as [m [C HM]]; [discriminate|]. rewrite HM in E. cbn [bind fst snd] in E.
  unfold surface_term, plane_fit in E. rewrite TR in E. rewrite wall_found in E. cbn [bind map app fst snd] in E.
  injection E as <- <-. unfold principal.
  match goal with |- eigenvalues_of _ (normal_matrix ?J) _ => set (Js := J) end.
  assert (HS : well_shaped Js [[0; 0; 0]; [0]]) by (unfold Js; repeat constructor).
  split.
  - intros e [<-|[]]. exists (fun i => if Nat.eqb i 4 then 1 else 0). split; [exists 4%nat; split; [lia|cbn; lra]|].
    intros i Hi. rewrite Rmult_0_l.
    assert (F : normal_matrix Js i 4 = 0).
    { unfold normal_matrix, Js. cbn [map fold_right]. unfold edge_jacobian, surface_jacobian. 
      destruct m as [m1 m2 m3]. cbn [beside combine map hat vsub vadd vx vy vz mat_mul fst snd fold_right].
      unfold estimate_plane, qr, vscale, vlist. cbn [vx vy vz row_mul seq map app nth]. ring. }
    unfold total. cbn [seq map fold_right Nat.eqb]. rewrite F. ring.
  - intros x. exists 0. split; [left; auto|]. rewrite Rmult_0_l. eapply normal_psd; eauto.
Qed.

(** ** C95 The Jacobian for given coefficient vectors: one row for each point, the
    derivative of coefficient . (rotated point + translation). *)
Theorem C95_coefficient_jacobian points coeffs q t : length points = length coeffs -> exists J,
  coefficient_jacobian points coeffs q = Ok J /\ length J = length points /\
  forall i p c row, nth_error points i = Some p -> nth_error coeffs i = Some c -> nth_error J i = Some row ->
    has_jacobian 1 (fun q t => [vdot c (vadd (sandwich q p) t)]) q t [row].
Proof.
  intros HL. unfold coefficient_jacobian. rewrite HL, Nat.eqb_refl. cbn [assert_]. eexists. split; [reflexivity|].
  split; [rewrite map_length, combine_length, HL; lia|]. intros i p c row Hp Hc Hr.
  assert (E : row = row_mul 4 (vlist c) (drpdq q p) ++ vlist c).
  { rewrite nth_error_map in Hr. destruct (nth_error (combine points coeffs) i) as [[p' c']|] eqn:EC; [|discriminate].
    cbn [option_map fst snd] in Hr. injection Hr as <-. clear HL. revert points coeffs Hp Hc EC.
    induction i as [|i IH]; intros [|a points] [|b coeffs] Hp Hc EC; try discriminate; cbn in *; [congruence|]. eapply IH; eauto. }
  subst row. split; [split; [reflexivity|repeat constructor]|]. split; [reflexivity|].
  exists ((Rabs (vx c) + Rabs (vy c) + Rabs (vz c)) * vnorm p). intros h d j Hj. assert (j = 0%nat) by lia. subst j.
  rewrite sandwich_expand. eapply Rle_trans; [|apply (lin_sandwich (vx c) (vy c) (vz c))]. right. f_equal. clear.
  set (s := sandwich h p). set (s0 := sandwich q p). clearbody s s0.
  destruct s as [s1 s2 s3], s0 as [z1 z2 z3], q as [q1 q2 q3 q4], p as [p1 p2 p3], c as [c1 c2 c3], h as [h1 h2 h3 h4], d as [d1 d2 d3], t as [t1 t2 t3]. vcbn. ring.
Qed.
Theorem C95_lengths points coeffs q : length points <> length coeffs -> coefficient_jacobian points coeffs q = AssertFail.
Proof. intros H. unfold coefficient_jacobian. apply Nat.eqb_neq in H. rewrite H. reflexivity. Qed.
Print Assumptions C95_coefficient_jacobian.
Print Assumptions C95_lengths.
Example ex_C95 : coefficient_jacobian [V3 1 2 3] [V3 0 0 1] qid = Ok [[6; 4; -2; 0; 0; 0; 1]].
Proof.
  unfold coefficient_jacobian. cbn [length Nat.eqb assert_]. unfold qid. vcbn. do 2 f_equal.
  repeat (apply f_equal2; [ring|]). reflexivity.
Qed.

Lemma sorted_unique (l m : list R) : Permutation.Permutation l m -> Sorted.StronglySorted Rle l -> Sorted.StronglySorted Rle m -> l = m.
Proof.
  revert m. induction l as [|a l IH]; intros m HP HL HM.
  - apply Permutation.Permutation_nil in HP. auto.
  - destruct m as [|b m]; [apply Permutation.Permutation_sym, Permutation.Permutation_nil in HP; discriminate|].
    inversion HL as [|a0 l0 L1 L2]. inversion HM as [|b0 m0 M1 M2]. subst. rewrite Forall_forall in L2, M2.
    assert (E : a = b).
    { assert (Ia : In a (b :: m)) by (eapply Permutation.Permutation_in; [exact HP|left; auto]).
      assert (Ib : In b (a :: l)) by (eapply Permutation.Permutation_in; [apply Permutation.Permutation_sym; exact HP|left; auto]).
      destruct Ia as [->|Ia]; auto. destruct Ib as [->|Ib]; auto. specialize (L2 b Ib). specialize (M2 a Ia). lra. }
    subst b. f_equal. apply IH; auto. apply Permutation.Permutation_cons_inv with a. auto.
Qed.

(** ** C96 The decisions about fits.  The principal direction counts as reliable exactly if
    the largest of the three eigenvalues exceeds three times the middle one, in whatever
    order they are given. *)
Theorem C96_reliable a b c x y z : Permutation.Permutation [a; b; c] [x; y; z] -> x <= y <= z ->
  (principal_is_reliable (a, b, c) = true <-> 3 * y < z).
Proof.
  intros HP Hxyz. unfold principal_is_reliable.
  pose proof (sort_three_perm Rltb a b c) as G.
  pose proof (sort_three_sorted Rltb a b c) as S0.
  destruct (sort_three Rltb (a, b, c)) as [[x' y'] z'].
  assert (SW : strict_weak_order Rltb [a; b; c]).
  { split; [|split].
    - intros u _. apply lt_false. lra.
    - intros u v w _ _ _ H1 H2. apply AngleProofs.Rltb_spec in H1, H2. apply lt_true. lra.
    - intros u v w _ _ _ H1 H2 H3 H4. unfold Rltb in *.
      destruct (Rlt_dec u v); [discriminate|]. destruct (Rlt_dec v u); [discriminate|].
      destruct (Rlt_dec v w); [discriminate|]. destruct (Rlt_dec w v); [discriminate|].
      destruct (Rlt_dec u w), (Rlt_dec w u); auto; lra. }
  destruct (S0 SW) as [H1 [H2 H3]]. clear S0 SW.
  assert (L1 : x' <= y') by (unfold Rltb in H1; destruct (Rlt_dec y' x'); [discriminate|lra]).
  assert (L2 : y' <= z') by (unfold Rltb in H2; destruct (Rlt_dec z' y'); [discriminate|lra]).
  assert (E : [x; y; z] = [x'; y'; z']).
  { apply (sorted_unique [x; y; z] [x'; y'; z']).
    - eapply Permutation.perm_trans; [apply Permutation.Permutation_sym; exact HP|exact G].
    - repeat (apply Sorted.SSorted_nil || apply Sorted.SSorted_cons || apply Forall_nil || apply Forall_cons); lra.
    - repeat (apply Sorted.SSorted_nil || apply Sorted.SSorted_cons || apply Forall_nil || apply Forall_cons); lra. }
  injection E as <- <- <-. rewrite AngleProofs.Rltb_spec. lra.
Qed.
(** Points are along a plane exactly if none of them is farther than 0.2 from it. *)
Theorem C96_along_plane X w : w <> origin ->
  (points_along_plane X w = true <->
   forall x e, In x X -> distance_from_plane w (-1) x e -> e <= 2 / 10).
Proof.
  intros Hw. unfold points_along_plane. rewrite forallb_forall.
  assert (Hd : forall x e, distance_from_plane w (-1) x e -> Rabs (signed_distance w x) = e).
  { intros x e He. rewrite <- (plane_distance w (-1) x e) by (auto; lra). do 2 f_equal.
    replace (- / -1) with 1 by field. destruct w as [a b c]. unfold vscale. cbn [vx vy vz]. f_equal; ring. }
  assert (HE : forall x, distance_from_plane w (-1) x (Rabs (signed_distance w x))).
  { intros x. assert (Hp : 0 < vdot w w).
    { assert (vdot w w <> 0) by (intros E; apply Hw; apply sq_zero; auto). pose proof (vdot_nonneg w). lra. }
    assert (Hn : vnorm w * vnorm w = vdot w w) by (apply sqrt_sqrt; lra).
    assert (Hn0 : 0 < vnorm w) by (apply sqrt_lt_R0; auto).
    set (f := vdot w x + 1).
    assert (ES : Rabs (signed_distance w x) * Rabs (signed_distance w x) = f * f / vdot w w).
    { rewrite <- Rabs_mult, Rabs_pos_eq by apply Rle_0_sqr. unfold signed_distance. fold f. rewrite <- Hn. field. lra. }
    split; [apply Rabs_pos|]. rewrite ES. split.
    - exists (vsub x (vscale (f / vdot w w) w)). unfold in_plane. split.
      + replace (vdot w (vsub x (vscale (f / vdot w w) w))) with (vdot w x - f / vdot w w * vdot w w).
        * unfold f. field. lra.
        * generalize (f / vdot w w). intros k. vb. ring.
      + replace (squared_distance x (vsub x (vscale (f / vdot w w) w))) with (f / vdot w w * (f / vdot w w) * vdot w w).
        * field. lra.
        * generalize (f / vdot w w). intros k. vb. ring.
    - intros q Hq. unfold in_plane in Hq.
      assert (Ef : f = vdot w (vsub x q)) by (unfold f; replace (vdot w (vsub x q)) with (vdot w x - vdot w q) by (vb; ring); lra).
      apply Rmult_le_reg_r with (vdot w w); auto. unfold Rdiv. rewrite Rmult_assoc, Rinv_l, Rmult_1_r by lra.
      rewrite Ef. unfold squared_distance. generalize (vsub x q). intros [a b c]. destruct w as [n1 n2 n3]. vb.
      pose proof (Rle_0_sqr (n1 * b - n2 * a)). pose proof (Rle_0_sqr (n1 * c - n3 * a)). pose proof (Rle_0_sqr (n2 * c - n3 * b)).
      unfold Rsqr in *. lra. }
  split.
  - intros H x e Hx He. specialize (H x Hx). apply negb_true_iff in H. rewrite <- (Hd x e He).
    unfold Rltb in H. destruct (Rlt_dec (2 / 10) (Rabs (signed_distance w x))); [discriminate|lra].
  - intros H x Hx. apply negb_true_iff. apply lt_false. apply (H x); auto.
Qed.
(** Filter keeps the values whose flags are set, in their order; other lengths are an
    assertion failure. *)
Theorem C96_filter {T : Type} (flags : list bool) (values : list T) :
  (length flags <> length values -> filter_by flags values = AssertFail) /\
  (length flags = length values -> exists kept, filter_by flags values = Ok kept /\
     length kept = length (filter (fun b => b) flags) /\
     forall i v, nth_error values i = Some v -> nth_error flags i = Some true ->
       nth_error kept (length (filter (fun b => b) (firstn i flags))) = Some v).
Proof.
  unfold filter_by. split; intros HL.
  - apply Nat.eqb_neq in HL. rewrite HL. reflexivity.
  - rewrite HL, Nat.eqb_refl. cbn [assert_]. eexists. split; [reflexivity|].
    revert values HL. induction flags as [|b flags IH]; intros [|x values] HL; try discriminate.
    + split; [reflexivity|]. intros [|i] v H; discriminate.
    + destruct (IH values) as [I1 I2]; [auto|]. split.
      * cbn [combine filter fst]. destruct b; cbn [map length]; auto.
      * intros [|i] v Hv Hf; cbn in Hv, Hf.
        -- injection Hv as <-. injection Hf as ->. reflexivity.
        -- cbn [firstn combine filter fst]. destruct b; cbn [map length nth_error snd]; apply I2; auto.
Qed.
Print Assumptions C96_reliable.
Print Assumptions C96_along_plane.
Print Assumptions C96_filter.
Example ex_C96 : principal_is_reliable (7, 1, 2) = true /\ principal_is_reliable (5, 1, 2) = false /\
  points_along_plane [V3 9 8 1; V3 4 4 (11 / 10)] (V3 0 0 (-1)) = true /\
  filter_by [true; false; true] [4; 5; 6]%nat = Ok [4; 6]%nat.
Proof.
  assert (P : Permutation.Permutation [7; 1; 2] [1; 2; 7]).
  { apply (Permutation.Permutation_cons_append [1; 2] 7). }
  assert (P2 : Permutation.Permutation [5; 1; 2] [1; 2; 5]).
  { apply (Permutation.Permutation_cons_append [1; 2] 5). }
  split; [apply (C96_reliable _ _ _ _ _ _ P); lra|]. split.
  { apply not_true_is_false. intros H. apply (C96_reliable _ _ _ _ _ _ P2) in H; lra. }
  split; [|reflexivity].
  assert (N : vnorm (V3 0 0 (-1)) = 1).
  { unfold vnorm. vb. replace (0 * 0 + 0 * 0 + -1 * -1) with 1 by ring. apply sqrt_1. }
  unfold points_along_plane. cbn [forallb]. unfold signed_distance. rewrite N. vb.
  rewrite !lt_false; [reflexivity| |]; apply Rabs_le; lra.
Qed.
