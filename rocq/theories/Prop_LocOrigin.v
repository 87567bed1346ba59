(** C111: the origin of the map and the lidar localizer. *)
From Coq Require Import List Reals ZArith Bool Lra Lia Permutation.
From Verif Require Prop_Optimizer.
From Verif Require Import Base Arith Spec LibModel SpecLib LocModel PoseModel OptModel ProblemModel LocNodeModel
  SpecPose SpecFit SpecLocOrigin FitProofs LocOriginProofs LeastSquares Prop_Fit WitnessProofs LibProofs.
Import ListNotations.
Open Scope R_scope.

(** ** C111 If both maps and all priors are told with another origin, the node publishes the
    same poses, told with that origin.  This holds for every edge map, and for surface maps
    in which every neighbourhood lies in one plane that contains neither origin. *)
Theorem C111_origin_of_the_map_partial A principal qr find downsample eig llt sel d edge_map surface_map max_iter h :
  searches_alike d find -> (forall X, solves_least_squares qr X (repeat (-1) (length X))) ->
  (forall stamp scan, In (EvScan stamp scan) h -> downsample (snd scan) = [] \/ flat d find surface_map n_neighbors) ->
  (n <- localization_node A principal qr find downsample eig llt sel
          (map (moved_point d) edge_map) (map (moved_point d) surface_map) max_iter (map (moved_event d) h) ;; Ok (outs n))
  = (n <- localization_node A principal qr find downsample eig llt sel edge_map surface_map max_iter h ;;
     Ok (map (moved_message d) (outs n))).
Proof.
  intros HS HQ HF. unfold localization_node.
  change (map (moved_event d) h) with (map (ren_event pose (list vec * list vec) (moved_pose d)) h).
  rewrite (run_map A pose (list vec * list vec) (moved_pose d) (localize principal qr find downsample eig llt sel edge_map surface_map max_iter)
             _ (fun scan => downsample (snd scan) = [] \/ flat d find surface_map n_neighbors)); auto.
  - unfold omap. destruct (node_run A pose (list vec * list vec) _ h); reflexivity.
  - intros scan p G. apply localize_moved; auto.
Qed.
(** The whole result of one scan: the same message, number of iterations and errors. *)
Theorem C111_one_scan_partial principal qr find downsample eig llt sel d edge_map surface_map max_iter scan T :
  searches_alike d find -> (forall X, solves_least_squares qr X (repeat (-1) (length X))) ->
  downsample (snd scan) = [] \/ flat d find surface_map n_neighbors ->
  forall r, localizer_result principal qr find downsample eig llt sel edge_map surface_map max_iter scan T = Ok r ->
  exists r', localizer_result principal qr find downsample eig llt sel
      (map (moved_point d) edge_map) (map (moved_point d) surface_map) max_iter scan (moved_pose d T) = Ok r' /\
    r_pose r' = moved_pose d (r_pose r) /\ r_message r' = r_message r /\ r_iteration r' = r_iteration r /\
    r_error r' = r_error r /\ r_error_scale r' = r_error_scale r /\ r_success r' = r_success r.
Proof.
  intros HS HQ HF r E.
  pose proof (localizer_moved d find HS principal qr HQ downsample eig llt sel edge_map surface_map max_iter scan T HF) as L.
  rewrite E in L. unfold same in L.
  destruct (localizer_result _ _ _ _ _ _ _ (map (moved_point d) edge_map) _ _ _ _) as [r'| | | | |]; try contradiction.
  exists r'. split; [reflexivity|exact L].
Qed.

(** * The general statement is false: two storeys of a map, at heights 1 and 3 *)
Definition storeys : list vec :=
  [V3 1 0 1; V3 (-1) 0 1; V3 0 1 1; V3 0 (-1) 1; V3 2 0 1; V3 (-2) 0 1; V3 0 2 1; V3 0 (-2) 1;
   V3 1 1 3; V3 1 (-1) 3; V3 (-1) 1 3; V3 (-1) (-1) 3; V3 0 0 3; V3 3 0 3; V3 (-3) 0 3].

Lemma so_perm f X Y : Permutation X Y -> sum_over f X = sum_over f Y.
Proof. unfold sum_over. induction 1; cbn [map fold_right]; lra. Qed.
Lemma perm_mapM {X Y} (f : X -> outcome Y) l l' : Permutation l l' -> forall v, mapM f l = Ok v -> exists v', mapM f l' = Ok v' /\ Permutation v v'.
Proof.
  induction 1; intros v E.
  - exists v. auto.
  - cbn [mapM] in *. destruct (f x); try discriminate. cbn [bind] in *. destruct (mapM f l) eqn:E1; try discriminate. cbn in E. injection E as <-.
    destruct (IHPermutation _ eq_refl) as [v' [-> P]]. cbn. eexists. split; [reflexivity|]. constructor. auto.
  - cbn [mapM] in *. destruct (f x); try (destruct (f y); discriminate). destruct (f y); try discriminate. cbn [bind] in *.
    destruct (mapM f l); try discriminate. cbn in *. injection E as <-. eexists. split; [reflexivity|]. constructor.
  - destruct (IHPermutation1 _ E) as [v' [E' P]]. destruct (IHPermutation2 _ E') as [v2 [E2 P2]].
    exists v2. split; auto. eapply perm_trans; eauto.
Qed.
Lemma found_all find (m : list vec) q : length m = 15%nat -> Permutation (find m q (length m)) (seq 0 (length m)) ->
  (exists v, get_rows vec m (seq 0 15) = Ok v /\ v = m) -> exists X, nearest_k_search vec find m q n_neighbors = Ok X /\ Permutation m X.
Proof.
  intros L P [v [E ->]]. unfold nearest_k_search, n_neighbors. rewrite L in P.
  pose proof (Permutation_length P) as PL. rewrite seq_length in PL.
  rewrite PL. cbn [Nat.sub repeat]. rewrite app_nil_r. change 15%nat with (0 + 15)%nat at 1. rewrite firstn_all2 by (rewrite PL; lia).
  unfold get_rows in *. apply (perm_mapM _ (seq 0 15)); auto. apply Permutation_sym. auto.
Qed.
(** The plane fitted to points whose moments are those of points around the vertical axis. *)
Lemma fitted qr X Y z : (forall X, solves_least_squares qr X (repeat (-1) (length X))) -> Permutation Y X -> independent Y ->
  sum_over vx Y = 0 -> sum_over vy Y = 0 -> sum_over (fun x => vx x * vz x) Y = 0 -> sum_over (fun x => vy x * vz x) Y = 0 ->
  sum_over (fun x => vz x * vz x) Y * z = - sum_over vz Y -> estimate_plane qr X = V3 0 0 z.
Proof.
  intros HQ P HI H1 H2 H3 H4 H5. unfold estimate_plane.
  assert (HX : independent X).
  { intros w Hw. apply HI. intros x Hx. apply Hw. eapply Permutation_in; eauto. }
  apply (normal_unique X (V3 0 0 z)); auto; try (apply HQ; auto); cbn [vx vy vz]; rewrite <- !(so_perm _ _ _ P).
  - rewrite H3, H1. ring.
  - rewrite H4, H2. ring.
  - rewrite <- H5. ring.
Qed.


Lemma one_iteration eig llt sel P T (row : list R) (e : R) : valid_nth exact sel -> is_rotation (lin T) ->
  P T = Ok ([[row]], [[e]]) -> length row = 7%nat -> e * e <= 1 ->
  exists res, optimize eig llt sel P 1 T = Ok res /\ r_error res = e * e :> R.
Proof.
  intros HN HR HP HL He. unfold optimize, opt_run.
  pose proof (make_of_pose T HR) as MP. destruct (of_pose T) as [q t]. cbn [fst snd] in MP.
  change (Z.to_nat 1) with 1%nat. change (1 <? 0)%Z with false. cbn [opt_loop]. rewrite MP, HP. cbn [bind].
  unfold normalize_error_scale. cbn [compute_errors map]. rewrite scale1 by exact HN. cbn [bind].
  assert (E1 : rdot [e] = e * e) by (unfold rdot; cbn [map fold_right]; ring). rewrite E1.
  assert (ES : forall x, sum_errors exact (@cons (D exact) x nil) = x) by (intros x; apply Rplus_0_l). rewrite ES.
  pose proof dbl_max_big as B.
  change (d_ltb exact dbl_max (e * e)) with (Rltb dbl_max (e * e)). rewrite (lt_false dbl_max (e * e)) by lra.
  change (d_ltb exact dbl_max 0) with (Rltb dbl_max 0). rewrite (lt_false dbl_max 0) by lra.
  cbn [compute_weights map]. unfold calc_update, weighted_update. cbn [length Nat.eqb assert_ forallb combine fst snd andb].
  rewrite HL. cbn [Nat.eqb assert_ forallb andb].
  destruct (is_degenerate _ _ _); cbn [bind].
  - destruct (check_convergence _ _); cbn [bind]; eexists; split; try reflexivity.
  - destruct (check_convergence _ _); cbn [bind]; eexists; split; try reflexivity.
Qed.

Definition home : pose := Iso id3 (V3 0 0 0).
Lemma home_rotation : is_rotation (lin home).
Proof. unfold is_rotation, home, id3, mmul3, transpose3, det3. cbn. split; [f_equal; ring|ring]. Qed.
Lemma storeys_independent h : h <> -2 -> independent (map (moved_point (V3 0 0 h)) storeys).
Proof.
  intros Hh [a b c] H.
  pose proof (H (moved_point (V3 0 0 h) (V3 1 0 1)) (or_introl eq_refl)) as H1.
  pose proof (H (moved_point (V3 0 0 h) (V3 (-1) 0 1)) (or_intror (or_introl eq_refl))) as H2.
  pose proof (H (moved_point (V3 0 0 h) (V3 0 1 1)) (or_intror (or_intror (or_introl eq_refl)))) as H3.
  pose proof (H (moved_point (V3 0 0 h) (V3 0 0 3))) as H4.
  unfold storeys, moved_point, vadd, vdot in *. cbn [map vx vy vz In] in *.
  assert (H5 : a * (0 + 0) + b * (0 + 0) + c * (3 + h) = 0) by (apply H4; tauto).
  assert (C : c = 0) by lra. subst c. unfold SpecFit.origin. f_equal; lra.
Qed.
Lemma storeys_result principal qr find downsample eig llt sel h z w p :
  (forall X, solves_least_squares qr X (repeat (-1) (length X))) -> valid_nth exact sel ->
  (forall q, downsample [q] = [q]) -> (forall m q, Permutation (find m q (length m)) (seq 0 (length m))) -> h <> -2 ->
  (71 + 58 * h + 15 * h * h) * z = - (29 + 15 * h) -> 0 < w -> z * z = w * w ->
  Rabs ((z * (p + h) + 1) / w) <= 1 ->
  exists r, localizer_result principal qr find downsample eig llt sel [] (map (moved_point (V3 0 0 h)) storeys) 1
      ([], [V3 0 0 p]) (moved_pose (V3 0 0 h) home) = Ok r /\ r_error r = ((z * (p + h) + 1) / w) * ((z * (p + h) + 1) / w) :> R.
Proof.
  intros HQ HN HD HF Hh Hz Hw Hzw He.
  set (m := map (moved_point (V3 0 0 h)) storeys). set (T := moved_pose (V3 0 0 h) home).
  assert (HR : is_rotation (lin T)) by apply home_rotation.
  destruct (found_all find m (transform T (V3 0 0 p)) eq_refl (HF _ _)) as [X [EX PX]].
  { eexists. split; [reflexivity|reflexivity]. }
  assert (EP : estimate_plane qr X = V3 0 0 z).
  { apply (fitted qr X m z); auto; [apply storeys_independent; auto|..];
      unfold m, storeys, sum_over, moved_point, vadd; cbn [map fold_right vx vy vz]; lra. }
  assert (TP : transform T (V3 0 0 p) = V3 0 0 (p + h)).
  { unfold T, home, moved_pose, transform, mapply, id3, vadd. cbn [lin tra vx vy vz m00 m01 m02 m10 m11 m12 m20 m21 m22]. f_equal; ring. }
  set (e := (z * (p + h) + 1) / w) in *.
  assert (NW : vnorm (V3 0 0 z) = w).
  { unfold vnorm, vdot. cbn [vx vy vz]. replace (0 * 0 + 0 * 0 + z * z) with (w * w) by lra. apply sqrt_square. lra. }
  unfold localizer_result.
  assert (EPr : exists row, loam_problem principal qr find downsample [] m n_neighbors ([], [V3 0 0 p]) T = Ok ([[row]], [[e]]) /\ length row = 7%nat).
  { unfold loam_problem. cbn [fst snd mapM bind]. rewrite HD. cbn [mapM]. unfold surface_term, plane_fit. rewrite EX. cbn [bind map app fst snd].
    rewrite EP, TP. unfold surface_jacobian, signed_distance. rewrite NW. unfold vdot. cbn [vx vy vz].
    eexists. split; [|].
    - do 4 f_equal. unfold e. f_equal. f_equal. ring.
    - reflexivity. }
  destruct EPr as [row [EPr HL]].
  apply (one_iteration eig llt sel _ T row e HN HR EPr HL).
  assert (S : e * e = Rabs e * Rabs e) by (rewrite <- Rabs_mult; symmetry; apply Rabs_right; apply Rle_ge, Rle_0_sqr).
  rewrite S. pose proof (Rabs_pos e). nra.
Qed.
(** The same scan, seen from the same place of the same map: with the origin of the map one
    metre lower the reported error changes, for every least squares solver, every search that
    returns all points when asked for all, every eigenvalue and linear solver. *)
Theorem C111_origin_of_the_map_refuted principal qr find downsample eig llt sel :
  (forall X, solves_least_squares qr X (repeat (-1) (length X))) -> valid_nth exact sel ->
  (forall q, downsample [q] = [q]) -> (forall m q, Permutation (find m q (length m)) (seq 0 (length m))) ->
  exists d surface_map scan T r r',
    localizer_result principal qr find downsample eig llt sel [] surface_map 1 scan T = Ok r /\
    localizer_result principal qr find downsample eig llt sel [] (map (moved_point d) surface_map) 1 scan (moved_pose d T) = Ok r' /\
    r_error r = 0 :> R /\ r_error r' = (56 / 319) * (56 / 319) :> R.
Proof.
  intros HQ HN HD HF.
  destruct (storeys_result principal qr find downsample eig llt sel 0 (- (29 / 71)) (29 / 71) (71 / 29)) as [r [E R0]]; auto; try lra.
  { rewrite Rabs_right; lra. }
  destruct (storeys_result principal qr find downsample eig llt sel 1 (- (11 / 36)) (11 / 36) (71 / 29)) as [r' [E' R1]]; auto; try lra.
  { rewrite Rabs_left; lra. }
  exists (V3 0 0 1), storeys, ([], [V3 0 0 (71 / 29)]), home, r, r'.
  assert (I1 : map (moved_point (V3 0 0 0)) storeys = storeys).
  { unfold storeys, moved_point, vadd. cbn [map vx vy vz]. repeat (apply CE; [f_equal; ring|]). reflexivity. }
  assert (I2 : moved_pose (V3 0 0 0) home = home).
  { unfold moved_pose, home, vadd. cbn [lin tra vx vy vz]. f_equal. f_equal; ring. }
  rewrite I1, I2 in E. split; [exact E|]. split; [exact E'|]. split; [rewrite R0|rewrite R1]; field.
Qed.
Print Assumptions C111_origin_of_the_map_partial.
Print Assumptions C111_one_scan_partial.
Print Assumptions C111_origin_of_the_map_refuted.

(** The hypotheses can be met: the solver by Cramer's rule, a search that does not look at
    coordinates, a surface map in the plane y + z = 1 and an origin on its other side. *)
Example ex_C111 : let d := V3 5 (-3) 1 in let find := @Prop_Optimizer.first_neighbors vec in
  searches_alike d find /\ (forall X, solves_least_squares cramer X (repeat (-1) (length X))) /\
  flat d find wall n_neighbors /\ valid_nth exact sel_sort /\
  (forall m q, Permutation (find m q (length m)) (seq 0 (length m))) /\
  estimate_plane cramer wall_neighbors = V3 0 (-1) (-1) /\
  estimate_plane cramer (map (moved_point d) wall_neighbors) = V3 0 1 1.
Proof.
  intros d find.
  assert (E1 : 1 + vdot (V3 0 1 1) d = -1) by (unfold d, vdot; cbn; ring).
  split; [intros m q n; unfold find, Prop_Optimizer.first_neighbors; rewrite map_length; reflexivity|].
  split; [exact cramer_least_squares|]. split; [|split; [|split; [|split]]].
  - intros q X E. unfold find in E. change n_neighbors with 15%nat in E. rewrite wall_found in E. injection E as <-.
    split; [exact wall_independent|]. exists (V3 0 1 1), 1. split; [exact wall_in|]. split; lra.
  - apply sel_sort_valid.
  - intros m q. unfold find, Prop_Optimizer.first_neighbors. rewrite Nat.min_id. apply Permutation_refl.
  - rewrite (exact_plane cramer wall_neighbors (V3 0 1 1) 1); [|apply cramer_least_squares|exact wall_independent|lra|exact wall_in].
    apply vec_ext3; unfold vscale; cbn [vx vy vz]; field.
  - rewrite (exact_plane cramer (map (moved_point d) wall_neighbors) (V3 0 1 1) (-1)).
    + apply vec_ext3; unfold vscale; cbn [vx vy vz]; field.
    + apply cramer_least_squares.
    + eapply independent_moved; [exact wall_independent|exact wall_in|lra|lra].
    + lra.
    + intros y Hy. apply in_map_iff in Hy. destruct Hy as [x [<- Hx]]. apply wall_in in Hx. unfold in_plane in *.
      unfold d, moved_point, vdot, vadd in *. cbn [vx vy vz] in *. lra.
Qed.
(** A history with one prior and one scan without features. *)
Example ex_C111_run principal eig llt : let d := V3 5 (-3) 1 in
  exists n n', localization_node exact principal cramer Prop_Optimizer.first_neighbors (fun l => l) eig llt sel_sort [] wall 10
      [EvPrior 0 home; EvScan 0 ([], [])] = Ok n /\
    localization_node exact principal cramer Prop_Optimizer.first_neighbors (fun l => l) eig llt sel_sort [] (map (moved_point d) wall) 10
      (map (moved_event d) [EvPrior 0 home; EvScan 0 ([], [])]) = Ok n' /\
    outs n = [{| pub_stamp := 0; pub_pose := home; tf_stamp := 0; tf_pose := home |}] /\
    map (fun m => tra (pub_pose m)) (outs n') = [V3 5 (-3) 1].
Proof.
  intros d.
  pose proof (C111_origin_of_the_map_partial exact principal cramer Prop_Optimizer.first_neighbors (fun l => l) eig llt sel_sort d [] wall 10
    [EvPrior 0 home; EvScan 0 ([], [])]) as C.
  assert (E : localization_node exact principal cramer Prop_Optimizer.first_neighbors (fun l => l) eig llt sel_sort [] wall 10
      [EvPrior 0 home; EvScan 0 ([], [])] = Ok (@Build_node exact pose [(0, home)] [{| pub_stamp := 0; pub_pose := home; tf_stamp := 0; tf_pose := home |}])).
  { unfold localization_node, node_run. cbn [foldM node_step on_prior priors outs bind st_insert]. unfold on_scan. cbn [priors].
    assert (L0 : d_ltb exact (d_of_Z exact 0) (d_of_Z exact 0) = false) by (apply lt_false; cbn; lra).
    assert (L1 : d_ltb exact (d_add exact (d_of_Z exact 0) (d_of_Z exact 1000000000)) (d_of_Z exact 0) = false) by (apply lt_false; cbn; lra).
    unfold on_prior, nanoseconds, st_get_closest, st_remove_older_than. cbn [priors outs st_insert st_lower_bound st_upper_bound]. rewrite L0, L1.
    cbn [bind snd]. unfold localize, localizer_result, optimize, opt_run.
    pose proof (make_of_pose home home_rotation) as MP. destruct (of_pose home) as [q t]. cbn [fst snd] in MP.
    change (Z.to_nat 10) with (S 9). change (10 <? 0)%Z with false. cbn [opt_loop]. rewrite MP. reflexivity. }
  destruct ex_C111 as [H1 [H2 [H3 _]]]. specialize (C H1 H2 (fun _ _ _ => or_intror H3)). rewrite E in C. cbn [bind outs] in C. cbn [map] in *.
  destruct (localization_node exact principal cramer Prop_Optimizer.first_neighbors (fun l => l) eig llt sel_sort [] _ 10 [_; _]) as [n'| | | | |];
    cbn [bind] in C; try discriminate C.
  eexists. exists n'. split; [exact E|]. split; [reflexivity|]. split; [reflexivity|]. injection C as ->. cbn [map moved_message pub_pose moved_pose tra home].
  apply CE; [|reflexivity]. apply vec_ext3; unfold vadd, d; cbn [vx vy vz]; ring.
Qed.
