(** Properties C115 and C116: the order of the features of a scan and of the points of the maps
    does not matter to the lidar localizer; real arithmetic. *)
From Coq Require Import List Reals ZArith Bool Lra Lia Permutation.
From Verif Require Prop_Optimizer.
From Verif Require Import Base Arith Spec LibModel SpecLib LocModel PoseModel OptModel ProblemModel LocNodeModel
  SpecOpt SpecPose SpecFit SpecLocOrigin SpecShuffle FitProofs LocOriginProofs ShuffleProofs LeastSquares Prop_Fit WitnessProofs LibProofs Prop_LocOrigin.
Import ListNotations.
Open Scope R_scope.

(** ** C115 The node does the same and ends with the same published poses, for any maps, search
    and solvers. *)
Theorem C115_feature_order A principal qr find downsample eig llt sel edge_map surface_map max_iter h h' :
  valid_nth exact sel -> reduces_alike downsample -> Forall2 same_callback h h' ->
  localization_node A principal qr find downsample eig llt sel edge_map surface_map max_iter h
  = localization_node A principal qr find downsample eig llt sel edge_map surface_map max_iter h'.
Proof. apply run_shuffled. Qed.
(** The whole result of one scan: pose, message, number of iterations, errors, success. *)
Theorem C115_one_scan principal qr find downsample eig llt sel edge_map surface_map max_iter s s' T :
  valid_nth exact sel -> reduces_alike downsample -> same_scan s s' ->
  localizer_result principal qr find downsample eig llt sel edge_map surface_map max_iter s T
  = localizer_result principal qr find downsample eig llt sel edge_map surface_map max_iter s' T.
Proof. apply localizer_shuffled. Qed.

(** ** C116 If a map has at least as many points as are searched for, and no two of them are
    equally far from the query, the search finds the same points whatever their order. *)
Theorem C116_same_neighbors_partial find m m' q :
  finds_nearest find -> Permutation m m' -> (n_neighbors <= length m)%nat -> untied q m ->
  exists X X', nearest_k_search vec find m q n_neighbors = Ok X /\ nearest_k_search vec find m' q n_neighbors = Ok X' /\ Permutation X X'.
Proof. intros. apply nearest_perm; auto. unfold n_neighbors in *. lia. Qed.
(** If the search finds the same points in both orders, and the planes fitted to the
    neighbourhoods in the surface map are determined, the node does the same.  Missing: maps
    with fewer points than are searched for, see below. *)
Theorem C116_map_order_partial A principal qr find downsample eig llt sel edge_map edge_map' surface_map surface_map' max_iter h :
  (forall X, solves_least_squares qr X (repeat (-1) (length X))) ->
  found_alike find edge_map edge_map' n_neighbors -> found_alike find surface_map surface_map' n_neighbors ->
  (forall stamp scan, In (EvScan stamp scan) h -> downsample (snd scan) = [] \/ determined find surface_map n_neighbors) ->
  localization_node A principal qr find downsample eig llt sel edge_map surface_map max_iter h
  = localization_node A principal qr find downsample eig llt sel edge_map' surface_map' max_iter h.
Proof. apply run_map_order. Qed.

(** * With fewer points than are searched for the first point of the map counts several times *)
Definition tent : list vec := [V3 0 0 1; V3 0 0 2; V3 1 0 1; V3 (-1) 0 1; V3 0 1 1; V3 0 (-1) 1].
Definition tent' : list vec := [V3 0 0 2; V3 0 0 1; V3 1 0 1; V3 (-1) 0 1; V3 0 1 1; V3 0 (-1) 1].
Lemma found_few find (m : list vec) q : length m = 6%nat -> Permutation (find m q n_neighbors) (seq 0 6) ->
  get_rows vec m (seq 0 6 ++ repeat 0%nat 9) = Ok (m ++ repeat (nth 0 m origin) 9) ->
  exists X, nearest_k_search vec find m q n_neighbors = Ok X /\ Permutation (m ++ repeat (nth 0 m origin) 9) X.
Proof.
  intros L P E. unfold nearest_k_search, n_neighbors in *.
  pose proof (Permutation_length P) as PL. rewrite seq_length in PL. rewrite PL. change (15 - 6)%nat with 9%nat.
  rewrite firstn_all2 by (rewrite app_length, PL, repeat_length; lia).
  unfold get_rows in *. eapply perm_mapM; [|exact E]. apply Permutation_app_tail. apply Permutation_sym. auto.
Qed.
Lemma tent_result principal qr find downsample eig llt sel m z w p :
  (forall X, solves_least_squares qr X (repeat (-1) (length X))) -> valid_nth exact sel ->
  (forall q, downsample [q] = [q]) -> (forall q, Permutation (find m q n_neighbors) (seq 0 6)) -> length m = 6%nat ->
  get_rows vec m (seq 0 6 ++ repeat 0%nat 9) = Ok (m ++ repeat (nth 0 m origin) 9) ->
  independent (m ++ repeat (nth 0 m origin) 9) ->
  (forall f, sum_over f (m ++ repeat (nth 0 m origin) 9) = sum_over f tent + 9 * f (nth 0 m origin)) ->
  vx (nth 0 m origin) = 0 -> vy (nth 0 m origin) = 0 ->
  (9 + 9 * (vz (nth 0 m origin) * vz (nth 0 m origin))) * z = - (7 + 9 * vz (nth 0 m origin)) -> 0 < w -> z * z = w * w ->
  Rabs ((z * p + 1) / w) <= 1 ->
  exists r, localizer_result principal qr find downsample eig llt sel [] m 1 ([], [V3 0 0 p]) home = Ok r /\ r_error r = ((z * p + 1) / w) * ((z * p + 1) / w) :> R.
Proof.
  intros HQ HN HD HF L HG HI HS X0 Y0 Hz Hw Hzw He.
  assert (HR : is_rotation (lin home)) by apply home_rotation.
  destruct (found_few find m (transform home (V3 0 0 p)) L (HF _) HG) as [X [EX PX]].
  set (o := nth 0 m origin) in *.
  assert (EP : estimate_plane qr X = V3 0 0 z).
  { apply (fitted qr X (m ++ repeat o 9) z); auto; rewrite !HS; rewrite ?X0, ?Y0; unfold tent, sum_over; cbn [map fold_right vx vy vz]; try lra. }
  assert (TP : transform home (V3 0 0 p) = V3 0 0 p).
  { unfold home, transform, mapply, id3, vadd. cbn [lin tra vx vy vz m00 m01 m02 m10 m11 m12 m20 m21 m22]. f_equal; ring. }
  set (e := (z * p + 1) / w) in *.
  assert (NW : vnorm (V3 0 0 z) = w).
  { unfold vnorm, vdot. cbn [vx vy vz]. replace (0 * 0 + 0 * 0 + z * z) with (w * w) by lra. apply sqrt_square. lra. }
  unfold localizer_result.
  assert (EPr : exists row, loam_problem principal qr find downsample [] m n_neighbors ([], [V3 0 0 p]) home = Ok ([[row]], [[e]]) /\ length row = 7%nat).
  { unfold loam_problem. cbn [fst snd mapM bind]. rewrite HD. cbn [mapM]. unfold surface_term, plane_fit. rewrite EX. cbn [bind map app fst snd].
    rewrite EP, TP. unfold surface_jacobian, signed_distance. rewrite NW. unfold vdot. cbn [vx vy vz].
    eexists. split; [|].
    - do 4 f_equal. unfold e. f_equal. f_equal. ring.
    - reflexivity. }
  destruct EPr as [row [EPr HL]].
  apply (one_iteration eig llt sel _ home row e HN HR EPr HL).
  assert (S : e * e = Rabs e * Rabs e) by (rewrite <- Rabs_mult; symmetry; apply Rabs_right; apply Rle_ge, Rle_0_sqr).
  rewrite S. pose proof (Rabs_pos e). nra.
Qed.
Lemma tent_independent Y : incl tent Y -> independent Y.
Proof.
  intros HI [a b c] H.
  assert (H1 : vdot (V3 a b c) (V3 0 0 1) = 0) by (apply H, HI; cbn; tauto). assert (H2 : vdot (V3 a b c) (V3 1 0 1) = 0) by (apply H, HI; cbn; tauto). assert (H3 : vdot (V3 a b c) (V3 0 1 1) = 0) by (apply H, HI; cbn; tauto).
  unfold vdot in *. cbn [vx vy vz] in *. assert (c = 0) by lra. subst c. unfold origin. f_equal; lra.
Qed.
(** Two points of the map exchanged: the same scan, seen from the same place, has error 0 with
    one order and (27/40)^2 with the other. *)
Theorem C116_map_order_refuted principal qr find downsample eig llt sel :
  (forall X, solves_least_squares qr X (repeat (-1) (length X))) -> valid_nth exact sel ->
  (forall q, downsample [q] = [q]) -> finds_nearest find ->
  exists surface_map surface_map' scan T r r', Permutation surface_map surface_map' /\
    localizer_result principal qr find downsample eig llt sel [] surface_map 1 scan T = Ok r /\
    localizer_result principal qr find downsample eig llt sel [] surface_map' 1 scan T = Ok r' /\
    r_error r = 0 :> R /\ r_error r' = (27 / 40) * (27 / 40) :> R.
Proof.
  intros HQ HN HD HF.
  assert (ALL : forall m q, length m = 6%nat -> Permutation (find m q n_neighbors) (seq 0 6)).
  { intros m q L. destruct (HF m q n_neighbors) as (ND & Lf & B & _). rewrite L in *. change (Nat.min n_neighbors 6) with 6%nat in Lf.
    apply NoDup_Permutation_bis; auto; [rewrite seq_length; lia|]. intros i Hi. apply in_seq. specialize (B i Hi). lia. }
  exists tent, tent', ([], [V3 0 0 (9 / 8)]), home.
  destruct (tent_result principal qr find downsample eig llt sel tent (- (8 / 9)) (8 / 9) (9 / 8)) as [r [E R0]]; auto; try reflexivity;
    try (cbn [nth tent vz]; lra); try (rewrite Rabs_right; lra).
  { apply tent_independent. apply incl_appl, incl_refl. }
  { intros f. unfold sum_over, tent. cbn [app repeat nth map fold_right]. lra. }
  destruct (tent_result principal qr find downsample eig llt sel tent' (- (5 / 9)) (5 / 9) (9 / 8)) as [r' [E' R1]]; auto; try reflexivity;
    try (cbn [nth tent' vz]; lra); try (rewrite Rabs_right; lra).
  { apply tent_independent. intros x Hx. apply in_or_app. left. unfold tent, tent' in *. cbn in *. tauto. }
  { intros f. unfold sum_over, tent, tent'. cbn [app repeat nth map fold_right]. lra. }
  exists r, r'. split; [apply perm_swap|]. split; [exact E|]. split; [exact E'|]. split; [rewrite R0|rewrite R1]; field.
Qed.
Print Assumptions C115_feature_order.
Print Assumptions C115_one_scan.
Print Assumptions C116_same_neighbors_partial.
Print Assumptions C116_map_order_partial.
Print Assumptions C116_map_order_refuted.

(** * The hypotheses can be met *)
Lemma home_transform p : transform home p = p.
Proof. unfold home, transform, mapply, id3, vadd. destruct p as [a b c]. cbn [lin tra vx vy vz m00 m01 m02 m10 m11 m12 m20 m21 m22]. f_equal; ring. Qed.
Lemma calc_defined eig llt q (w : list R) (Js : list mat) rs : well_shaped Js rs -> length w = length rs -> exists u, calc_update eig llt q w Js rs = Ok u.
Proof.
  intros HW Hl. destruct (well_shaped_checks _ _ HW) as [H1 [H2 H3]].
  unfold calc_update, weighted_update. rewrite Hl, H1, Nat.eqb_refl, H2, H3. cbn [assert_]. destruct (is_degenerate _ _ _); cbn [bind]; eexists; reflexivity.
Qed.
(** Two edge features on and beside a pole, in both orders; a solver that never reports a
    degenerate problem. *)
Example ex_C115 principal llt : let s := ([V3 9 0 1; V3 3 5 1], []) in let s' := ([V3 3 5 1; V3 9 0 1], []) in
  valid_nth exact sel_sort /\ reduces_alike (fun l => l) /\
  Forall2 same_callback [EvPrior 0 home; EvScan 0 s] [EvPrior 0 home; EvScan 0 s'] /\
  exists r, localizer_result principal cramer Prop_Optimizer.first_neighbors (fun l => l) (fun _ _ => [1]) llt sel_sort pole [] 1 s home = Ok r.
Proof.
  intros s s'. split; [apply sel_sort_valid|]. split; [intros l l' P; exact P|]. split.
  - constructor; [constructor|]. constructor; [|constructor]. constructor. split; [apply perm_swap|constructor].
  - unfold localizer_result, optimize, opt_run.
    pose proof (make_of_pose home home_rotation) as MP. destruct (of_pose home) as [q t]. cbn [fst snd] in MP.
    change (Z.to_nat 1) with 1%nat. change (1 <? 0)%Z with false. cbn [opt_loop]. rewrite MP.
    unfold loam_problem, s. cbn [fst snd mapM]. unfold edge_term, edge_fit. rewrite !home_transform. change n_neighbors with 15%nat. rewrite !pole_found. cbn [bind].
    destruct (mean_cov_ok pole_neighbors) as [m [C HM]]; [discriminate|]. rewrite HM. cbn [bind fst snd map app].
    unfold normalize_error_scale. rewrite scale_defined; [|apply sel_sort_valid|discriminate]. cbn [bind].
    destruct (d_ltb exact dbl_max _); [eexists; reflexivity|]. destruct (d_ltb exact dbl_max _); [eexists; reflexivity|].
    match goal with |- context [calc_update ?e ?l ?q ?w ?J ?r] => destruct (calc_defined e l q w J r) as [[dq dt] E]; [repeat constructor|reflexivity|] end.
    destruct (calc_update _ _ _ _ _ _) as [[dq' dt']| | | | |]; try discriminate E. cbn [bind].
    destruct (check_convergence _ _); cbn [bind]; eexists; reflexivity.
Qed.
(** A map of fifteen points and its reverse, searched by comparing all distances; the solver by
    Cramer's rule; a query that is not equally far from any two points. *)
Example ex_C116 : finds_nearest brute_force /\ (forall X, solves_least_squares cramer X (repeat (-1) (length X))) /\
  found_alike brute_force storeys (rev storeys) n_neighbors /\ determined brute_force storeys n_neighbors /\
  untied (V3 0 0 7) (map (fun k => V3 (INR k) 0 7) (seq 1 20)) /\ (n_neighbors <= length (map (fun k => V3 (INR k) 0 7) (seq 1 20)))%nat.
Proof.
  assert (ALL : forall m q, length m = 15%nat -> exists X, nearest_k_search vec brute_force m q n_neighbors = Ok X /\ Permutation m X).
  { intros m q L. destruct (search_result brute_force m q n_neighbors brute_force_nearest) as (X & E & F); [unfold n_neighbors; lia|].
    exists X. split; auto. destruct (brute_force_nearest m q n_neighbors) as (ND & Lf & B & _). rewrite L in *. change (Nat.min n_neighbors 15) with 15%nat in Lf.
    assert (P : Permutation (seq 0 15) (brute_force m q n_neighbors)).
    { apply Permutation_sym, NoDup_Permutation_bis; auto; [rewrite seq_length; lia|]. intros i Hi. apply in_seq. specialize (B i Hi). lia. }
    assert (G : get_rows vec m (seq 0 15) = Ok m).
    { clear - L. do 15 (destruct m as [|? m]; [discriminate L|]). destruct m; [reflexivity|discriminate L]. }
    destruct (perm_mapM _ _ _ P _ G) as (X' & E' & P'). unfold nearest_k_search in E. change n_neighbors with (S 14) in E. cbv iota in E. change (S 14) with n_neighbors in E.
    rewrite Lf in E. change (n_neighbors - 15)%nat with 0%nat in E. cbn [repeat] in E. rewrite app_nil_r, firstn_all2 in E by (rewrite Lf; unfold n_neighbors; lia).
    unfold get_rows in E. rewrite E' in E. injection E as <-. auto. }
  split; [exact brute_force_nearest|]. split; [exact cramer_least_squares|]. split; [|split; [|split]].
  - intros q. left. destruct (ALL storeys q eq_refl) as (X & E & P). destruct (ALL (rev storeys) q eq_refl) as (X' & E' & P').
    exists X, X'. split; auto. split; auto. eapply perm_trans; [apply Permutation_sym; exact P|]. eapply perm_trans; [apply Permutation_rev|exact P'].
  - intros q X E. destruct (ALL storeys q eq_refl) as (X' & E' & P). rewrite E in E'. injection E' as <-.
    assert (I : independent storeys).
    { replace storeys with (map (moved_point (V3 0 0 0)) storeys); [apply storeys_independent; lra|].
      unfold storeys, moved_point, vadd. cbn [map vx vy vz]. repeat (apply CE; [f_equal; ring|]). reflexivity. }
    intros w Hw. apply I. intros x Hx. apply Hw. eapply Permutation_in; eauto.
  - intros i j x y N Ei Ej E. rewrite nth_error_map in Ei, Ej. 
    destruct (nth_error (seq 1 20) i) as [a|] eqn:Ea; [|discriminate Ei]. destruct (nth_error (seq 1 20) j) as [b|] eqn:Eb; [|discriminate Ej].
    injection Ei as <-. injection Ej as <-. unfold squared_distance, vdot, vsub in E. cbn [vx vy vz] in E.
    pose proof (pos_INR a). pose proof (pos_INR b). assert (INR a = INR b) by nra. apply INR_eq in H1. subst b. apply N.
    apply (proj1 (NoDup_nth_error (seq 1 20)) (seq_NoDup 20 1)); [apply nth_error_Some; rewrite Ea; discriminate|congruence].
  - rewrite map_length, seq_length. unfold n_neighbors. lia.
Qed.
