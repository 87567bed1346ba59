(** The order of the features of a scan and of the points of the maps. *)
From Coq Require Import List Reals ZArith Bool Lra Lia Permutation FunctionalExtensionality Sorting Classical_Prop Classical_Pred_Type.
From Verif Require Import Base Arith AngleProofs Spec LibModel SpecLib LibProofs LocModel PoseModel OptModel ProblemModel LocNodeModel
  SpecPose SpecFit SpecShuffle FitProofs LocOriginProofs LeastSquares.
Import ListNotations.
Open Scope R_scope.

Lemma sum_perm {X} (f : X -> R) l l' : Permutation l l' -> fold_right Rplus 0 (map f l) = fold_right Rplus 0 (map f l').
Proof. induction 1; cbn [map fold_right]; lra. Qed.
Lemma forallb_perm {X} (f : X -> bool) l l' : Permutation l l' -> forallb f l = forallb f l'.
Proof. induction 1; cbn [forallb]; auto; try congruence. destruct (f x), (f y); reflexivity. Qed.
Lemma fold_sum l : forall a : R, fold_left Rplus l a = a + fold_right Rplus 0 l.
Proof. induction l as [|x l IH]; intros a; cbn [fold_left fold_right]; [ring|]. rewrite IH. ring. Qed.

(** * Median and scale *)
Lemma med_perm v v' : Permutation v v' -> med v = med v'.
Proof.
  intros P. destruct v as [|x v].
  - apply Permutation_nil in P. subst. reflexivity.
  - rewrite (med_eq (x :: v) (rsort v')).
    + unfold med. rewrite (Permutation_length P). reflexivity.
    + discriminate.
    + eapply perm_trans; [exact P|apply rsort_perm].
    + apply rsort_sorted.
Qed.
Lemma scale_perm sel b (v v' : list R) : valid_nth exact sel -> Permutation v v' -> scale exact sel b v = scale exact sel b v'.
Proof.
  intros H P. unfold scale, mad. destruct v as [|x v].
  - apply Permutation_nil in P. subst. reflexivity.
  - assert (N : v' <> []) by (intros ->; apply Permutation_sym, Permutation_nil in P; discriminate).
    pose proof (median_med sel (x :: v) H ltac:(discriminate)) as M1. pose proof (median_med sel v' H N) as M2.
    rewrite (med_perm _ _ P) in M1. rewrite M1, M2. cbn [bind].
    set (f := fun x0 : D exact => d_abs exact (d_sub exact x0 (med v'))).
    pose proof (Permutation_map f P) as PM.
    assert (N1 : map f (x :: v) <> []) by discriminate.
    assert (N2 : map f v' <> []) by (destruct v'; [congruence|discriminate]).
    rewrite (median_med sel _ H N1), (median_med sel _ H N2), (med_perm _ _ PM). reflexivity.
Qed.

(** * The update *)
Lemma combine_map_lr {X Y Z} (g : X -> Z) (f : X -> Y) l : combine (map g l) (map f l) = map (fun x => (g x, f x)) l.
Proof. induction l as [|y l IH]; cbn; auto. rewrite IH. reflexivity. Qed.
Lemma weighted_perm eigenvalues llt_solve M (g : mat * list R -> R) a b : Permutation a b ->
  weighted_update eigenvalues llt_solve M (map g a) (map fst a) (map snd a) = weighted_update eigenvalues llt_solve M (map g b) (map fst b) (map snd b).
Proof.
  intros H. unfold weighted_update. rewrite !map_length, !combine_parts, (Permutation_length H).
  assert (E1 := forallb_perm (fun J : mat => forallb (fun row => Nat.eqb (length row) 7) J) _ _ (Permutation_map fst H)).
  assert (E2 := forallb_perm (fun Jr : mat * list R => Nat.eqb (length (fst Jr)) (length (snd Jr))) _ _ H).
  assert (ED : (fun i j => fold_right Rplus 0 (map (fun J => jtj J i j) (map fst a)))
             = (fun i j => fold_right Rplus 0 (map (fun J => jtj J i j) (map fst b)))).
  { apply functional_extensionality. intros i. apply functional_extensionality. intros j. apply sum_perm. apply Permutation_map. auto. }
  assert (PW : Permutation (combine (map g a) (map fst a)) (combine (map g b) (map fst b))).
  { rewrite !combine_map_lr. apply Permutation_map. auto. }
  assert (EC : forall l : list (mat * list R), combine (map g l) l = map (fun x => (g x, x)) l).
  { clear. induction l as [|y l IH]; cbn; auto. rewrite IH. reflexivity. }
  assert (PW2 : Permutation (combine (map g a) a) (combine (map g b) b)).
  { rewrite !EC. apply Permutation_map. auto. }
  assert (EMA : (fun k l => sum_n 7 (fun i => sum_n 7 (fun j => M i k * fold_right Rplus 0 (map (fun wJ : R * mat => fst wJ * jtj (snd wJ) i j) (combine (map g a) (map fst a))) * M j l)))
             = (fun k l => sum_n 7 (fun i => sum_n 7 (fun j => M i k * fold_right Rplus 0 (map (fun wJ : R * mat => fst wJ * jtj (snd wJ) i j) (combine (map g b) (map fst b))) * M j l)))).
  { apply functional_extensionality. intros k. apply functional_extensionality. intros l. unfold sum_n. f_equal. apply map_ext. intros i.
    f_equal. apply map_ext. intros j. rewrite (sum_perm _ _ _ PW). reflexivity. }
  assert (EMB : (fun k => sum_n 7 (fun i => M i k * fold_right Rplus 0 (map (fun wJr : R * (mat * list R) => fst wJr * jtr (fst (snd wJr)) (snd (snd wJr)) i) (combine (map g a) a))))
             = (fun k => sum_n 7 (fun i => M i k * fold_right Rplus 0 (map (fun wJr : R * (mat * list R) => fst wJr * jtr (fst (snd wJr)) (snd (snd wJr)) i) (combine (map g b) b))))).
  { apply functional_extensionality. intros k. unfold sum_n. f_equal. apply map_ext. intros i. rewrite (sum_perm _ _ _ PW2). reflexivity. }
  cbv zeta. unfold mat in *. rewrite E1, E2, ED, EMA, EMB. reflexivity.
Qed.

(** * The problem *)
Lemma mapM_perm {X Y} (f : X -> outcome Y) l l' : (forall x, (exists y, f x = Ok y) \/ f x = AssertFail) -> Permutation l l' ->
  same (@Permutation Y) (mapM f l) (mapM f l').
Proof.
  intros HF. induction 1; cbn [mapM].
  - cbn. constructor.
  - destruct (HF x) as [[y ->] | ->]; cbn [bind]; [|cbn; reflexivity].
    eapply same_bind; [exact IHPermutation|]. intros a b _ P. cbn. constructor. auto.
  - destruct (HF x) as [[a ->] | ->], (HF y) as [[b ->] | ->]; cbn [bind]; try (cbn; reflexivity).
    destruct (mapM f l); cbn; auto. constructor.
  - revert IHPermutation1 IHPermutation2. destruct (mapM f l); cbn; intros H1 H2; try (rewrite H1 in H2; exact H2).
    destruct (mapM f l') eqn:E; try contradiction. cbn in H2. destruct (mapM f l''); try contradiction. eapply perm_trans; eauto.
Qed.
Lemma search_fails find m q n : n <> 0%nat -> (exists X, nearest_k_search vec find m q n = Ok X) \/ nearest_k_search vec find m q n = AssertFail.
Proof.
  intros Hn. unfold nearest_k_search. destruct n as [|n]; [congruence|]. unfold get_rows.
  match goal with |- (exists X, mapM ?f ?l = _) \/ _ => generalize l end.
  induction l as [|i l IH]; cbn [mapM]; [left; eauto|].
  destruct (nth_error m i); cbn [bind]; auto. destruct IH as [[X ->] | ->]; cbn [bind]; eauto.
Qed.
Lemma edge_fails principal find m n T p : n <> 0%nat -> (exists y, edge_term principal find m n T p = Ok y) \/ edge_term principal find m n T p = AssertFail.
Proof.
  intros Hn. unfold edge_term, edge_fit. destruct (search_fails find m (transform T p) n Hn) as [[X ->] | ->]; cbn [bind]; auto.
  unfold mean_and_covariance, center. destruct (Nat.eqb (length X) 0); cbn; eauto.
Qed.
Lemma surface_fails qr find m n T p : n <> 0%nat -> (exists y, surface_term qr find m n T p = Ok y) \/ surface_term qr find m n T p = AssertFail.
Proof.
  intros Hn. unfold surface_term, plane_fit. destruct (search_fails find m (transform T p) n Hn) as [[X ->] | ->]; cbn [bind]; eauto.
Qed.
Definition shuffled (a b : list mat * list (list R)) : Prop :=
  exists s t, a = (map fst s, map snd s) /\ b = (map fst t, map snd t) /\ Permutation s t.
Lemma loam_shuffled principal qr find downsample em sm n s s' T : n <> 0%nat -> reduces_alike downsample -> same_scan s s' ->
  same shuffled (loam_problem principal qr find downsample em sm n s T) (loam_problem principal qr find downsample em sm n s' T).
Proof.
  intros Hn HD [HE HS]. unfold loam_problem.
  eapply same_bind; [apply mapM_perm; [intros; apply edge_fails; auto|exact HE]|]. intros E E' _ PE. cbv beta.
  eapply same_bind; [apply mapM_perm; [intros; apply surface_fails; auto|apply HD, HS]|]. intros S S' _ PS. cbn.
  exists (E ++ S), (E' ++ S'). rewrite !map_app. split; [auto|split; [auto|]]. apply Permutation_app; auto.
Qed.

(** * The optimiser *)
Section Opt.
Variable eigenvalues : nat -> (nat -> nat -> R) -> list R.
Variable llt_solve : nat -> (nat -> nat -> R) -> (nat -> R) -> (nat -> R).
Variable sel : selector exact.
Hypothesis Hsel : valid_nth exact sel.
Variable P P' : pose -> outcome (list mat * list (list R)).
Hypothesis HPP : forall T, same shuffled (P T) (P' T).
Notation loop Q := (opt_loop exact quat vec pose mat (list R) Q make_pose rdot (calc_update eigenvalues llt_solve) qmul vadd check_convergence sel
    b_robust k_robust tiny_robust).
Lemma loop_shuffled left : forall iter q t pe ps, loop P left iter q t pe ps = loop P' left iter q t pe ps.
Proof.
  induction left as [|left IH]; intros iter q t pe ps; cbn [opt_loop]; [reflexivity|].
  apply same_eq. eapply (same_bind shuffled); [apply HPP|]. intros x y _ [s [u [-> [-> Hsu]]]]. apply eq_same.
  destruct s as [|x s].
  { apply Permutation_nil in Hsu. subst u. reflexivity. }
  destruct u as [|y u]; [apply Permutation_sym, Permutation_nil in Hsu; discriminate Hsu|].
  set (S1 := x :: s) in *. set (U1 := y :: u) in *.
  change (map snd S1) with (snd x :: map snd s) at 1. change (map snd U1) with (snd y :: map snd u) at 1. cbv iota beta.
  assert (PE : Permutation (compute_errors exact (list R) rdot (map snd S1)) (compute_errors exact (list R) rdot (map snd U1))).
  { unfold compute_errors. apply Permutation_map, Permutation_map. auto. }
  unfold normalize_error_scale. rewrite (scale_perm sel b_robust _ _ Hsel PE).
  destruct (scale exact sel b_robust (compute_errors exact (list R) rdot (map snd U1))) as [sc| | | | |]; cbn [bind]; auto.
  assert (ES : sum_errors exact (compute_errors exact (list R) rdot (map snd S1)) = sum_errors exact (compute_errors exact (list R) rdot (map snd U1))).
  { unfold sum_errors. change (d_add exact) with Rplus. change (D exact) with R in *. rewrite !fold_sum. f_equal.
    rewrite <- (map_id (compute_errors _ _ _ (map snd S1))), <- (map_id (compute_errors _ _ _ (map snd U1))). apply sum_perm. exact PE. }
  rewrite ES. destruct (d_ltb exact pe _); [reflexivity|]. destruct (d_ltb exact ps sc); [reflexivity|].
  pose (g := (fun z => huber_derivative exact (d_div exact (rdot (snd z)) (d_add exact sc tiny_robust)) k_robust) : mat * list R -> R).
  assert (EW : forall l : list (mat * list R), compute_weights exact k_robust (map (fun e => d_div exact e (d_add exact sc tiny_robust)) (compute_errors exact (list R) rdot (map snd l))) = @map (mat * list R) R g l).
  { intros l. unfold compute_weights, compute_errors. rewrite !map_map. reflexivity. }
  rewrite !EW.
  assert (EU : calc_update eigenvalues llt_solve q (map g S1) (map fst S1) (map snd S1) = calc_update eigenvalues llt_solve q (map g U1) (map fst U1) (map snd U1)).
  { unfold calc_update. rewrite (weighted_perm eigenvalues llt_solve (make_m q) g S1 U1 Hsu). reflexivity. }
  apply same_eq. eapply (same_bind eq); [apply eq_same; exact EU|]. intros [dq dt] _ _ <-. apply eq_same.
  destruct (check_convergence _ _); [reflexivity|]. apply IH.
Qed.
Lemma optimize_shuffled max_iter T : optimize eigenvalues llt_solve sel P max_iter T = optimize eigenvalues llt_solve sel P' max_iter T.
Proof. unfold optimize, opt_run. destruct (of_pose T). rewrite loop_shuffled. reflexivity. Qed.
End Opt.

(** * The node *)
Lemma localizer_shuffled principal qr find downsample eig llt sel em sm mi s s' T : valid_nth exact sel -> reduces_alike downsample -> same_scan s s' ->
  localizer_result principal qr find downsample eig llt sel em sm mi s T = localizer_result principal qr find downsample eig llt sel em sm mi s' T.
Proof. intros HN HD HS. apply optimize_shuffled; auto. intros T'. apply loam_shuffled; auto. discriminate. Qed.
Lemma run_shuffled A principal qr find downsample eig llt sel em sm mi h h' : valid_nth exact sel -> reduces_alike downsample -> Forall2 same_callback h h' ->
  localization_node A principal qr find downsample eig llt sel em sm mi h = localization_node A principal qr find downsample eig llt sel em sm mi h'.
Proof.
  intros HN HD F. unfold localization_node, node_run. generalize (@Build_node A pose [] []).
  induction F as [|e e' h h' He F IH]; intros n; cbn [foldM]; auto.
  assert (S : node_step A pose (list vec * list vec) (localize principal qr find downsample eig llt sel em sm mi) n e
            = node_step A pose (list vec * list vec) (localize principal qr find downsample eig llt sel em sm mi) n e').
  { destruct He as [|stamp s s' HS]; auto. cbn [node_step]. unfold on_scan. destruct (priors n) as [|x m]; auto.
    destruct (st_get_closest _ _) as [p| | | | |]; cbn [bind]; auto. destruct (st_remove_older_than _ _); cbn [bind]; auto.
    unfold localize. rewrite (localizer_shuffled principal qr find downsample eig llt sel em sm mi s s'); auto. }
  rewrite S. destruct (node_step _ _ _ _ n e'); cbn [bind]; auto.
Qed.

(** * The maps *)
Lemma vsum_parts X : vsum X = V3 (fold_right Rplus 0 (map vx X)) (fold_right Rplus 0 (map vy X)) (fold_right Rplus 0 (map vz X)).
Proof. induction X as [|x X IH]; cbn [vsum fold_right map]; auto. change (fold_right vadd (V3 0 0 0) X) with (vsum X). rewrite IH. reflexivity. Qed.
Lemma mean_cov_perm X X' : Permutation X X' -> mean_and_covariance X = mean_and_covariance X'.
Proof.
  intros P. unfold mean_and_covariance, center. rewrite (Permutation_length P), !vsum_parts.
  rewrite (sum_perm vx _ _ P), (sum_perm vy _ _ P), (sum_perm vz _ _ P).
  destruct (Nat.eqb (length X') 0); cbn [negb assert_ bind]; auto.
  match goal with |- context [map (fun x => vsub x ?c) X] => set (mean := c) end.
  assert (M : forall f g, moment f g (map (fun x => vsub x mean) X) = moment f g (map (fun x => vsub x mean) X')).
  { intros f g. unfold moment. rewrite !map_length, (Permutation_length P). f_equal. apply sum_perm, Permutation_map. auto. }
  rewrite !M. reflexivity.
Qed.
Lemma edge_map_order principal find m m' n T p : found_alike find m m' n -> edge_term principal find m n T p = edge_term principal find m' n T p.
Proof.
  intros H. unfold edge_term, edge_fit. destruct (H (transform T p)) as [(X & X' & -> & -> & P) | [-> ->]]; cbn [bind]; auto.
  rewrite (mean_cov_perm _ _ P). reflexivity.
Qed.
Lemma minimiser_unique X w w' : independent X -> (forall v, misfit X (repeat (-1) (length X)) w <= misfit X (repeat (-1) (length X)) v) ->
  (forall v, misfit X (repeat (-1) (length X)) w' <= misfit X (repeat (-1) (length X)) v) -> w = w'.
Proof.
  intros HI H H'. pose proof (det_nonzero X HI) as N. set (w0 := cramer X (repeat (-1) (length X))).
  assert (U : forall v, misfit X (repeat (-1) (length X)) v <= misfit X (repeat (-1) (length X)) w0 -> v = w0).
  { intros v Hv. apply (normal_unique X w0 v HI); [| | |exact Hv]; unfold w0, cramer; cbv zeta; cbn [vx vy vz]; field; exact N. }
  rewrite (U w), (U w'); auto.
Qed.
Lemma plane_perm qr X X' : (forall X, solves_least_squares qr X (repeat (-1) (length X))) -> independent X -> Permutation X X' -> estimate_plane qr X = estimate_plane qr X'.
Proof.
  intros HQ HI P. assert (HI' : independent X').
  { intros w Hw. apply HI. intros x Hx. apply Hw. eapply Permutation_in; eauto. }
  apply (minimiser_unique X); auto; [apply HQ; auto|].
  assert (M : forall w, misfit X (repeat (-1) (length X)) w = misfit X' (repeat (-1) (length X')) w).
  { intros w. rewrite !misfit_sum. apply sum_perm. auto. }
  intros v. rewrite !M. apply HQ. auto.
Qed.
Lemma surface_map_order qr find m m' n T p : (forall X, solves_least_squares qr X (repeat (-1) (length X))) -> found_alike find m m' n -> determined find m n ->
  surface_term qr find m n T p = surface_term qr find m' n T p.
Proof.
  intros HQ H HD. unfold surface_term, plane_fit. destruct (H (transform T p)) as [(X & X' & E & -> & P) | [-> ->]]; cbn [bind]; auto.
  rewrite E. cbn [bind]. rewrite (plane_perm qr X X'); auto. eapply HD; eauto.
Qed.
Lemma loam_map_order principal qr find downsample em em' sm sm' n scan T : (forall X, solves_least_squares qr X (repeat (-1) (length X))) ->
  found_alike find em em' n -> found_alike find sm sm' n -> downsample (snd scan) = [] \/ determined find sm n ->
  loam_problem principal qr find downsample em sm n scan T = loam_problem principal qr find downsample em' sm' n scan T.
Proof.
  intros HQ HE HS HD. unfold loam_problem.
  rewrite (mapM_ext (edge_term principal find em n T) (edge_term principal find em' n T)) by (intros; apply edge_map_order; auto).
  destruct (mapM _ (fst scan)); cbn [bind]; auto. destruct HD as [-> | HD]; [reflexivity|].
  rewrite (mapM_ext (surface_term qr find sm n T) (surface_term qr find sm' n T)) by (intros; apply surface_map_order; auto). reflexivity.
Qed.
Lemma optimize_ext eig llt sel P P' mi T : (forall T, P T = P' T) -> optimize eig llt sel P mi T = optimize eig llt sel P' mi T.
Proof. intros H. replace P' with P; [reflexivity|]. apply functional_extensionality. auto. Qed.
Lemma localizer_map_order principal qr find downsample eig llt sel em em' sm sm' mi scan T : (forall X, solves_least_squares qr X (repeat (-1) (length X))) ->
  found_alike find em em' n_neighbors -> found_alike find sm sm' n_neighbors -> downsample (snd scan) = [] \/ determined find sm n_neighbors ->
  localizer_result principal qr find downsample eig llt sel em sm mi scan T = localizer_result principal qr find downsample eig llt sel em' sm' mi scan T.
Proof. intros. apply optimize_ext. intros T'. apply loam_map_order; auto. Qed.
Lemma run_map_order A principal qr find downsample eig llt sel em em' sm sm' mi h : (forall X, solves_least_squares qr X (repeat (-1) (length X))) ->
  found_alike find em em' n_neighbors -> found_alike find sm sm' n_neighbors ->
  (forall stamp scan, In (EvScan stamp scan) h -> downsample (snd scan) = [] \/ determined find sm n_neighbors) ->
  localization_node A principal qr find downsample eig llt sel em sm mi h = localization_node A principal qr find downsample eig llt sel em' sm' mi h.
Proof.
  intros HQ HE HS. unfold localization_node, node_run. generalize (@Build_node A pose [] []).
  induction h as [|e h IH]; intros n HD; cbn [foldM]; auto.
  assert (S : node_step A pose (list vec * list vec) (localize principal qr find downsample eig llt sel em sm mi) n e
            = node_step A pose (list vec * list vec) (localize principal qr find downsample eig llt sel em' sm' mi) n e).
  { destruct e as [|stamp scan]; auto. cbn [node_step]. unfold on_scan. destruct (priors n) as [|x m]; auto.
    destruct (st_get_closest _ _) as [p| | | | |]; cbn [bind]; auto. destruct (st_remove_older_than _ _); cbn [bind]; auto.
    unfold localize. rewrite (localizer_map_order principal qr find downsample eig llt sel em em' sm sm' mi); auto. apply (HD stamp). left. auto. }
  rewrite S. match goal with |- bind ?x _ = _ => destruct x end; cbn [bind]; auto. apply IH. intros stamp scan Hi. apply (HD stamp). right. auto.
Qed.

(** * Searches without ties *)
Lemma rows_found (m : list vec) l X : get_rows vec m l = Ok X -> Forall2 (fun i x => nth_error m i = Some x) l X.
Proof.
  unfold get_rows. revert X. induction l as [|i l IH]; intros X E; cbn [mapM] in E; [injection E as <-; constructor|].
  destruct (nth_error m i) eqn:N; try discriminate E. cbn [bind] in E. destruct (mapM _ l) as [Y| | | | |]; try discriminate E. cbn [bind] in E.
  injection E as <-. constructor; auto.
Qed.
Lemma rows_ok (m : list vec) l : (forall i, In i l -> (i < length m)%nat) -> exists X, get_rows vec m l = Ok X.
Proof.
  unfold get_rows. induction l as [|i l IH]; intros H; cbn [mapM]; [eauto|].
  destruct (nth_error m i) eqn:N; [|apply nth_error_None in N; specialize (H i (or_introl eq_refl)); lia]. cbn [bind].
  destruct IH as [X ->]; [intros; apply H; right; auto|]. cbn [bind]. eauto.
Qed.
Lemma F2_in_l {X Y} (R : X -> Y -> Prop) l l' x : Forall2 R l l' -> In x l -> exists y, In y l' /\ R x y.
Proof. induction 1; intros I; [inversion I|]. destruct I as [<- | I]; [exists y; split; [left|]; auto|]. destruct (IHForall2 I) as (z & ? & ?). exists z. split; [right|]; auto. Qed.
Lemma F2_in_r {X Y} (R : X -> Y -> Prop) l l' y : Forall2 R l l' -> In y l' -> exists x, In x l /\ R x y.
Proof. induction 1; intros I; [inversion I|]. destruct I as [<- | I]; [exists x; split; [left|]; auto|]. destruct (IHForall2 I) as (z & ? & ?). exists z. split; [right|]; auto. Qed.
Lemma untied_nodup q m : untied q m -> NoDup m.
Proof.
  intros U. apply NoDup_nth_error. intros i j Hi E. destruct (Nat.eq_dec i j) as [|N]; auto. exfalso.
  destruct (nth_error m i) as [x|] eqn:E1; [|apply nth_error_None in E1; lia]. symmetry in E. exact (U i j x x N E1 E eq_refl).
Qed.
Lemma search_result find m q n : finds_nearest find -> (0 < n <= length m)%nat ->
  exists X, nearest_k_search vec find m q n = Ok X /\ Forall2 (fun i x => nth_error m i = Some x) (find m q n) X.
Proof.
  intros HF Hn. destruct (HF m q n) as (ND & L & B & _). rewrite Nat.min_l in L by lia.
  unfold nearest_k_search. destruct n as [|n]; [lia|]. rewrite L, Nat.sub_diag. cbn [repeat]. rewrite app_nil_r, firstn_all2 by lia.
  destruct (rows_ok m _ B) as [X E]. exists X. split; auto. apply rows_found. auto.
Qed.
Lemma nearest_set find m q n X : finds_nearest find -> untied q m -> Forall2 (fun i x => nth_error m i = Some x) (find m q n) X ->
  NoDup X /\ incl X m /\ forall x y, In x X -> In y m -> ~ In y X -> squared_distance q x <= squared_distance q y.
Proof.
  intros HF U F. destruct (HF m q n) as (ND & L & B & C). pose proof (untied_nodup q m U) as NM.
  split; [|split].
  - clear - F ND NM. revert ND. induction F as [|i x l X Hi F IH]; intros ND; [constructor|]. inversion ND as [|? ? N1 N2]; subst. constructor; auto.
    intros Hx. destruct (F2_in_r _ _ _ _ F Hx) as (j & Hj & Ej). apply N1. replace i with j; auto.
    assert (Lj : (j < length m)%nat) by (apply nth_error_Some; rewrite Ej; discriminate). apply (proj1 (NoDup_nth_error m) NM); auto. congruence.
  - intros x Hx. destruct (F2_in_r _ _ _ _ F Hx) as (i & _ & Hi). eapply nth_error_In; eauto.
  - intros x y Hx Hy Ny. destruct (F2_in_r _ _ _ _ F Hx) as (i & Hi & Ei). destruct (In_nth_error _ _ Hy) as [j Ej].
    apply (C i j); auto. intros Hj. apply Ny. destruct (F2_in_l _ _ _ _ F Hj) as (y' & I & E'). congruence.
Qed.
Lemma nearest_perm find m m' q n : finds_nearest find -> Permutation m m' -> (0 < n <= length m)%nat -> untied q m ->
  exists X X', nearest_k_search vec find m q n = Ok X /\ nearest_k_search vec find m' q n = Ok X' /\ Permutation X X'.
Proof.
  intros HF P Hn U. pose proof (Permutation_length P) as PL.
  destruct (search_result find m q n HF Hn) as (X & E & F). destruct (search_result find m' q n HF) as (X' & E' & F'); [lia|].
  exists X, X'. split; [auto|split; [auto|]].
  assert (UE : forall x y, In x m -> In y m -> squared_distance q x = squared_distance q y -> x = y).
  { intros x y Hx Hy Ed. destruct (In_nth_error _ _ Hx) as [i Ei]. destruct (In_nth_error _ _ Hy) as [j Ej].
    destruct (Nat.eq_dec i j) as [-> |N]; [congruence|]. exfalso. exact (U i j x y N Ei Ej Ed). }
  assert (NM : NoDup m') by (eapply Permutation_NoDup; [exact P|eapply untied_nodup; eauto]).
  assert (U' : untied q m').
  { intros i j x y N Ei Ej Ed. assert (x = y).
    { apply UE; auto; eapply Permutation_in; try apply Permutation_sym; try exact P; eapply nth_error_In; eauto. }
    subst y. apply N. apply (proj1 (NoDup_nth_error m') NM); [apply nth_error_Some; rewrite Ei; discriminate|congruence]. }
  destruct (nearest_set find m q n X HF U F) as (N1 & I1 & C1). destruct (nearest_set find m' q n X' HF U' F') as (N2 & I2 & C2).
  assert (L1 : length X = n).
  { assert (length (find m q n) = length X) by (clear - F; induction F; cbn; auto). destruct (HF m q n) as (_ & L & _). lia. }
  assert (L2 : length X' = n).
  { assert (length (find m' q n) = length X') by (clear - F'; induction F'; cbn; auto). destruct (HF m' q n) as (_ & L & _). lia. }
  apply NoDup_Permutation_bis; auto; [lia|].
  intros x Hx. destruct (Classical_Prop.classic (In x X')) as [|Nx]; auto. exfalso.
  assert (exists y, In y X' /\ ~ In y X) as (y & Hy & Ny).
  { destruct (Classical_Prop.classic (incl X' X)) as [I|I].
    - exfalso. apply Nx. assert (LL : (length X <= length X')%nat) by lia. exact (NoDup_length_incl N2 LL I x Hx).
    - apply Classical_Pred_Type.not_all_ex_not in I. destruct I as [y I]. exists y. tauto. }
  assert (Hym : In y m) by (eapply Permutation_in; [apply Permutation_sym; exact P|apply I2; auto]).
  assert (Hxm : In x m') by (eapply Permutation_in; [exact P|apply I1; auto]).
  apply Nx. replace x with y; auto. apply UE; auto. apply Rle_antisym; [apply C2|apply C1]; auto.
Qed.

(** * A search that compares all distances *)
Fixpoint kinsert (key : nat -> R) (i : nat) (l : list nat) : list nat :=
  match l with [] => [i] | j :: t => if Rltb (key j) (key i) then j :: kinsert key i t else i :: l end.
Definition ksort (key : nat -> R) (l : list nat) : list nat := fold_right (kinsert key) [] l.
Lemma kinsert_perm key x l : Permutation (x :: l) (kinsert key x l).
Proof. induction l as [|y l IH]; simpl; auto. destruct (Rltb _ _); auto. rewrite perm_swap. constructor; auto. Qed.
Lemma ksort_perm key l : Permutation l (ksort key l).
Proof. induction l as [|x l IH]; simpl; auto. rewrite <- kinsert_perm. auto. Qed.
Lemma kinsert_sorted key x l : StronglySorted (fun i j => key i <= key j) l -> StronglySorted (fun i j => key i <= key j) (kinsert key x l).
Proof.
  induction 1 as [|y l HS IH HF]; simpl; [repeat constructor|].
  destruct (Rltb (key y) (key x)) eqn:E.
  - apply Rltb_spec in E. constructor; auto. rewrite Forall_forall in *.
    intros z Hz. apply Permutation_in with (l' := x :: l) in Hz; [|apply Permutation_sym, kinsert_perm].
    destruct Hz as [<-|Hz]; [lra|auto].
  - assert (E' : key x <= key y) by (apply Rnot_lt_le; intros N; apply Rltb_spec in N; congruence).
    constructor; [constructor; auto|]. constructor; auto.
    rewrite Forall_forall in *. intros z Hz. specialize (HF z Hz). lra.
Qed.
Lemma ksort_sorted key l : StronglySorted (fun i j => key i <= key j) (ksort key l).
Proof. induction l; simpl; [constructor|]. apply kinsert_sorted; auto. Qed.
Definition brute_force (m : list vec) (q : vec) (n : nat) : list nat :=
  firstn n (ksort (fun i => squared_distance q (nth i m origin)) (seq 0 (length m))).
Lemma brute_force_nearest : finds_nearest brute_force.
Proof.
  intros m q n. unfold brute_force. set (key := fun i => squared_distance q (nth i m origin)).
  pose proof (ksort_perm key (seq 0 (length m))) as P. pose proof (ksort_sorted key (seq 0 (length m))) as S.
  set (s := ksort key (seq 0 (length m))) in *.
  assert (N : NoDup s) by (eapply Permutation_NoDup; [exact P|apply seq_NoDup]).
  split; [|split; [|split]].
  - rewrite <- (firstn_skipn n s) in N. clear - N. induction (firstn n s) as [|a l IH]; [constructor|].
    inversion N as [|? ? N1 N2]; subst. constructor; [intros I; apply N1, in_or_app; auto|auto].
  - rewrite firstn_length, <- (Permutation_length P), seq_length. auto.
  - intros i Hi. assert (I : In i (seq 0 (length m))).
    { eapply Permutation_in; [apply Permutation_sym; exact P|]. rewrite <- (firstn_skipn n s). apply in_or_app. auto. }
    apply in_seq in I. lia.
  - intros i j x y Hi Hj Ex Ey.
    assert (I : In j s). { eapply Permutation_in; [exact P|]. apply in_seq. assert (j < length m)%nat by (apply nth_error_Some; rewrite Ey; discriminate). lia. }
    rewrite <- (firstn_skipn n s) in I. apply in_app_or in I. destruct I as [I|I]; [contradiction|].
    assert (K : key i <= key j).
    { rewrite <- (firstn_skipn n s) in S. clear - S Hi I. induction (firstn n s) as [|a l IH]; [inversion Hi|]. inversion S as [|? ? S1 F]; subst.
      destruct Hi as [-> | Hi]; auto. rewrite Forall_forall in F. apply F. apply in_or_app. auto. }
    unfold key in K. rewrite (nth_error_nth m i origin Ex), (nth_error_nth m j origin Ey) in K. exact K.
Qed.
