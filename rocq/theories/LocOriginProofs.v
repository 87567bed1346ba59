(** Proofs for C111. *)
From Coq Require Import List Reals ZArith Bool Lra Lia FunctionalExtensionality.
From Verif Require Import Base Arith LibModel LocModel PoseModel OptModel ProblemModel LocNodeModel SpecPose SpecFit FitProofs SpecLocOrigin.
Import ListNotations.
Open Scope R_scope.

(** Renaming the results of an outcome. *)
Definition omap {X Y} (f : X -> Y) (o : outcome X) : outcome Y := x <- o ;; Ok (f x).

Lemma mapM_map {X Y Z} (f : Y -> outcome Z) (g : X -> Y) l : mapM f (map g l) = mapM (fun x => f (g x)) l.
Proof. induction l as [|x l IH]; cbn; [auto|]. rewrite IH. reflexivity. Qed.
Lemma mapM_omap {X Y Z} (f : X -> outcome Y) (g : Y -> Z) l : mapM (fun x => omap g (f x)) l = omap (map g) (mapM f l).
Proof.
  induction l as [|x l IH]; cbn; [auto|]. rewrite IH. unfold omap. destruct (f x); cbn; auto. destruct (mapM f l); auto.
Qed.
Lemma mapM_ext {X Y} (f g : X -> outcome Y) l : (forall x, In x l -> f x = g x) -> mapM f l = mapM g l.
Proof. induction l as [|x l IH]; intros H; cbn; [auto|]. rewrite H, IH; auto; [intros; apply H; right; auto|left; auto]. Qed.

Ltac vv := apply vec_ext3; unfold transform, moved_pose, moved_point, vadd, vsub, vscale, mapply, origin; cbn [vx vy vz lin tra].
Ltac vd := unfold moved_point, vdot, vadd, vsub, vscale, origin in *; cbn [vx vy vz] in *.
Lemma CE {X} (a b : X) l l' : a = b -> l = l' -> a :: l = b :: l'.
Proof. congruence. Qed.
Section Move.
Variable d : vec.
Notation mv := (moved_point d).
Notation mp := (moved_pose d).

Lemma mv_transform T p : transform (mp T) p = mv (transform T p).
Proof. vv; ring. Qed.

Variable find : list vec -> vec -> nat -> list nat.
Hypothesis alike : searches_alike d find.

Lemma search_moved m q n : nearest_k_search vec find (map mv m) (mv q) n = omap (map mv) (nearest_k_search vec find m q n).
Proof.
  unfold nearest_k_search. destruct n as [|n]; [reflexivity|]. rewrite alike. unfold get_rows. rewrite <- mapM_omap. apply mapM_ext.
  intros i _. rewrite nth_error_map. destruct (nth_error m i); reflexivity.
Qed.

Lemma vsum_moved X : vsum (map mv X) = vadd (vsum X) (vscale (INR (length X)) d).
Proof.
  induction X as [|x X IH].
  - cbn [map vsum fold_right length INR]. vv; ring.
  - change (vsum (map mv (x :: X))) with (vadd (mv x) (vsum (map mv X))). rewrite IH. change (vsum (x :: X)) with (vadd x (vsum X)).
    cbn [length]. rewrite S_INR. vv; ring.
Qed.
Lemma mean_cov_moved X : mean_and_covariance (map mv X) = omap (fun mc => (mv (fst mc), snd mc)) (mean_and_covariance X).
Proof.
  unfold mean_and_covariance, center. rewrite map_length. destruct X as [|x X]; [reflexivity|]. set (Y := x :: X).
  assert (N : INR (length Y) <> 0) by (apply not_0_INR; discriminate).
  change (Nat.eqb (length Y) 0) with false. cbn [negb assert_ bind omap fst snd].
  assert (E : vscale (/ INR (length Y)) (vsum (map mv Y)) = mv (vscale (/ INR (length Y)) (vsum Y))).
  { rewrite vsum_moved. vv; field; auto. }
  rewrite E. set (m := vscale _ (vsum Y)).
  assert (EM : map (fun x => vsub x (mv m)) (map mv Y) = map (fun x => vsub x m) Y).
  { rewrite map_map. apply map_ext. intros x0. vv; ring. }
  rewrite EM. reflexivity.
Qed.
Lemma edge_term_moved principal m n T p : edge_term principal find (map mv m) n (mp T) p = edge_term principal find m n T p.
Proof.
  unfold edge_term, edge_fit. rewrite mv_transform, search_moved.
  destruct (nearest_k_search vec find m (transform T p) n) as [X| | | | |]; cbn [omap bind]; auto.
  rewrite mean_cov_moved. destruct (mean_and_covariance X) as [[c C]| | | | |]; cbn [omap bind fst snd]; auto.
  set (v := principal C). cbn [moved_pose lin].
  assert (E1 : vsub (vadd (mv c) v) (vsub (mv c) v) = vsub (vadd c v) (vsub c v)) by (vv; ring).
  assert (E3 : forall a b, vsub (mv a) (vsub (mv b) v) = vsub a (vsub b v)) by (intros; vv; ring).
  assert (E4 : forall a b, vsub (mv a) (vadd (mv b) v) = vsub a (vadd b v)) by (intros; vv; ring).
  unfold edge_jacobian, edge_residual. rewrite E1, mv_transform, E3, E4. reflexivity.
Qed.

(** Equal or opposite. *)
Definition opposite (a b : mat * list R) : Prop := fst b = map (map Ropp) (fst a) /\ snd b = map Ropp (snd a).
Definition alike_terms (a b : mat * list R) : Prop := a = b \/ opposite a b.

Lemma independent_moved X v e : independent X -> (forall x, In x X -> in_plane v e x) -> e <> 0 -> e + vdot v d <> 0 ->
  independent (map mv X).
Proof.
  intros HI HP He Hd w Hw. set (k := - vdot w d).
  assert (K : forall x, In x X -> vdot w x = k).
  { intros x Hx. specialize (Hw (mv x) (in_map _ _ _ Hx)). unfold k. vd. lra. }
  assert (Z : vsub w (vscale (k / e) v) = origin).
  { apply HI. intros x Hx. pose proof (K x Hx) as K1. pose proof (HP x Hx) as P. unfold in_plane in P.
    replace (vdot (vsub w (vscale (k / e) v)) x) with (vdot w x - k / e * vdot v x) by (vd; ring).
    rewrite K1, P. field. auto. }
  assert (W : w = vscale (k / e) v).
  { pose proof (f_equal vx Z) as Z1. pose proof (f_equal vy Z) as Z2. pose proof (f_equal vz Z) as Z3. clear - Z1 Z2 Z3. vd. vv; lra. }
  assert (K0 : k = 0).
  { assert (E : vdot w d = k / e * vdot v d) by (rewrite W; vd; ring).
    assert (E2 : k * (e + vdot v d) = 0).
    { transitivity (e * (k + k / e * vdot v d)); [field; auto|]. rewrite <- E. unfold k. ring. }
    apply Rmult_integral in E2. destruct E2 as [E2|E2]; [exact E2|contradiction]. }
  rewrite W, K0. vv; field; auto.
Qed.

Lemma surface_alike (v : vec) e q p (x : vec) : e <> 0 -> e + vdot v d <> 0 ->
  alike_terms (surface_jacobian (vscale (- / e) v) q p, [signed_distance (vscale (- / e) v) x])
              (surface_jacobian (vscale (- / (e + vdot v d)) v) q p, [signed_distance (vscale (- / (e + vdot v d)) v) (mv x)]).
Proof.
  intros He He'. set (e' := e + vdot v d) in *.
  (* the sign of the offset decides *)
  assert (N : forall c, vnorm (vscale c v) = Rabs c * vnorm v).
  { intros c. unfold vnorm. replace (vdot (vscale c v) (vscale c v)) with (Rsqr c * vdot v v) by (unfold Rsqr, vdot, vscale; cbn; ring).
    rewrite sqrt_mult; [|apply Rle_0_sqr|apply vdot_nonneg]. rewrite sqrt_Rsqr_abs. reflexivity. }
  assert (U : forall c, c <> 0 -> vscale (/ vnorm (vscale (- / c) v)) (vscale (- / c) v) = vscale (- (Rabs c / c) * / vnorm v) v).
  { intros c Hc. rewrite N, Rabs_Ropp, Rabs_inv. assert (Rabs c <> 0) by (apply Rabs_no_R0; auto).
    destruct (Req_dec (vnorm v) 0) as [Z|Z].
    - rewrite Z. rewrite Rmult_0_r. 
      assert (V : v = origin). { apply sq_zero. unfold vnorm in Z. apply sqrt_eq_0 in Z; [exact Z|apply vdot_nonneg]. }
      rewrite V. unfold origin, vscale. cbn. f_equal; ring.
    - vv; field; auto. }
  assert (S : forall c y, c <> 0 -> signed_distance (vscale (- / c) v) y = - (Rabs c / c) * / vnorm v * (vdot v y - c)).
  { intros c y Hc. unfold signed_distance. rewrite N, Rabs_Ropp, Rabs_inv. assert (Rabs c <> 0) by (apply Rabs_no_R0; auto).
    replace (vdot (vscale (- / c) v) y) with (- / c * vdot v y) by (unfold vdot, vscale; cbn; ring).
    destruct (Req_dec (vnorm v) 0) as [Z|Z].
    - assert (V : v = origin). { apply sq_zero. unfold vnorm in Z. apply sqrt_eq_0 in Z; [exact Z|apply vdot_nonneg]. }
      rewrite Z. rewrite Rmult_0_r. unfold Rdiv. rewrite V. unfold origin, vdot. cbn [vx vy vz]. rewrite Rinv_0. ring.
    - field. auto. }
  rewrite !S by auto.
  assert (D : vdot v (mv x) - e' = vdot v x - e).
  { unfold e'. vd; ring. }
  rewrite D. unfold surface_jacobian. rewrite !U by auto.
  assert (SG : forall c, c <> 0 -> Rabs c / c = 1 \/ Rabs c / c = -1).
  { intros c Hc. destruct (Rcase_abs c); [right; rewrite Rabs_left by lra|left; rewrite Rabs_right by lra]; field; auto. }
  assert (G : forall s t : R, t = s \/ t = - s ->
    alike_terms ([row_mul 4 (vlist (vscale (s * / vnorm v) v)) (drpdq q p) ++ vlist (vscale (s * / vnorm v) v)], [s * / vnorm v * (vdot v x - e)])
                ([row_mul 4 (vlist (vscale (t * / vnorm v) v)) (drpdq q p) ++ vlist (vscale (t * / vnorm v) v)], [t * / vnorm v * (vdot v x - e)])).
  { intros s t [-> | ->]; [left; reflexivity|right]. split; cbn [fst snd map].
    - f_equal. unfold vlist, vscale, row_mul, drpdq. cbn [vx vy vz map seq app combine fold_right fst snd nth].
      repeat (apply CE; [ring|]). reflexivity.
    - f_equal. ring. }
  destruct (SG e He) as [-> | ->], (SG e' He') as [-> | ->]; apply G; lra.
Qed.

(** * Terms up to sign *)
Lemma nth_opp i l : nth i (map Ropp l) 0 = - nth i l 0.
Proof. rewrite <- (map_nth Ropp l 0 i). rewrite Ropp_0. reflexivity. Qed.
Lemma alike_jtj a b i j : alike_terms a b -> jtj (fst a) i j = jtj (fst b) i j.
Proof.
  intros [-> | [E _]]; [reflexivity|]. rewrite E. unfold jtj. rewrite map_map. f_equal. apply map_ext. intros r. rewrite !nth_opp. ring.
Qed.
Lemma alike_jtr a b i : alike_terms a b -> jtr (fst a) (snd a) i = jtr (fst b) (snd b) i.
Proof.
  intros [-> | [E E2]]; [reflexivity|]. rewrite E, E2. unfold jtr. generalize (snd a). generalize (fst a). clear.
  induction m as [|r m IH]; intros [|x l]; cbn [map combine fold_right fst snd]; auto. rewrite IH, nth_opp. ring.
Qed.
Lemma alike_rdot a b : alike_terms a b -> rdot (snd a) = rdot (snd b).
Proof.
  intros [-> | [_ E]]; [reflexivity|]. rewrite E. unfold rdot. rewrite map_map. f_equal. apply map_ext. intros r. ring.
Qed.
Lemma alike_rows a b : alike_terms a b ->
  forallb (fun row : list R => Nat.eqb (length row) 7) (fst a) = forallb (fun row : list R => Nat.eqb (length row) 7) (fst b).
Proof.
  intros [-> | [E _]]; [reflexivity|]. rewrite E. generalize (fst a). clear.
  induction m as [|r m IH]; cbn [map forallb]; auto. rewrite IH, map_length. reflexivity.
Qed.
Lemma alike_sizes a b : alike_terms a b ->
  Nat.eqb (length (fst a)) (length (snd a)) = Nat.eqb (length (fst b)) (length (snd b)).
Proof. intros [-> | [E E2]]; [reflexivity|]. rewrite E, E2, !map_length. reflexivity. Qed.

Lemma combine_parts {X Y} (l : list (X * Y)) : combine (map fst l) (map snd l) = l.
Proof. induction l as [|[x y] l IH]; cbn; congruence. Qed.
Lemma combine_map_r {X Y Z} (w : list Z) (f : X -> Y) l : combine w (map f l) = map (fun p => (fst p, f (snd p))) (combine w l).
Proof. revert l. induction w as [|x w IH]; intros [|y l]; cbn; auto. rewrite IH. reflexivity. Qed.

Lemma weighted_alike eigenvalues llt_solve M w a b : Forall2 alike_terms a b ->
  weighted_update eigenvalues llt_solve M w (map fst a) (map snd a) = weighted_update eigenvalues llt_solve M w (map fst b) (map snd b).
Proof.
  intros H. unfold weighted_update. rewrite !map_length, !combine_parts.
  assert (L : length a = length b) by (clear - H; induction H; cbn; auto).
  rewrite L.
  assert (C : forall {Z} (f : mat * list R -> Z), (forall x y, alike_terms x y -> f x = f y) -> map f a = map f b).
  { intros Z f Hf. clear - H Hf. induction H; cbn; [auto|]. rewrite (Hf x y) by auto. congruence. }
  assert (CW : forall {Z} (f : R * (mat * list R) -> Z), (forall u x y, alike_terms x y -> f (u, x) = f (u, y)) ->
    map f (combine w a) = map f (combine w b)).
  { intros Z f Hf. clear - H Hf. revert w. induction H; intros [|u w]; cbn; auto. rewrite (Hf u x y) by auto. rewrite IHForall2. reflexivity. }
  assert (E1 : forallb (fun J : mat => forallb (fun row => Nat.eqb (length row) 7) J) (map fst a)
             = forallb (fun J : mat => forallb (fun row => Nat.eqb (length row) 7) J) (map fst b)).
  { clear - H. induction H; cbn [map forallb]; auto. rewrite (alike_rows x y) by auto. congruence. }
  assert (E2 : forallb (fun Jr : mat * list R => Nat.eqb (length (fst Jr)) (length (snd Jr))) a
             = forallb (fun Jr : mat * list R => Nat.eqb (length (fst Jr)) (length (snd Jr))) b).
  { clear - H. induction H; cbn [forallb]; auto. rewrite (alike_sizes x y) by auto. congruence. }
  assert (ED : (fun i j => fold_right Rplus 0 (map (fun J => jtj J i j) (map fst a)))
             = (fun i j => fold_right Rplus 0 (map (fun J => jtj J i j) (map fst b)))).
  { apply functional_extensionality. intros i. apply functional_extensionality. intros j. rewrite !map_map. f_equal. apply C.
    intros. apply alike_jtj; auto. }
  assert (EA : forall i j, fold_right Rplus 0 (map (fun wJ : R * mat => fst wJ * jtj (snd wJ) i j) (combine w (map fst a)))
             = fold_right Rplus 0 (map (fun wJ : R * mat => fst wJ * jtj (snd wJ) i j) (combine w (map fst b)))).
  { intros i j. rewrite !combine_map_r, !map_map. f_equal. apply CW. intros u x y Hxy. cbn [fst snd]. rewrite (alike_jtj x y); auto. }
  assert (EB : forall i, fold_right Rplus 0 (map (fun wJr : R * (mat * list R) => fst wJr * jtr (fst (snd wJr)) (snd (snd wJr)) i) (combine w a))
             = fold_right Rplus 0 (map (fun wJr : R * (mat * list R) => fst wJr * jtr (fst (snd wJr)) (snd (snd wJr)) i) (combine w b))).
  { intros i. f_equal. apply CW. intros u x y Hxy. cbn [fst snd]. rewrite (alike_jtr x y); auto. }
  assert (EMA : (fun k l => sum_n 7 (fun i => sum_n 7 (fun j => M i k * fold_right Rplus 0 (map (fun wJ : R * mat => fst wJ * jtj (snd wJ) i j) (combine w (map fst a))) * M j l)))
             = (fun k l => sum_n 7 (fun i => sum_n 7 (fun j => M i k * fold_right Rplus 0 (map (fun wJ : R * mat => fst wJ * jtj (snd wJ) i j) (combine w (map fst b))) * M j l)))).
  { apply functional_extensionality. intros k. apply functional_extensionality. intros l. unfold sum_n. f_equal. apply map_ext. intros i.
    f_equal. apply map_ext. intros j. rewrite EA. reflexivity. }
  assert (EMB : (fun k => sum_n 7 (fun i => M i k * fold_right Rplus 0 (map (fun wJr : R * (mat * list R) => fst wJr * jtr (fst (snd wJr)) (snd (snd wJr)) i) (combine w a))))
             = (fun k => sum_n 7 (fun i => M i k * fold_right Rplus 0 (map (fun wJr : R * (mat * list R) => fst wJr * jtr (fst (snd wJr)) (snd (snd wJr)) i) (combine w b))))).
  { apply functional_extensionality. intros k. unfold sum_n. f_equal. apply map_ext. intros i. rewrite EB. reflexivity. }
  cbv zeta. unfold mat in *. rewrite E1, E2, ED, EMA, EMB. reflexivity.
Qed.

(** * The problem *)
Variable principal : mat3 -> vec.
Variable qr : list vec -> list R -> vec.
Hypothesis Hqr : forall X, solves_least_squares qr X (repeat (-1) (length X)).

(** The same failure, or related results. *)
Definition same {X Y} (R : X -> Y -> Prop) (a : outcome X) (b : outcome Y) : Prop :=
  match a with
  | Ok x => match b with Ok y => R x y | _ => False end
  | ThrowInvalid => b = ThrowInvalid | ThrowRange => b = ThrowRange | ThrowOther => b = ThrowOther
  | AssertFail => b = AssertFail | UB => b = UB
  end.
Lemma same_bind {X Y X' Y'} (R : X -> Y -> Prop) (S : X' -> Y' -> Prop) a b f g :
  same R a b -> (forall x y, a = Ok x -> R x y -> same S (f x) (g y)) -> same S (bind a f) (bind b g).
Proof. destruct a; cbn; intros H K; try (subst b; cbn; reflexivity). destruct b; try contradiction. cbn. auto. Qed.
Lemma same_mapM {X Y Z} (R : Y -> Z -> Prop) (f : X -> outcome Y) g l :
  (forall x, In x l -> same R (f x) (g x)) -> same (Forall2 R) (mapM f l) (mapM g l).
Proof.
  induction l as [|x l IH]; intros H; cbn [mapM]; [cbn; constructor|].
  eapply same_bind; [apply H; left; auto|]. intros y z _ Hyz. cbv beta.
  eapply same_bind; [apply IH; intros; apply H; right; auto|]. intros ys zs _ Hs. cbn. constructor; auto.
Qed.
Lemma same_eq {X} (a b : outcome X) : same eq a b -> a = b.
Proof. destruct a; cbn; intros H; try (symmetry; exact H). destruct b; try contradiction. congruence. Qed.

Lemma eq_same {X} (a b : outcome X) : a = b -> same eq a b.
Proof. intros <-. destruct a; cbn; reflexivity. Qed.

Lemma surface_term_moved m n T p : flat d find m n ->
  same alike_terms (surface_term qr find m n T p) (surface_term qr find (map mv m) n (mp T) p).
Proof.
  intros HF. unfold surface_term, plane_fit. rewrite mv_transform, search_moved.
  specialize (HF (transform T p)).
  destruct (nearest_k_search vec find m (transform T p) n) as [X| | | | |]; cbn [omap bind same]; auto.
  destruct (HF X eq_refl) as [HI [v [e [HP [He He']]]]].
  rewrite (exact_plane qr X v e (Hqr X) HI He HP).
  rewrite (exact_plane qr (map mv X) v (e + vdot v d)); auto.
  - cbn [moved_pose lin]. apply surface_alike; auto.
  - eapply independent_moved; eauto.
  - intros y Hy. apply in_map_iff in Hy. destruct Hy as [x [<- Hx]]. specialize (HP x Hx). unfold in_plane in *.
    rewrite <- HP. clear. vd. ring.
Qed.

Variable downsample : list vec -> list vec.
Definition related (a b : list mat * list (list R)) : Prop :=
  exists s t, a = (map fst s, map snd s) /\ b = (map fst t, map snd t) /\ Forall2 alike_terms s t.
Lemma loam_moved em sm n scan T : downsample (snd scan) = [] \/ flat d find sm n ->
  same related (loam_problem principal qr find downsample em sm n scan T)
               (loam_problem principal qr find downsample (map mv em) (map mv sm) n scan (mp T)).
Proof.
  intros H. unfold loam_problem.
  rewrite (mapM_ext (edge_term principal find (map mv em) n (mp T)) (edge_term principal find em n T)) by (intros; apply edge_term_moved).
  eapply (same_bind eq).
  { destruct (mapM (edge_term principal find em n T) (fst scan)); cbn; auto. }
  intros E E' _ <-. eapply (same_bind (Forall2 alike_terms)).
  { destruct H as [-> | H]; [cbn; constructor|]. apply same_mapM. intros p _. apply surface_term_moved; auto. }
  intros S S' _ HS. cbn. exists (E ++ S), (E ++ S'). rewrite !map_app. split; [auto|split; [auto|]].
  apply Forall2_app; auto. clear. induction E; constructor; auto. left. reflexivity.
Qed.

(** * The optimiser *)
Variable eigenvalues : nat -> (nat -> nat -> R) -> list R.
Variable llt_solve : nat -> (nat -> nat -> R) -> (nat -> R) -> (nat -> R).
Variable sel : selector exact.

Definition moved_result (a b : opt_result exact pose) : Prop :=
  r_pose b = mp (r_pose a) /\ r_message b = r_message a /\ r_iteration b = r_iteration a /\
  r_error b = r_error a /\ r_error_scale b = r_error_scale a /\ r_success b = r_success a.

Section Opt.
Variable P P' : pose -> outcome (list mat * list (list R)).
Hypothesis HPP : forall T, same related (P T) (P' (mp T)).
Notation loop Q := (opt_loop exact quat vec pose mat (list R) Q make_pose rdot (calc_update eigenvalues llt_solve) qmul vadd check_convergence sel
    b_robust k_robust tiny_robust).
Lemma mp_make q t : make_pose q (vadd t d) = mp (make_pose q t).
Proof. reflexivity. Qed.
Lemma loop_moved left : forall iter q t pe ps,
  same moved_result (loop P left iter q t pe ps) (loop P' left iter q (vadd t d) pe ps).
Proof.
  induction left as [|left IH]; intros iter q t pe ps; cbn [opt_loop].
  - cbn. repeat split; reflexivity.
  - rewrite mp_make. eapply (same_bind related); [apply HPP|]. intros x y _ [s [u [-> [-> Hsu]]]].
    destruct Hsu as [|x y s u Hxy Hsu]; cbn [map]; [cbn; repeat split; reflexivity|].
    assert (E : compute_errors exact (list R) rdot (snd x :: map snd s) = compute_errors exact (list R) rdot (snd y :: map snd u)).
    { unfold compute_errors. cbn [map]. rewrite (alike_rdot x y) by auto. f_equal. rewrite !map_map. clear - Hsu.
      induction Hsu; cbn; auto. apply CE; [apply alike_rdot; auto|exact IHHsu]. }
    rewrite E. destruct (normalize_error_scale _ _ _ _ _) as [[nm sc]| | | | |]; cbn [bind]; try (cbn; reflexivity).
    set (er := sum_errors _ _).
    destruct (d_ltb exact pe er); [cbn; repeat split; reflexivity|].
    destruct (d_ltb exact ps sc); [cbn; repeat split; reflexivity|].
    assert (EU : calc_update eigenvalues llt_solve q (compute_weights exact k_robust nm) (fst x :: map fst s) (snd x :: map snd s)
               = calc_update eigenvalues llt_solve q (compute_weights exact k_robust nm) (fst y :: map fst u) (snd y :: map snd u)).
    { unfold calc_update. change (fst x :: map fst s) with (map fst (x :: s)). change (snd x :: map snd s) with (map snd (x :: s)).
      change (fst y :: map fst u) with (map fst (y :: u)). change (snd y :: map snd u) with (map snd (y :: u)).
      rewrite (weighted_alike _ _ _ _ (x :: s) (y :: u)); [reflexivity|constructor; auto]. }
    eapply (same_bind eq); [apply eq_same; exact EU|]. intros [dq dt] _ _ <-.
    assert (ET : vadd (vadd t d) dt = vadd (vadd t dt) d) by (vv; ring).
    rewrite ET. destruct (check_convergence dq dt); [cbn; repeat split; reflexivity|]. apply IH.
Qed.
Lemma optimize_moved max_iter T :
  same moved_result (optimize eigenvalues llt_solve sel P max_iter T) (optimize eigenvalues llt_solve sel P' max_iter (mp T)).
Proof.
  unfold optimize, opt_run. cbn [of_pose moved_pose lin tra].
  eapply (same_bind moved_result); [apply loop_moved|]. intros x y _ [H1 [H2 [H3 [H4 [H5 H6]]]]].
  destruct (max_iter <? 0)%Z; cbn; repeat split; auto.
Qed.
End Opt.

Lemma localizer_moved em sm mi scan T : downsample (snd scan) = [] \/ flat d find sm n_neighbors ->
  same moved_result (localizer_result principal qr find downsample eigenvalues llt_solve sel em sm mi scan T)
    (localizer_result principal qr find downsample eigenvalues llt_solve sel (map mv em) (map mv sm) mi scan (mp T)).
Proof. intros H. unfold localizer_result. apply optimize_moved. intros T'. apply loam_moved. auto. Qed.

Lemma localize_moved em sm mi scan T : downsample (snd scan) = [] \/ flat d find sm n_neighbors ->
  localize principal qr find downsample eigenvalues llt_solve sel (map mv em) (map mv sm) mi scan (mp T)
  = omap mp (localize principal qr find downsample eigenvalues llt_solve sel em sm mi scan T).
Proof.
  intros H. pose proof (localizer_moved em sm mi scan T H) as L. unfold localize, omap. revert L.
  generalize (localizer_result principal qr find downsample eigenvalues llt_solve sel em sm mi scan T).
  generalize (localizer_result principal qr find downsample eigenvalues llt_solve sel (map mv em) (map mv sm) mi scan (mp T)).
  intros o o' L. destruct o' as [r| | | | |]; cbn in L; try (rewrite L; reflexivity).
  destruct o; try contradiction. cbn. f_equal. apply L.
Qed.
End Move.

(** * The node, whatever happens to the poses *)
Section Node.
Variable A : arith.
Variable P Scan : Type.
Variable f : P -> P.
Notation ren := (map (fun x : D A * P => (fst x, f (snd x)))).

Lemma insert_map t o m : st_insert t (f o) (ren m) = ren (st_insert t o m).
Proof.
  induction m as [|[k v] m IH]; cbn; auto. destruct (d_ltb A k t); cbn; [congruence|]. destruct (d_ltb A t k); reflexivity.
Qed.
Lemma lower_map t m : st_lower_bound t (ren m) = (ren (fst (st_lower_bound t m)), ren (snd (st_lower_bound t m))).
Proof.
  induction m as [|[k v] m IH]; cbn; auto. destruct (d_ltb A k t); [|reflexivity]. rewrite IH. destruct (st_lower_bound t m); reflexivity.
Qed.
Lemma upper_map t m : st_upper_bound t (ren m) = (ren (fst (st_upper_bound t m)), ren (snd (st_upper_bound t m))).
Proof.
  induction m as [|[k v] m IH]; cbn; auto. destruct (d_ltb A t k); [reflexivity|]. rewrite IH. destruct (st_upper_bound t m); reflexivity.
Qed.
Lemma prev_map m : st_prev (ren m) = omap (fun x => (fst x, f (snd x))) (st_prev m).
Proof. unfold st_prev. rewrite <- map_rev. destruct (rev m); reflexivity. Qed.
Lemma closest_map t m : st_get_closest t (ren m) = omap (fun x => (fst x, f (snd x))) (st_get_closest t m).
Proof.
  unfold st_get_closest. rewrite lower_map. destruct (st_lower_bound t m) as [b [|[t1 o1] r]]; cbn [fst snd map].
  - destruct b as [|x b]; [reflexivity|]. change (ren (x :: b)) with ((fst x, f (snd x)) :: ren b). cbn iota. apply (prev_map (x :: b)).
  - destruct b as [|x b]; cbn [map]; [reflexivity|]. change ((fst x, f (snd x)) :: ren b) with (ren (x :: b)). rewrite prev_map.
    destruct (st_prev (x :: b)) as [[t0 o0]| | | | |]; cbn; auto. destruct (d_ltb A _ _); reflexivity.
Qed.
Lemma remove_map t m : st_remove_older_than t (ren m) = omap ren (st_remove_older_than t m).
Proof.
  unfold st_remove_older_than. rewrite upper_map. destruct (st_upper_bound t m) as [b [|x r]]; cbn [fst snd map]; [destruct b; reflexivity|].
  destruct b as [|y b]; reflexivity.
Qed.

Variable loc loc' : Scan -> P -> outcome P.
Variable good : Scan -> Prop.
Hypothesis H : forall x p, good x -> loc' x (f p) = omap f (loc x p).
Definition ren_out (m : published P) : published P :=
  {| pub_stamp := pub_stamp m; pub_pose := f (pub_pose m); tf_stamp := tf_stamp m; tf_pose := f (tf_pose m) |}.
Definition ren_node (n : node A P) : node A P := {| priors := ren (priors n); outs := map ren_out (outs n) |}.
Definition ren_event (e : event P Scan) : event P Scan := match e with EvPrior s p => EvPrior s (f p) | EvScan s x => EvScan s x end.
Lemma step_map n e : match e with EvScan _ x => good x | _ => True end ->
  node_step A P Scan loc' (ren_node n) (ren_event e) = omap ren_node (node_step A P Scan loc n e).
Proof.
  destruct e as [s p|s x]; cbn [ren_event node_step]; intros G.
  - unfold on_prior. cbn [priors outs ren_node]. rewrite insert_map. reflexivity.
  - unfold on_scan. cbn [priors ren_node]. destruct n as [[|y m] o]; cbn [priors outs map]; [reflexivity|].
    change ((fst y, f (snd y)) :: ren m) with (ren (y :: m)). rewrite closest_map, remove_map.
    destruct (st_get_closest _ (y :: m)) as [p| | | | |]; cbn [omap bind]; auto.
    destruct (st_remove_older_than _ (y :: m)) as [r| | | | |]; cbn [omap bind]; auto.
    cbn [snd]. rewrite H by auto. destruct (loc x (snd p)); cbn [omap bind]; auto.
    unfold ren_node. cbn [priors outs]. rewrite map_app. reflexivity.
Qed.
Lemma run_map h : (forall s x, In (EvScan s x) h -> good x) ->
  node_run A P Scan loc' (map ren_event h) = omap ren_node (node_run A P Scan loc h).
Proof.
  unfold node_run. intros G. change {| priors := []; outs := [] |} with (ren_node {| priors := []; outs := [] |}) at 1.
  generalize (@Build_node A P [] []). induction h as [|e h IH]; intros n; cbn [map foldM]; [reflexivity|].
  rewrite step_map. 2:{ destruct e; auto. apply (G stamp). left. auto. }
  destruct (node_step A P Scan loc n e) as [n'| | | | |]; cbn [omap bind]; auto. apply IH. intros s x Hx. apply (G s). right. auto.
Qed.
End Node.
