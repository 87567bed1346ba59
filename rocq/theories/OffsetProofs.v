(** A run of the optimiser from a pose with the right orientation and a wrong position. *)
From Coq Require Import List ZArith Bool Reals Lra Lia Permutation.
From Verif Require Import Base Arith LibModel SpecLib LibProofs LocModel PoseModel OptModel ProblemModel SpecPose SpecOpt SpecStep
  AngleProofs RotProofs Prop_Rotation OptProofs StepProofs WitnessProofs SpecFit FitProofs FitRunProofs.
Import ListNotations.
Open Scope R_scope.

(** ** Bounds of the scale *)
Lemma rsort_nth v i : (i < length v)%nat -> In (nth i (rsort v) 0) v.
Proof.
  intros H. apply (Permutation_in _ (Permutation_sym (rsort_perm v))). apply nth_In.
  rewrite <- (Permutation_length (rsort_perm v)). auto.
Qed.
Lemma med_bounds v lo hi : v <> [] -> Forall (fun x => lo <= x <= hi) v -> lo <= med v <= hi.
Proof.
  intros Hv H. assert (L : (0 < length v)%nat) by (destruct v; [congruence|cbn; lia]).
  assert (G : forall i, (i < length v)%nat -> lo <= nth i (rsort v) 0 <= hi).
  { intros i Hi. rewrite Forall_forall in H. apply H, rsort_nth, Hi. }
  assert (L2 : (length v / 2 < length v)%nat) by (apply Nat.div_lt; lia).
  unfold med. destruct (Nat.odd (length v)); [apply G; auto|].
  pose proof (G (length v / 2)%nat L2). pose proof (G (length v / 2 - 1)%nat ltac:(lia)). lra.
Qed.
Lemma madv_bounds v hi : v <> [] -> Forall (fun x => 0 <= x <= hi) v -> 0 <= madv v <= hi.
Proof.
  intros Hv H. pose proof (med_bounds v 0 hi Hv H) as B. unfold madv. apply med_bounds; [destruct v; [congruence|discriminate]|].
  rewrite Forall_map. eapply Forall_impl; [|exact H]. intros x Hx. cbv beta in *. split; [apply Rabs_pos|]. apply Rabs_le. lra.
Qed.

Lemma rdot_nonneg r : 0 <= rdot r.
Proof. unfold rdot. induction r as [|x r IH]; cbn [map fold_right]; [lra|]. pose proof (Rle_0_sqr x). unfold Rsqr in *. lra. Qed.
Lemma fold_sum (l : list R) a : fold_left Rplus l a = a + fold_right Rplus 0 l.
Proof. revert a. induction l as [|x l IH]; intros a; cbn [fold_left fold_right]; [ring|]. rewrite IH. ring. Qed.
Lemma errors_total rs : fold_left Rplus (map rdot rs) 0 = total_error rs.
Proof. rewrite fold_sum. unfold total_error, rdot. ring. Qed.
Lemma errors_bounded rs : Forall (fun e => 0 <= e <= total_error rs) (map rdot rs).
Proof.
  induction rs as [|r rs IH]; cbn [map]; constructor.
  - change (total_error (r :: rs)) with (rdot r + total_error rs). pose proof (rdot_nonneg r).
    assert (0 <= total_error rs); [|lra]. clear IH. induction rs as [|r' rs IH]; [unfold total_error; cbn; lra|].
    change (total_error (r' :: rs)) with (rdot r' + total_error rs). pose proof (rdot_nonneg r'). lra.
  - eapply Forall_impl; [|exact IH]. intros e He. cbv beta in *. change (total_error (r :: rs)) with (rdot r + total_error rs).
    pose proof (rdot_nonneg r). lra.
Qed.

(** a residual that is what the Jacobian makes of a displacement [d] *)
Definition displaced (d : vec) (J : mat) (r : list R) : Prop :=
  Forall2 (fun row e => e = nth 4 row 0 * vx d + nth 5 row 0 * vy d + nth 6 row 0 * vz d) J r.

Section Offset.
Variable eig : nat -> (nat -> nat -> R) -> list R.
Variable llt : nat -> (nat -> nat -> R) -> (nat -> R) -> (nat -> R).
Hypothesis HL : solves_positive_definite llt.

(** the step back *)
Definition back (d : vec) (k : nat) : R := match k with 3%nat => - vx d | 4%nat => - vy d | 5%nat => - vz d | _ => 0 end.

Lemma back_tangent q d i : (i < 7)%nat -> mapp (make_m q) (back d) i =
  match i with 4%nat => - vx d | 5%nat => - vy d | 6%nat => - vz d | _ => 0 end.
Proof.
  intros Hi. rewrite <- tangent_mapp by auto. destruct q as [a b c e].
  do 7 (destruct i as [|i]; [unfold tangent, hamilton, coords, vdot, vadd, vscale, vcross, qvec; cbn; field|]). lia.
Qed.
Lemma back_rho q d t : rho t (mapp (make_m q) (back d)) = - (t_row t 4 * vx d + t_row t 5 * vy d + t_row t 6 * vz d).
Proof.
  unfold rho. rewrite (total_ext 7 _ (fun i => t_row t i * match i with 4%nat => - vx d | 5%nat => - vy d | 6%nat => - vz d | _ => 0 end))
    by (intros i Hi; rewrite back_tangent; auto).
  unfold total. cbn [seq map fold_right]. ring.
Qed.

Lemma offset_step q w (Js : list mat) (rs : list (list R)) d : unit q -> well_shaped Js rs -> length w = length rs ->
  Forall (fun c => 0 < c) w -> eigenvalues_of 7 (normal_matrix Js) (eig 7%nat (normal_matrix Js)) ->
  (forall e, In e (eig 7%nat (normal_matrix Js)) -> / 10 <= Rabs e) ->
  Forall2 (displaced d) Js rs -> calc_update eig llt q w Js rs = Ok (qid, V3 (- vx d) (- vy d) (- vz d)).
Proof.
  intros Uq HS Hw HP HE Hnd HD.
  assert (HwJ : length w = length Js) by (destruct (shape_checks Js rs HS); congruence).
  destruct (step_minimises eig llt HL q Uq w Js rs HS HwJ HP HE Hnd) as [x [Ex Hx]].
  rewrite Ex. specialize (Hx (back d)).
  rewrite !linear_error_flat in Hx by auto using tangent_len.
  assert (EX : forall z t, rho t (fun i => nth i (tangent q z) 0) = rho t (mapp (make_m q) z)).
  { intros z t. unfold rho. apply total_ext. intros i Hi. rewrite tangent_mapp by auto. reflexivity. }
  assert (R0 : forall t, In t (flat w Js rs) -> t_res t = - rho t (mapp (make_m q) (back d))).
  { intros t Ht. rewrite back_rho. unfold flat in Ht. apply in_flat_map in Ht. destruct Ht as [[c [J r]] [H1 H2]].
    apply in_map_iff in H2. destruct H2 as [[row res] [<- H2]]. cbn [fst snd] in *. unfold t_res, t_row. cbn [fst snd].
    apply in_combine_r in H1.
    assert (HJ : displaced d J r).
    { clear - HD H1. induction HD as [|J0 r0 Js rs H0 HD IH]; [destruct H1|]. destruct H1 as [E|H1]; [injection E as <- <-; auto|auto]. }
    unfold displaced in HJ. clear - HJ H2. induction HJ as [|a b J r Hab HJ IH]; [destruct H2|].
    destruct H2 as [E|H2]; [injection E as <- <-; rewrite Hab; ring|auto]. }
  rewrite (lsum_ext (fun t => t_w t * (t_res t + rho t (fun i => nth i (tangent q (back d)) 0)) *
     (t_res t + rho t (fun i => nth i (tangent q (back d)) 0))) (fun _ => 0)) in Hx.
  2: { intros t Ht. rewrite (R0 t Ht), EX. ring. }
  rewrite lsum_zero in Hx.
  set (y := fun k => x k - back d k).
  assert (EY : forall t, rho t (mapp (make_m q) y) = rho t (mapp (make_m q) x) - rho t (mapp (make_m q) (back d))).
  { intros t. unfold rho, y. unfold mapp, total. cbn [seq map fold_right]. ring. }
  rewrite (lsum_ext _ (fun t => t_w t * (rho t (mapp (make_m q) y) * rho t (mapp (make_m q) y)))) in Hx.
  2: { intros t Ht. rewrite (R0 t Ht), EX, EY. ring. }
  assert (Z : ~ nonzero 7 (mapp (make_m q) y)).
  { intros N. pose proof (normal_pd eig w Js rs HS HwJ HE Hnd _ N) as P1.
    assert (P2 : 0 < lsum (fun t => t_w t * (rho t (mapp (make_m q) y) * rho t (mapp (make_m q) y))) (flat w Js rs)).
    { apply (weighted_pos (fun t => rho t (mapp (make_m q) y) * rho t (mapp (make_m q) y))); auto.
      - intros t Ht. eapply weights_pos; eauto.
      - intros t. apply Rle_0_sqr. }
    lra. }
  assert (T0 : total 7 (fun i => mapp (make_m q) y i * mapp (make_m q) y i) = 0).
  { transitivity (total 7 (fun _ => 0)); [|apply total_zero]. apply total_ext. intros i Hi.
    destruct (Req_dec (mapp (make_m q) y i) 0) as [E|E]; [rewrite E; ring|]. exfalso. apply Z. exists i. auto. }
  rewrite (mapp_norm q y Uq) in T0.
  pose proof (Rle_0_sqr (y 0%nat)). pose proof (Rle_0_sqr (y 1%nat)). pose proof (Rle_0_sqr (y 2%nat)).
  pose proof (Rle_0_sqr (y 3%nat)). pose proof (Rle_0_sqr (y 4%nat)). pose proof (Rle_0_sqr (y 5%nat)).
  unfold Rsqr in *.
  assert (Y : forall i, (i < 6)%nat -> x i = back d i).
  { intros i Hi. apply Rminus_diag_uniq. change (y i = 0). do 6 (destruct i as [|i]; [apply Rsqr_0_uniq; unfold Rsqr; lra|]). lia. }
  rewrite !Y by lia. cbn [back]. rewrite aa_zero. reflexivity.
Qed.

Variable sel : selector exact.
Hypothesis HN : valid_nth exact sel.

Lemma offset_run problem max_iter T0 T Js rs Js' rs' : is_rotation (lin T) -> lin T0 = lin T -> (2 <= max_iter)%Z ->
  problem T0 = Ok (Js, rs) -> rs <> [] -> well_shaped Js rs -> Forall2 (displaced (vsub (tra T0) (tra T))) Js rs ->
  total_error rs <= dbl_max / 2 ->
  eigenvalues_of 7 (normal_matrix Js) (eig 7%nat (normal_matrix Js)) ->
  (forall e, In e (eig 7%nat (normal_matrix Js)) -> / 10 <= Rabs e) ->
  problem T = Ok (Js', rs') -> rs' <> [] -> well_shaped Js' rs' -> Forall zeros rs' ->
  eigenvalues_of 7 (normal_matrix Js') (eig 7%nat (normal_matrix Js')) ->
  exists e s, optimize eig llt sel problem max_iter T0 = Ok (successfully_converged exact pose T 0 e s) \/
    optimize eig llt sel problem max_iter T0 = Ok (successfully_converged exact pose T 1 0 0).
Proof.
  intros HR HR0 HM HPb Hne HS HD Hbig HE Hnd HPb' Hne' HS' HZ HE'. unfold optimize, opt_run.
  assert (HRR : is_rotation (lin T0)) by (rewrite HR0; auto).
  pose proof (make_of_pose T0 HRR) as MP. unfold of_pose in *. cbn [fst snd] in MP.
  pose proof (make_of_pose T HR) as MP'. unfold of_pose in MP'. cbn [fst snd] in MP'. rewrite <- HR0 in MP'.
  set (q := quat_of (lin T0)) in *. assert (Uq : unit q) by (apply quat_of_ok; auto).
  destruct (Z.to_nat max_iter) as [|[|k]] eqn:Ek; [lia|lia|]. cbn [opt_loop]. rewrite MP, HPb. cbn [bind].
  assert (Ene : map rdot rs <> []) by (destruct rs; [congruence|discriminate]).
  unfold normalize_error_scale, compute_errors, sum_errors.
  pose proof (errors_bounded rs) as EB.
  assert (MB : 0 <= madv (map rdot rs) <= total_error rs) by (apply madv_bounds; auto).
  assert (SB : 0 <= b_robust * madv (map rdot rs) <= dbl_max).
  { unfold b_robust. lra. }
  destruct rs as [|r0 rs0] eqn:Ers; [congruence|]. rewrite <- Ers in *. clear Ers.
  change (D exact) with R. rewrite (scale_defined sel _ HN Ene). cbn [bind].
  change (fold_left (d_add exact) (map rdot rs) (d_of_Z exact 0)) with (fold_left Rplus (map rdot rs) 0).
  rewrite errors_total. change (d_ltb exact dbl_max (total_error rs)) with (Rltb dbl_max (total_error rs)).
  pose proof dbl_max_big as HB.
  rewrite (lt_false dbl_max (total_error rs)) by lra.
  change (d_ltb exact dbl_max (b_robust * madv (map rdot rs))) with (Rltb dbl_max (b_robust * madv (map rdot rs))).
  rewrite (lt_false dbl_max (b_robust * madv (map rdot rs))) by lra.
  set (w := compute_weights exact k_robust _).
  assert (Hw : length w = length rs) by (unfold w, compute_weights; rewrite !map_length; reflexivity).
  assert (HP : Forall (fun c => 0 < c) w).
  { unfold w, compute_weights. apply Forall_forall. intros c Hc. apply in_map_iff in Hc. destruct Hc as [e [<- _]]. apply huber_pos. }
  rewrite (offset_step q w Js rs _ Uq HS Hw HP HE Hnd HD). cbn [bind]. clear w Hw HP.
  rewrite qmul_id.
  assert (ET : vadd (tra T0) (V3 (- vx (vsub (tra T0) (tra T))) (- vy (vsub (tra T0) (tra T))) (- vz (vsub (tra T0) (tra T)))) = tra T).
  { destruct (tra T0) as [a b c], (tra T) as [a' b' c']. unfold vadd, vsub. cbn [vx vy vz]. f_equal; ring. }
  rewrite ET. destruct (check_convergence _ _).
  { eexists. eexists. left. rewrite MP'. cbn [bind]. rewrite (proj2 (Z.ltb_ge max_iter 0)) by lia. reflexivity. }
  exists 0, 0. right. rewrite MP', HPb'. cbn [bind].
  assert (EZ : zeros (map rdot rs')).
  { unfold zeros. rewrite Forall_map. eapply Forall_impl; [|exact HZ]. intros r Hr. apply zero_rdot; auto. }
  assert (Ene' : map rdot rs' <> []) by (destruct rs'; [congruence|discriminate]).
  destruct rs' as [|r1 rs1] eqn:Ers; [congruence|]. rewrite <- Ers in *. clear Ers.
  pose proof (zero_scale sel HN _ Ene' EZ) as ES. change (D exact) with R. rewrite ES. cbn [bind].
  pose proof (zero_sum _ EZ) as ESu.
  change (fold_left (d_add exact) (map rdot rs') (d_of_Z exact 0)) with (fold_left Rplus (map rdot rs') 0).
  rewrite ESu. change (d_ltb exact (total_error rs) 0) with (Rltb (total_error rs) 0). rewrite (lt_false (total_error rs) 0) by lra.
  change (d_ltb exact (b_robust * madv (map rdot rs)) 0) with (Rltb (b_robust * madv (map rdot rs)) 0).
  rewrite (lt_false (b_robust * madv (map rdot rs)) 0) by lra.
  set (w := compute_weights exact k_robust _).
  assert (Hw : length w = length rs') by (unfold w, compute_weights; rewrite !map_length; reflexivity).
  assert (HP : Forall (fun c => 0 < c) w).
  { unfold w, compute_weights. apply Forall_forall. intros c Hc. apply in_map_iff in Hc. destruct Hc as [e [<- _]]. apply huber_pos. }
  rewrite (zero_step eig llt HL q w Js' rs' Uq HS' Hw HP HE' HZ). cbn [bind]. rewrite converged_zero.
  rewrite qmul_id, vadd_zero, MP'. cbn [bind].
  rewrite (proj2 (Z.ltb_ge max_iter 0)) by lia. reflexivity.
Qed.
End Offset.

(** ** The terms of the localizer's problem *)
Lemma transform_moved T0 T p : lin T0 = lin T -> transform T0 p = vadd (transform T p) (vsub (tra T0) (tra T)).
Proof.
  intros E. unfold transform. rewrite E. destruct (tra T0) as [a b c], (tra T) as [a' b' c'], (mapply (lin T) p) as [u v w].
  unfold vadd, vsub. cbn [vx vy vz]. f_equal; ring.
Qed.

Section Problem.
Variable principal : mat3 -> vec.
Variable qr_solve : list vec -> list R -> vec.
Variable find_neighbors : list vec -> vec -> nat -> list nat.

Lemma edge_displaced map_ n T0 T p0 X : lin T0 = lin T -> nearest_k_search vec find_neighbors map_ (transform T0 p0) n = Ok X ->
  line_through X (transform T p0) ->
  (forall m C, mean_and_covariance X = Ok (m, C) -> principal_direction C (principal C)) ->
  exists y, edge_term principal find_neighbors map_ n T0 p0 = Ok y /\
    length (fst y) = length (snd y) /\ Forall (fun row => length row = 7%nat) (fst y) /\ displaced (vsub (tra T0) (tra T)) (fst y) (snd y).
Proof.
  intros EL HX [a [u [H1 [H2 H3]]]] HP. unfold edge_term, edge_fit. rewrite HX. cbn [bind].
  destruct (mean_cov_ok X) as [m [C HM]]; [destruct H3 as [x [_ [Hx _]]]; intros ->; destruct Hx|].
  specialize (HP m C HM). rewrite HM. cbn [bind fst snd]. eexists. split; [reflexivity|]. cbn [fst snd].
  split; [reflexivity|]. split; [repeat constructor|].
  set (v := principal C) in *.
  assert (E : edge_residual T p0 (vsub m v) (vadd m v) = V3 0 0 0).
  { apply C48_edge_zero_iff_on_line.
    - intros E. destruct HP as [Hv _]. destruct v as [v1 v2 v3], m as [m1 m2 m3]. unfold vsub, vadd, vdot in *. cbn [vx vy vz] in *.
      injection E as E1 E2 E3. assert (v1 = 0) by lra. assert (v2 = 0) by lra. assert (v3 = 0) by lra. subst. lra.
    - apply ray_line. apply (found_line X m C v a u); auto. }
  unfold edge_residual in *. rewrite (transform_moved T0 T p0 EL). set (d := vsub (tra T0) (tra T)).
  destruct (transform T p0) as [x y z], d as [d1 d2 d3], m as [m1 m2 m3], v as [v1 v2 v3].
  unfold vcross, vsub, vadd in E. cbn [vx vy vz] in E. injection E as E1 E2 E3.
  unfold displaced, edge_jacobian, vlist, vcross, vsub, vadd. cbn [vx vy vz hat beside mat_mul map combine fst snd row_mul seq app nth].
  apply Forall2_cons; [cbn; lra|]. apply Forall2_cons; [cbn; lra|]. apply Forall2_cons; [cbn; lra|]. apply Forall2_nil.
Qed.

Lemma surface_displaced map_ n T0 T p X : lin T0 = lin T -> nearest_k_search vec find_neighbors map_ (transform T0 p) n = Ok X ->
  plane_through X (transform T p) -> solves_least_squares qr_solve X (repeat (-1) (length X)) ->
  exists y, surface_term qr_solve find_neighbors map_ n T0 p = Ok y /\
    length (fst y) = length (snd y) /\ Forall (fun row => length row = 7%nat) (fst y) /\ displaced (vsub (tra T0) (tra T)) (fst y) (snd y).
Proof.
  intros EL HX [k [d [Hd [H1 [H2 H3]]]]] HQ. unfold surface_term, plane_fit. rewrite HX. cbn [bind].
  eexists. split; [reflexivity|]. cbn [fst snd]. split; [reflexivity|]. split; [repeat constructor|].
  rewrite (exact_plane qr_solve X k d) by auto. unfold in_plane in H2. unfold signed_distance, surface_jacobian.
  rewrite (transform_moved T0 T p EL). set (o := vsub (tra T0) (tra T)).
  assert (E : vdot (vscale (- / d) k) (vadd (transform T p) o) + 1 = vdot (vscale (- / d) k) o).
  { replace (vdot (vscale (- / d) k) (vadd (transform T p) o)) with (- / d * vdot k (transform T p) + vdot (vscale (- / d) k) o)
      by (unfold vdot, vscale, vadd; cbn [vx vy vz]; ring).
    rewrite H2. replace (- / d * d) with (-1) by (field; auto). ring. }
  rewrite E. set (w := vscale (- / d) k). unfold displaced, vlist, vscale, row_mul. cbn [vx vy vz app seq map nth].
  apply Forall2_cons; [|apply Forall2_nil]. generalize (vnorm w). intros nw. destruct w as [w1 w2 w3], o as [o1 o2 o3]. cbn. unfold Rdiv, vdot. cbn [vx vy vz]. ring.
Qed.
End Problem.

Lemma displaced_split d (l : list (mat * list R)) :
  Forall (fun y => length (fst y) = length (snd y) /\ Forall (fun row => length row = 7%nat) (fst y) /\ displaced d (fst y) (snd y)) l ->
  well_shaped (map fst l) (map snd l) /\ Forall2 (displaced d) (map fst l) (map snd l).
Proof.
  intros H. unfold well_shaped. induction H as [|y l [H1 [H2 H3]] H [I1 I2]]; [split; constructor|]. cbn [map]. split; constructor; auto.
Qed.

Definition displaced_term (d : vec) (y : mat * list R) : Prop :=
  length (fst y) = length (snd y) /\ Forall (fun row => length row = 7%nat) (fst y) /\ displaced d (fst y) (snd y).
Lemma loam_displaced principal qr_solve find_neighbors downsample edge_map surface_map n scan T' T :
  lin T' = lin T -> fst scan <> [] \/ downsample (snd scan) <> [] ->
  (forall p, In p (fst scan) -> exists X,
     nearest_k_search vec find_neighbors edge_map (transform T' p) n = Ok X /\ line_through X (transform T p) /\
     forall m C, mean_and_covariance X = Ok (m, C) -> principal_direction C (principal C)) ->
  (forall p, In p (downsample (snd scan)) -> exists X,
     nearest_k_search vec find_neighbors surface_map (transform T' p) n = Ok X /\ plane_through X (transform T p) /\
     solves_least_squares qr_solve X (repeat (-1) (length X))) ->
  exists l, loam_problem principal qr_solve find_neighbors downsample edge_map surface_map n scan T' = Ok (map fst l, map snd l) /\
    Forall (displaced_term (vsub (tra T') (tra T))) l /\ map snd l <> [].
Proof.
  intros EL Hne HEd HSu.
  destruct (mapM_all (edge_term principal find_neighbors edge_map n T') (displaced_term (vsub (tra T') (tra T))) (fst scan)) as [es [E1 [E2 E3]]].
  { intros p Hp. destruct (HEd p Hp) as [X [HX [H1 H2]]]. eapply edge_displaced; eauto. }
  destruct (mapM_all (surface_term qr_solve find_neighbors surface_map n T') (displaced_term (vsub (tra T') (tra T))) (downsample (snd scan))) as [ss [S1 [S2 S3]]].
  { intros p Hp. destruct (HSu p Hp) as [X [HX [H1 H2]]]. eapply surface_displaced; eauto. }
  exists (es ++ ss). split; [|split].
  - unfold loam_problem. rewrite E1. cbn [bind]. rewrite S1. cbn [bind]. rewrite !map_app. reflexivity.
  - apply Forall_app; auto.
  - intros E. assert (L : length (map snd (es ++ ss)) = 0%nat) by (rewrite E; reflexivity).
    rewrite map_length, app_length, E3, S3 in L. destruct Hne as [N|N]; apply N; apply length_zero_iff_nil; lia.
Qed.
(** the residuals are then determined by the Jacobians *)
Definition displacement (d : vec) (row : list R) : R := nth 4 row 0 * vx d + nth 5 row 0 * vy d + nth 6 row 0 * vz d.
Lemma displaced_residuals d Js rs : Forall2 (displaced d) Js rs -> rs = map (map (displacement d)) Js.
Proof.
  induction 1 as [|J r Js rs H _ IH]; [reflexivity|]. cbn [map]. f_equal; auto.
  clear - H. induction H as [|row e J r H _ IH]; [reflexivity|]. cbn [map]. f_equal; auto.
Qed.
