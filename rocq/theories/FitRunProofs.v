(** A scan that fits the maps exactly leaves the pose as it is. *)
From Coq Require Import List ZArith Bool Reals Lra Lia.
From Verif Require Import Base Arith LibModel SpecLib LibProofs LocModel PoseModel OptModel ProblemModel SpecPose SpecOpt SpecStep
  AngleProofs RotProofs Prop_Rotation OptProofs StepProofs WitnessProofs SpecFit FitProofs.
Import ListNotations.
Open Scope R_scope.

Lemma mapM_all {X Y} (f : X -> outcome Y) (P : Y -> Prop) l :
  (forall x, In x l -> exists y, f x = Ok y /\ P y) -> exists ys, mapM f l = Ok ys /\ Forall P ys /\ length ys = length l.
Proof.
  induction l as [|x l IH]; intros H; [exists []; auto|].
  destruct (H x (or_introl eq_refl)) as [y [Hy Py]].
  destruct IH as [ys [H1 [H2 H3]]]; [intros; apply H; right; auto|].
  exists (y :: ys). cbn [mapM]. rewrite Hy. cbn [bind]. rewrite H1. cbn [bind length]. auto.
Qed.

Definition zeros (r : list R) : Prop := Forall (fun e => e = 0) r.

Section Zero.
Variable eig : nat -> (nat -> nat -> R) -> list R.
Variable llt : nat -> (nat -> nat -> R) -> (nat -> R) -> (nat -> R).
Hypothesis HL : solves_positive_definite llt.

Lemma zero_step q w (Js : list mat) (rs : list (list R)) : unit q -> well_shaped Js rs -> length w = length rs ->
  Forall (fun c => 0 < c) w -> eigenvalues_of 7 (normal_matrix Js) (eig 7%nat (normal_matrix Js)) ->
  Forall zeros rs -> calc_update eig llt q w Js rs = Ok (qid, V3 0 0 0).
Proof.
  intros Uq HS Hw HP HE HZ.
  destruct (Classical_Prop.classic (exists e, In e (eig 7%nat (normal_matrix Js)) /\ Rabs e < / 10)) as [Hd|Hd].
  { apply degenerate_step; auto. }
  assert (Hnd : forall e, In e (eig 7%nat (normal_matrix Js)) -> / 10 <= Rabs e).
  { intros e He. destruct (Rle_lt_dec (/ 10) (Rabs e)); auto. exfalso. apply Hd. eauto. }
  assert (HwJ : length w = length Js) by (destruct (shape_checks Js rs HS); congruence).
  destruct (step_minimises eig llt HL q Uq w Js rs HS HwJ HP HE Hnd) as [x [Ex Hx]].
  rewrite Ex. specialize (Hx (fun _ => 0)).
  rewrite !linear_error_flat in Hx by auto using tangent_len.
  assert (R0 : forall t, In t (flat w Js rs) -> t_res t = 0).
  { intros t Ht. unfold flat in Ht. apply in_flat_map in Ht. destruct Ht as [[c [J r]] [H1 H2]].
    apply in_map_iff in H2. destruct H2 as [[row res] [<- H2]]. cbn [fst snd] in *. unfold t_res. cbn [fst snd].
    apply in_combine_r in H1. apply in_combine_r in H1. apply in_combine_r in H2.
    rewrite Forall_forall in HZ. specialize (HZ r H1). unfold zeros in HZ. rewrite Forall_forall in HZ. auto. }
  rewrite (lsum_ext (fun t => t_w t * (t_res t + rho t (fun i => nth i (tangent q (fun _ => 0)) 0)) *
     (t_res t + rho t (fun i => nth i (tangent q (fun _ => 0)) 0))) (fun _ => 0)) in Hx.
  2: { intros t Ht. rewrite (R0 t Ht).
       replace (rho t (fun i => nth i (tangent q (fun _ => 0)) 0)) with 0; [ring|].
       unfold rho. symmetry. transitivity (total 7 (fun _ => 0)); [|apply total_zero]. apply total_ext. intros i Hi. rewrite tangent_mapp by auto.
       unfold mapp. rewrite (total_ext 6 _ (fun _ => 0)) by (intros; ring). rewrite total_zero. ring. }
  rewrite lsum_zero in Hx.
  rewrite (lsum_ext _ (fun t => t_w t * (rho t (mapp (make_m q) x) * rho t (mapp (make_m q) x)))) in Hx.
  2: { intros t Ht. rewrite (R0 t Ht).
       replace (rho t (fun i => nth i (tangent q x) 0)) with (rho t (mapp (make_m q) x)); [ring|].
       unfold rho. apply total_ext. intros i Hi. rewrite tangent_mapp by auto. reflexivity. }
  assert (Z : ~ nonzero 7 (mapp (make_m q) x)).
  { intros N. pose proof (normal_pd eig w Js rs HS HwJ HE Hnd _ N) as P1.
    assert (P2 : 0 < lsum (fun t => t_w t * (rho t (mapp (make_m q) x) * rho t (mapp (make_m q) x))) (flat w Js rs)).
    { apply (weighted_pos (fun t => rho t (mapp (make_m q) x) * rho t (mapp (make_m q) x))); auto.
      - intros t Ht. eapply weights_pos; eauto.
      - intros t. apply Rle_0_sqr. }
    lra. }
  assert (T0 : total 7 (fun i => mapp (make_m q) x i * mapp (make_m q) x i) = 0).
  { transitivity (total 7 (fun _ => 0)); [|apply total_zero]. apply total_ext. intros i Hi.
    destruct (Req_dec (mapp (make_m q) x i) 0) as [E|E]; [rewrite E; ring|]. exfalso. apply Z. exists i. auto. }
  rewrite (mapp_norm q x Uq) in T0.
  pose proof (Rle_0_sqr (x 0%nat)). pose proof (Rle_0_sqr (x 1%nat)). pose proof (Rle_0_sqr (x 2%nat)).
  pose proof (Rle_0_sqr (x 3%nat)). pose proof (Rle_0_sqr (x 4%nat)). pose proof (Rle_0_sqr (x 5%nat)).
  unfold Rsqr in *.
  assert (X : forall i, (i < 6)%nat -> x i = 0).
  { intros i Hi. do 6 (destruct i as [|i]; [apply Rsqr_0_uniq; unfold Rsqr; lra|]). lia. }
  rewrite !X by lia. rewrite aa_zero. reflexivity.
Qed.

Variable sel : selector exact.
Hypothesis HN : valid_nth exact sel.

Lemma zero_scale (v : list R) : v <> [] -> zeros v -> scale exact sel b_robust v = Ok 0.
Proof.
  intros Hv HZ. rewrite scale_defined by auto. f_equal.
  assert (E : v = map (fun x => 0 * x + 0) v).
  { clear Hv. unfold zeros in HZ. induction HZ as [|x v Hx HZ IH]; [reflexivity|]. cbn [map]. rewrite <- IH. f_equal. lra. }
  rewrite E, mad_affine by auto. rewrite Rabs_R0. ring.
Qed.
Lemma zero_sum (v : list R) : zeros v -> fold_left Rplus v 0 = 0.
Proof. intros H. unfold zeros in H. induction H as [|x v Hx H IH]; [reflexivity|]. cbn [fold_left]. rewrite Hx, Rplus_0_r. auto. Qed.
Lemma zero_rdot r : zeros r -> rdot r = 0.
Proof.
  intros H. unfold rdot. unfold zeros in H. induction H as [|x v Hx H IH]; [reflexivity|]. cbn [map fold_right]. rewrite Hx, IH. ring.
Qed.

Lemma zero_run problem max_iter T Js rs : is_rotation (lin T) -> (1 <= max_iter)%Z ->
  problem T = Ok (Js, rs) -> rs <> [] -> well_shaped Js rs -> Forall zeros rs ->
  eigenvalues_of 7 (normal_matrix Js) (eig 7%nat (normal_matrix Js)) ->
  optimize eig llt sel problem max_iter T = Ok (successfully_converged exact pose T 0 0 0).
Proof.
  intros HR HM HPb Hne HS HZ HE. unfold optimize, opt_run.
  pose proof (make_of_pose T HR) as MP. unfold of_pose in *. cbn [fst snd] in MP.
  set (q := quat_of (lin T)) in *. assert (Uq : unit q) by (apply quat_of_ok; auto).
  destruct (Z.to_nat max_iter) as [|k] eqn:Ek; [lia|]. cbn [opt_loop]. rewrite MP, HPb. cbn [bind].
  assert (EZ : zeros (map rdot rs)).
  { unfold zeros. rewrite Forall_map. eapply Forall_impl; [|exact HZ]. intros r Hr. apply zero_rdot; auto. }
  assert (Ene : map rdot rs <> []) by (destruct rs; [congruence|discriminate]).
  unfold normalize_error_scale, compute_errors, sum_errors.
  destruct rs as [|r0 rs0] eqn:Ers; [congruence|]. rewrite <- Ers in *. clear Ers.
  pose proof (zero_scale _ Ene EZ) as ES. change (D exact) with R. rewrite ES. cbn [bind].
  pose proof (zero_sum _ EZ) as ESu.
  change (fold_left (d_add exact) (map rdot rs) (d_of_Z exact 0)) with (fold_left Rplus (map rdot rs) 0).
  rewrite ESu. change (d_ltb exact dbl_max 0) with (Rltb dbl_max 0).
  rewrite (lt_false dbl_max 0) by (pose proof dbl_max_big; lra).
  set (w := compute_weights exact k_robust _).
  assert (Hw : length w = length rs) by (unfold w, compute_weights; rewrite !map_length; reflexivity).
  assert (HP : Forall (fun c => 0 < c) w).
  { unfold w, compute_weights. apply Forall_forall. intros c Hc. apply in_map_iff in Hc. destruct Hc as [e [<- _]]. apply huber_pos. }
  rewrite (zero_step q w Js rs Uq HS Hw HP HE HZ). cbn [bind]. rewrite converged_zero.
  rewrite qmul_id, vadd_zero, MP. cbn [bind].
  rewrite (proj2 (Z.ltb_ge max_iter 0)) by lia. reflexivity.
Qed.
End Zero.

Section Problem.
Variable principal : mat3 -> vec.
Variable qr_solve : list vec -> list R -> vec.
Variable find_neighbors : list vec -> vec -> nat -> list nat.
Variable downsample : list vec -> list vec.

Lemma edge_zero map_ n T p0 X : nearest_k_search vec find_neighbors map_ (transform T p0) n = Ok X ->
  line_through X (transform T p0) ->
  (forall m C, mean_and_covariance X = Ok (m, C) -> principal_direction C (principal C)) ->
  exists y, edge_term principal find_neighbors map_ n T p0 = Ok y /\
    length (fst y) = length (snd y) /\ Forall (fun row => length row = 7%nat) (fst y) /\ zeros (snd y).
Proof.
  intros HX [a [u [H1 [H2 H3]]]] HP. unfold edge_term, edge_fit. rewrite HX. cbn [bind].
  destruct (mean_cov_ok X) as [m [C HM]]; [destruct H3 as [x [_ [Hx _]]]; intros ->; destruct Hx|].
  specialize (HP m C HM). rewrite HM. cbn [bind fst snd]. eexists. split; [reflexivity|]. cbn [fst snd].
  split; [reflexivity|]. split; [repeat constructor|].
  set (v := principal C) in *.
  assert (E : edge_residual T p0 (vsub m v) (vadd m v) = V3 0 0 0).
  { apply C48_edge_zero_iff_on_line.
    - intros E. destruct HP as [Hv _]. destruct v as [v1 v2 v3], m as [m1 m2 m3]. unfold vsub, vadd, vdot in *. cbn [vx vy vz] in *.
      injection E as E1 E2 E3. assert (v1 = 0) by lra. assert (v2 = 0) by lra. assert (v3 = 0) by lra. subst. lra.
    - apply ray_line. apply (found_line X m C v a u); auto. }
  rewrite E. repeat constructor.
Qed.

Lemma surface_zero map_ n T p X : nearest_k_search vec find_neighbors map_ (transform T p) n = Ok X ->
  plane_through X (transform T p) -> solves_least_squares qr_solve X (repeat (-1) (length X)) ->
  exists y, surface_term qr_solve find_neighbors map_ n T p = Ok y /\
    length (fst y) = length (snd y) /\ Forall (fun row => length row = 7%nat) (fst y) /\ zeros (snd y).
Proof.
  intros HX [k [d [Hd [H1 [H2 H3]]]]] HQ. unfold surface_term, plane_fit. rewrite HX. cbn [bind].
  eexists. split; [reflexivity|]. cbn [fst snd]. split; [reflexivity|]. split; [repeat constructor|].
  rewrite (exact_plane qr_solve X k d) by auto. unfold in_plane in H2. unfold signed_distance.
  replace (vdot (vscale (- / d) k) (transform T p)) with (- / d * vdot k (transform T p)) by (unfold vdot, vscale; cbn [vx vy vz]; ring).
  rewrite H2. constructor; [|constructor]. replace (- / d * d + 1) with 0 by (field; auto). unfold Rdiv. ring.
Qed.
End Problem.

Lemma well_shaped_split (l : list (mat * list R)) :
  Forall (fun y => length (fst y) = length (snd y) /\ Forall (fun row => length row = 7%nat) (fst y) /\ zeros (snd y)) l ->
  well_shaped (map fst l) (map snd l) /\ Forall zeros (map snd l).
Proof.
  intros H. unfold well_shaped. induction H as [|y l [H1 [H2 H3]] H [I1 I2]]; [split; constructor|]. cbn [map]. split; constructor; auto.
Qed.

Lemma true_pose principal qr_solve find_neighbors downsample eig llt sel edge_map surface_map max_iter scan T :
  is_rotation (lin T) -> (1 <= max_iter)%Z -> fst scan <> [] \/ downsample (snd scan) <> [] ->
  (forall p, In p (fst scan) -> exists X,
     nearest_k_search vec find_neighbors edge_map (transform T p) n_neighbors = Ok X /\ line_through X (transform T p) /\
     forall m C, mean_and_covariance X = Ok (m, C) -> principal_direction C (principal C)) ->
  (forall p, In p (downsample (snd scan)) -> exists X,
     nearest_k_search vec find_neighbors surface_map (transform T p) n_neighbors = Ok X /\ plane_through X (transform T p) /\
     solves_least_squares qr_solve X (repeat (-1) (length X))) ->
  valid_nth exact sel -> solves_positive_definite llt ->
  (forall Js rs, loam_problem principal qr_solve find_neighbors downsample edge_map surface_map n_neighbors scan T = Ok (Js, rs) ->
     eigenvalues_of 7 (normal_matrix Js) (eig 7%nat (normal_matrix Js))) ->
  localizer_result principal qr_solve find_neighbors downsample eig llt sel edge_map surface_map max_iter scan T =
    Ok (successfully_converged exact pose T 0 0 0).
Proof.
  intros HR HM Hne HEd HSu HN HL HE.
  destruct (mapM_all (edge_term principal find_neighbors edge_map n_neighbors T)
    (fun y => length (fst y) = length (snd y) /\ Forall (fun row => length row = 7%nat) (fst y) /\ zeros (snd y)) (fst scan)) as [es [E1 [E2 E3]]].
  { intros p Hp. destruct (HEd p Hp) as [X [HX [H1 H2]]]. eapply edge_zero; eauto. }
  destruct (mapM_all (surface_term qr_solve find_neighbors surface_map n_neighbors T)
    (fun y => length (fst y) = length (snd y) /\ Forall (fun row => length row = 7%nat) (fst y) /\ zeros (snd y)) (downsample (snd scan))) as [ss [S1 [S2 S3]]].
  { intros p Hp. destruct (HSu p Hp) as [X [HX [H1 H2]]]. eapply surface_zero; eauto. }
  assert (HPb : loam_problem principal qr_solve find_neighbors downsample edge_map surface_map n_neighbors scan T =
    Ok (map fst (es ++ ss), map snd (es ++ ss))).
  { unfold loam_problem. rewrite E1. cbn [bind]. rewrite S1. cbn [bind]. rewrite !map_app. reflexivity. }
  destruct (well_shaped_split (es ++ ss)) as [W1 W2]; [apply Forall_app; auto|].
  unfold localizer_result. apply (zero_run eig llt HL sel HN _ _ _ _ _ HR HM HPb); auto; [|eapply HE; eauto].
  intros E. assert (L : length (map snd (es ++ ss)) = 0%nat) by (rewrite E; reflexivity).
  rewrite map_length, app_length, E3, S3 in L. destruct Hne as [N|N]; apply N; apply length_zero_iff_nil; lia.
Qed.
