(** C124: a wrong position with the right orientation is corrected in one step. *)
From Coq Require Import List ZArith Bool Reals Lra Lia.
From Verif Require Import Base Arith Spec LibModel SpecLib LibProofs LocModel PoseModel OptModel ProblemModel SpecPose SpecOpt SpecStep
  AngleProofs RotProofs Prop_Rotation StepProofs SolverProofs WitnessProofs Prop_Optimizer SpecFit FitProofs FitRunProofs Prop_Fit OffsetProofs
  SlopeProofs Prop_Slope Prop_RotMap Prop_MirrorMap.
Import ListNotations.
Open Scope R_scope.

(** The matrix of the linear problem has no eigenvalue near zero (the bound 0.1 is that of the code). *)
Definition determined_problem (eig : nat -> (nat -> nat -> R) -> list R) (Js : list mat) : Prop :=
  eigenvalues_of 7 (normal_matrix Js) (eig 7%nat (normal_matrix Js)) /\
  forall e, In e (eig 7%nat (normal_matrix Js)) -> / 10 <= Rabs e.

(** ** C124 For the alignment of two lists of points: the target is the source moved by T, the
    run starts at a pose T0 with the orientation of T. *)
Theorem C124_alignment eig llt sel max_iter source T0 T :
  is_rotation (lin T) -> lin T0 = lin T -> (2 <= max_iter)%Z -> source <> [] ->
  valid_nth exact sel -> solves_positive_definite llt ->
  INR (length source) * squared_distance (tra T0) (tra T) <= dbl_max / 2 ->
  (forall Js rs, alignment_make (source, map (transform T) source) T0 = Ok (Js, rs) -> determined_problem eig Js) ->
  exists r, optimize eig llt sel (alignment_make (source, map (transform T) source)) max_iter T0 = Ok r /\
    r_pose r = T /\ r_success r = true /\ r_message r = SuccessfullyConverged /\ (r_iteration r <= 1)%Z.
Proof.
  intros HR HR0 HM Hne HN HL HB HE. set (target := map (transform T) source).
  set (res := fun T' => map (fun xy => vlist (vsub (transform T' (fst xy)) (snd xy))) (combine source target)).
  assert (EP : forall T', alignment_make (source, target) T' = Ok (alignment_jacobian (quat_of (lin T')) source, res T')).
  { intros T'. unfold alignment_make, alignment_residual, target. cbn [fst snd]. rewrite map_length, Nat.eqb_refl. reflexivity. }
  assert (W : forall T', well_shaped (alignment_jacobian (quat_of (lin T')) source) (res T')).
  { intros T'. unfold res, target, well_shaped, alignment_jacobian. clear. generalize (quat_of (lin T')). intros q.
    induction source as [|p l IH]; constructor; auto. split; [reflexivity|repeat constructor]. }
  assert (Z : Forall zeros (res T)).
  { unfold res, target. clear. induction source as [|p l IH]; constructor; auto.
    unfold zeros, vlist, vsub. cbn [fst snd vx vy vz]. repeat constructor; ring. }
  assert (RE : forall p, vlist (vsub (transform T0 p) (transform T p)) = vlist (vsub (tra T0) (tra T))).
  { intros p. rewrite (transform_moved T0 T p HR0). destruct (transform T p) as [x y z], (vsub (tra T0) (tra T)) as [a b c]. unfold vlist, vsub, vadd. cbn [vx vy vz].
    repeat (apply f_equal2; [ring|]). reflexivity. }
  assert (DI : Forall2 (displaced (vsub (tra T0) (tra T))) (alignment_jacobian (quat_of (lin T0)) source) (res T0)).
  { unfold res, target, alignment_jacobian. generalize (quat_of (lin T0)). intros q. clear - RE. induction source as [|p l IH]; constructor; auto.
    cbn [fst snd]. rewrite RE. destruct (vsub (tra T0) (tra T)) as [a b c]. unfold displaced, vlist. cbn [vx vy vz].
    apply Forall2_cons; [cbn; ring|]. apply Forall2_cons; [cbn; ring|]. apply Forall2_cons; [cbn; ring|]. apply Forall2_nil. }
  assert (TE : total_error (res T0) = INR (length source) * squared_distance (tra T0) (tra T)).
  { unfold res, target. clear - RE. induction source as [|p l IH]; [unfold total_error; cbn; ring|].
    cbn [map combine fst snd length]. rewrite RE. change (total_error (?a :: ?b)) with (rdot a + total_error b).
    rewrite IH, S_INR. unfold squared_distance, rdot, vlist, vdot. cbn [map fold_right]. ring. }
  destruct (HE _ _ (EP T0)) as [E1 E2].
  assert (E1' : eigenvalues_of 7 (normal_matrix (alignment_jacobian (quat_of (lin T)) source)) (eig 7%nat (normal_matrix (alignment_jacobian (quat_of (lin T)) source))))
    by (rewrite <- HR0; auto).
  assert (N0 : forall T', res T' <> []) by (intros T'; unfold res, target; destruct source; [congruence|discriminate]).
  assert (B : total_error (res T0) <= dbl_max / 2) by (rewrite TE; auto).
  destruct (offset_run eig llt HL sel HN _ max_iter T0 T _ _ _ _ HR HR0 HM (EP T0) (N0 T0) (W T0) DI B E1 E2 (EP T) (N0 T) (W T) Z E1') as [e [s [H|H]]];
    (eexists; split; [exact H|]; cbn; repeat split; lia).
Qed.

(** For the localizer: at the true pose T, and at the prior pose T0 with the same orientation,
    the neighbours found for an edge point lie on one line and those found for a surface point
    in one plane, and these contain the true position of the point. *)
Theorem C124_localizer principal qr_solve find_neighbors downsample eig llt sel edge_map surface_map max_iter scan T0 T :
  is_rotation (lin T) -> lin T0 = lin T -> (2 <= max_iter)%Z -> fst scan <> [] \/ downsample (snd scan) <> [] ->
  (forall p T', In p (fst scan) -> T' = T0 \/ T' = T -> exists X,
     nearest_k_search vec find_neighbors edge_map (transform T' p) n_neighbors = Ok X /\ line_through X (transform T p) /\
     forall m C, mean_and_covariance X = Ok (m, C) -> principal_direction C (principal C)) ->
  (forall p T', In p (downsample (snd scan)) -> T' = T0 \/ T' = T -> exists X,
     nearest_k_search vec find_neighbors surface_map (transform T' p) n_neighbors = Ok X /\ plane_through X (transform T p) /\
     solves_least_squares qr_solve X (repeat (-1) (length X))) ->
  valid_nth exact sel -> solves_positive_definite llt ->
  (forall T' Js rs, T' = T0 \/ T' = T ->
     loam_problem principal qr_solve find_neighbors downsample edge_map surface_map n_neighbors scan T' = Ok (Js, rs) ->
     determined_problem eig Js /\ total_error rs <= dbl_max / 2) ->
  exists r, localizer_result principal qr_solve find_neighbors downsample eig llt sel edge_map surface_map max_iter scan T0 = Ok r /\
    r_pose r = T /\ r_success r = true /\ r_message r = SuccessfullyConverged /\ (r_iteration r <= 1)%Z.
Proof.
  intros HR HR0 HM Hne HEd HSu HN HL HE.
  assert (G : forall T', T' = T0 \/ T' = T -> exists l,
    loam_problem principal qr_solve find_neighbors downsample edge_map surface_map n_neighbors scan T' = Ok (map fst l, map snd l) /\
    Forall (displaced_term (vsub (tra T') (tra T))) l /\ map snd l <> []).
  { intros T' HT. apply loam_displaced; auto. destruct HT as [->| ->]; auto. }
  destruct (G T0 (or_introl eq_refl)) as [l [P0 [L0 N0]]]. destruct (G T (or_intror eq_refl)) as [l' [P1 [L1 N1]]].
  destruct (displaced_split _ l L0) as [W0 D0]. destruct (displaced_split _ l' L1) as [W1 D1].
  destruct (HE T0 _ _ (or_introl eq_refl) P0) as [[E1 E2] B0]. destruct (HE T _ _ (or_intror eq_refl) P1) as [[E1' _] _].
  assert (Z : Forall zeros (map snd l')).
  { clear - D1. induction D1 as [|J r Js rs H D1 IH]; constructor; auto. unfold zeros, displaced in *.
    clear - H. induction H as [|row e J r Hr H IH]; constructor; auto. rewrite Hr. unfold vsub. cbn [vx vy vz]. ring. }
  destruct (offset_run eig llt HL sel HN _ max_iter T0 T _ _ _ _ HR HR0 HM P0 N0 W0 D0 B0 E1 E2 P1 N1 W1 Z E1') as [e [s [H|H]]];
    (eexists; split; [exact H|]; cbn; repeat split; lia).
Qed.
Print Assumptions C124_alignment.
Print Assumptions C124_localizer.

(** * Concrete cases *)
Lemma dbl_max_1024 : 1024 <= dbl_max.
Proof.
  unfold dbl_max. assert (H1 : 1 <= 2 ^ 52) by (apply pow_R1_Rle; lra).
  assert (H2 : / 2 ^ 52 <= 1) by (rewrite <- Rinv_1; apply Rinv_le_contravar; lra).
  assert (H3 : 1 <= 2 ^ 1013) by (apply pow_R1_Rle; lra).
  replace 1023%nat with (10 + 1013)%nat by reflexivity. rewrite pow_add.
  replace (2 ^ 10) with 1024 by ring. nra.
Qed.
(** The square, moved by (3, -4, 2) and turned by 60 degrees. *)
Example ex_C124_alignment : exists llt, let T := Iso (rot_z (PI / 3)) (V3 3 (-4) 2) in let T0 := Iso (rot_z (PI / 3)) (V3 0 0 0) in
  is_rotation (lin T) /\ lin T0 = lin T /\ square <> [] /\ valid_nth exact sel_sort /\ solves_positive_definite llt /\
  INR (length square) * squared_distance (tra T0) (tra T) <= dbl_max / 2 /\
  (forall Js rs, alignment_make (square, map (transform T) square) T0 = Ok (Js, rs) -> determined_problem diagonal Js) /\
  squared_distance (tra T0) (tra T) = 29.
Proof.
  destruct solver_exists as [llt HL]. exists llt. cbv zeta. cbn [lin tra].
  assert (SD : squared_distance (V3 0 0 0) (V3 3 (-4) 2) = 29) by (unfold squared_distance, vdot, vsub; cbn [vx vy vz]; ring).
  split; [apply (heading_rotation (PI / 3))|]. split; auto. split; [discriminate|]. split; [apply sel_sort_valid|]. split; auto.
  rewrite SD. split. { pose proof dbl_max_1024. cbn [length square INR]. lra. }
  split; auto. intros Js rs E. unfold alignment_make, alignment_residual in E. cbn [fst snd] in E. rewrite map_length, Nat.eqb_refl in E. cbn [assert_ bind lin] in E.
  assert (EQ : quat_of (rot_z (PI / 3)) = zq (PI / 6)).
  { replace (PI / 3) with (2 * (PI / 6)) by field. rewrite <- zq_rotation. apply quat_small; [apply zq_unit|]. cbn [zq qw]. rewrite cos_PI6.
    assert (1 < sqrt 3) by (rewrite <- sqrt_1; apply sqrt_lt_1; lra). lra. }
  rewrite EQ in E. match type of E with Ok (?J, _) = _ => assert (EJ : Js = J) by congruence end. rewrite EJ.
  pose proof (square_eig diagonal (proj1 diagonal_square) (PI / 6)) as HE. split; [exact HE|].
  intros e He. destruct HE as [H1 _]. destruct (H1 e He) as [x [Hx Ex]].
  pose proof (sin2_cos2 (PI / 6)) as H. unfold Rsqr in H.
  assert (4 <= e) by (apply (square_regular (cos (PI / 6)) (sin (PI / 6)) e x); auto; lra).
  rewrite Rabs_right; lra.
Qed.

(** Four vertical poles around the sensor, with 15 points each in the map, and a horizontal
    plane at the height 1; the search finds the points of the nearest pole. *)
Definition upright (x y : R) : list vec := map (fun k => V3 x y (INR k / 100)) (seq 0 15).
Definition four_poles : list vec := upright 1 0 ++ upright (-1) 0 ++ upright 0 1 ++ upright 0 (-1).
Definition table : list vec := map (fun k => V3 (INR k) (INR k * INR k) 1) (seq 0 15).
Definition side_of (q : vec) : nat :=
  if Rltb (1 / 2) (vx q) then 0%nat else if Rltb (vx q) (- (1 / 2)) then 1%nat else if Rltb 0 (vy q) then 2%nat else 3%nat.
Definition find_side (m : list vec) (q : vec) (n : nat) : list nat := if Nat.eqb (length m) 60 then seq (15 * side_of q) n else seq 0 n.
Definition upright_at (k : nat) : R * R := nth k [(1, 0); (-1, 0); (0, 1); (0, -1)] (0, 0).

Lemma found_upright q k : side_of q = k -> (k < 4)%nat ->
  nearest_k_search vec find_side four_poles q n_neighbors = Ok (upright (fst (upright_at k)) (snd (upright_at k))).
Proof.
  intros E Hk. unfold nearest_k_search, find_side. change n_neighbors with 15%nat. cbv iota beta. rewrite E.
  do 4 (destruct k as [|k]; [reflexivity|]). lia.
Qed.
Lemma found_table q : nearest_k_search vec find_side table q n_neighbors = Ok table.
Proof. reflexivity. Qed.
Lemma upright_in x y p : In p (upright x y) -> exists k, p = V3 x y (INR k / 100).
Proof. intros H. apply in_map_iff in H. destruct H as [k [<- _]]. eauto. Qed.
Lemma upright_principal x y m C : mean_and_covariance (upright x y) = Ok (m, C) -> principal_direction C (V3 0 0 1).
Proof.
  intros HM. set (X := upright x y) in *. split; [unfold vdot; cbn [vx vy vz]; ring|]. intros u Hu.
  pose proof (n_pos X m C HM) as P.
  assert (HX : forall p, In p X -> vx p = x /\ vy p = y) by (intros p Hp; destruct (upright_in x y p Hp) as [k ->]; auto).
  apply Rmult_le_reg_l with (INR (length X)); auto. rewrite <- !(cov_quad X m C HM).
  assert (Mx : vx m = x).
  { destruct (mean_cov_inv X m C HM) as [_ [-> _]]. rewrite vsum_so. unfold vscale. cbn [vx].
    rewrite (so_ext vx (fun _ => x)) by (intros p Hp; apply HX; auto). rewrite so_const. field. lra. }
  assert (My : vy m = y).
  { destruct (mean_cov_inv X m C HM) as [_ [-> _]]. rewrite vsum_so. unfold vscale. cbn [vy].
    rewrite (so_ext vy (fun _ => y)) by (intros p Hp; apply HX; auto). rewrite so_const. field. lra. }
  apply so_le. intros p Hp. destruct (HX p Hp) as [E1 E2]. unfold vdot, vsub in *. cbn [vx vy vz].
  rewrite E1, E2, Mx, My. set (k := vz p - vz m). pose proof (Rle_0_sqr k). pose proof (Rle_0_sqr (vx u)). pose proof (Rle_0_sqr (vy u)).
  unfold Rsqr in *. assert (vz u * vz u <= 1) by lra. nra.
Qed.
Lemma upright_line x y z : line_through (upright x y) (V3 x y z).
Proof.
  exists (V3 x y 0), (V3 0 0 1). split; [|split].
  - intros p Hp. destruct (upright_in x y p Hp) as [k ->]. exists (INR k / 100). apply vec_ext3; vb; field.
  - exists z. apply vec_ext3; vb; ring.
  - exists (V3 x y (INR 0 / 100)), (V3 x y (INR 1 / 100)). split; [left; reflexivity|]. split; [right; left; reflexivity|].
    intros E. injection E. cbn [INR]. lra.
Qed.
Lemma table_in p : In p table -> in_plane (V3 0 0 1) 1 p.
Proof. intros H. apply in_map_iff in H. destruct H as [k [<- _]]. unfold in_plane. vb. ring. Qed.
Lemma table_independent : independent table.
Proof.
  intros [a b c] H.
  assert (I : forall k, (k < 15)%nat -> In (V3 (INR k) (INR k * INR k) 1) table) by (intros k Hk; apply in_map_iff; exists k; split; auto; apply in_seq; lia).
  pose proof (H _ (I 0%nat ltac:(lia))) as H1. pose proof (H _ (I 1%nat ltac:(lia))) as H2. pose proof (H _ (I 2%nat ltac:(lia))) as H3.
  vb. cbn [INR] in *. unfold origin. f_equal; lra.
Qed.
Lemma table_solved : solves_least_squares (fun _ _ => V3 0 0 (-1)) table (repeat (-1) (length table)).
Proof.
  intros _ w. replace (misfit table _ (V3 0 0 (-1))) with 0.
  - unfold misfit. generalize (combine table (repeat (-1) (length table))). intros l.
    induction l as [|a l IH]; cbn [map fold_right]; [lra|]. pose proof (Rle_0_sqr (vdot w (fst a) - snd a)). unfold Rsqr in *. lra.
  - unfold misfit, table. generalize (seq 0 15). intros l. rewrite map_length. induction l as [|k l IH]; [reflexivity|].
    cbn [length repeat map combine fold_right fst snd]. rewrite <- IH. vb. ring.
Qed.

Definition around : list vec := [V3 1 0 0; V3 (-1) 0 0; V3 0 1 0; V3 0 (-1) 0].
Definition around_jacobians : list mat :=
  map (fun p => edge_jacobian qid p (V3 0 0 (-1)) (V3 0 0 1)) around ++ map (fun p => surface_jacobian (V3 0 0 (-1)) qid p) around.
Lemma quat_id3 : quat_of id3 = qid.
Proof.
  assert (EI : to_rotation qid = id3) by (unfold to_rotation, qid, id3; cbn [qw qx qy qz]; apply mat3_ext; cbn [m00 m01 m02 m10 m11 m12 m20 m21 m22]; ring).
  rewrite <- EI. apply quat_small; [unfold unit, qnorm2, qid; cbn [qw qx qy qz]; ring|unfold qid; cbn [qw]; lra].
Qed.
Lemma moved_id t p : transform (Iso id3 t) p = vadd p t.
Proof. destruct p as [x y z], t as [a b c]. unfold transform, id3, mapply, vadd. cbn. f_equal; ring. Qed.
Lemma norm_down : vnorm (V3 0 0 (-1)) = 1.
Proof. unfold vnorm, vdot. cbn [vx vy vz]. replace (0 * 0 + 0 * 0 + -1 * -1) with 1 by ring. apply sqrt_1. Qed.
Lemma around_quad x : quad 7 (normal_matrix around_jacobians) x =
  64 * (x 0%nat * x 0%nat + x 3%nat * x 3%nat) + 8 * (x 1%nat * x 1%nat + x 2%nat * x 2%nat) +
  16 * (x 4%nat * x 4%nat + x 5%nat * x 5%nat) + 4 * (x 6%nat * x 6%nat).
Proof.
  unfold quad, total, normal_matrix, around_jacobians, around, edge_jacobian, surface_jacobian, qid. rewrite norm_down.
  cbv beta iota zeta delta [drpdq hat beside mat_mul row_mul vlist vscale vsub vadd vnth vcross vdot qvec qw qx qy qz vx vy vz map combine fold_right nth seq app fst snd Nat.eqb]. field.
Qed.
Lemma around_last i : (i < 7)%nat -> normal_matrix around_jacobians i 6 = if Nat.eqb i 6 then 4 else 0.
Proof.
  intros Hi. unfold normal_matrix, around_jacobians, around, edge_jacobian, surface_jacobian, qid. rewrite norm_down.
  do 7 (destruct i as [|i]; [
    cbv beta iota zeta delta [drpdq hat beside mat_mul row_mul vlist vscale vsub vadd vnth vcross vdot qvec qw qx qy qz vx vy vz map combine fold_right nth seq app fst snd Nat.eqb]; field|]). lia.
Qed.
Lemma around_determined : determined_problem (fun _ _ => [4]) around_jacobians.
Proof.
  split; [split|].
  - intros e [<-|[]]. exists (fun i => if Nat.eqb i 6 then 1 else 0). split; [exists 6%nat; split; [lia|cbn; lra]|].
    intros i Hi. rewrite (total_ext 7 _ (fun j => if Nat.eqb j 6 then normal_matrix around_jacobians i 6 else 0)).
    2: { intros j _. destruct (Nat.eqb_spec j 6) as [->|]; ring. }
    rewrite around_last by auto. unfold total. cbn [seq map fold_right Nat.eqb]. destruct (Nat.eqb i 6); ring.
  - intros x. exists 4. split; [left; auto|]. rewrite around_quad. unfold total. cbn [seq map fold_right].
    pose proof (Rle_0_sqr (x 0%nat)). pose proof (Rle_0_sqr (x 1%nat)). pose proof (Rle_0_sqr (x 2%nat)). pose proof (Rle_0_sqr (x 3%nat)).
    pose proof (Rle_0_sqr (x 4%nat)). pose proof (Rle_0_sqr (x 5%nat)). unfold Rsqr in *. lra.
  - intros e [<-|[]]. rewrite Rabs_right; lra.
Qed.

Example ex_C124_localizer : exists llt, let principal := fun _ : mat3 => V3 0 0 1 in
  let qr := fun (_ : list vec) (_ : list R) => V3 0 0 (-1) in let eig := fun (_ : nat) (_ : nat -> nat -> R) => [4] in
  let scan := (around, around) in let T := Iso id3 (V3 0 0 1) in let T0 := Iso id3 (V3 (2 / 10) (- (1 / 10)) (13 / 10)) in
  is_rotation (lin T) /\ lin T0 = lin T /\ fst scan <> [] /\
  (forall p T', In p (fst scan) -> T' = T0 \/ T' = T -> exists X,
     nearest_k_search vec find_side four_poles (transform T' p) n_neighbors = Ok X /\ line_through X (transform T p) /\
     forall m C, mean_and_covariance X = Ok (m, C) -> principal_direction C (principal C)) /\
  (forall p T', In p (snd scan) -> T' = T0 \/ T' = T -> exists X,
     nearest_k_search vec find_side table (transform T' p) n_neighbors = Ok X /\ plane_through X (transform T p) /\
     solves_least_squares qr X (repeat (-1) (length X))) /\
  valid_nth exact sel_sort /\ solves_positive_definite llt /\
  (forall T' Js rs, T' = T0 \/ T' = T ->
     loam_problem principal qr find_side (fun l => l) four_poles table n_neighbors scan T' = Ok (Js, rs) ->
     determined_problem eig Js /\ total_error rs <= dbl_max / 2).
Proof.
  destruct solver_exists as [llt HL]. exists llt. cbv zeta.
  set (T := Iso id3 (V3 0 0 1)). set (T0 := Iso id3 (V3 (2 / 10) (- (1 / 10)) (13 / 10))).
  assert (SD : forall p T', In p around -> T' = T0 \/ T' = T -> exists k, (k < 4)%nat /\ side_of (transform T' p) = k /\
    transform T p = V3 (fst (upright_at k)) (snd (upright_at k)) 1).
  { intros p T' Hp HT.
    assert (ET : exists a b c, T' = Iso id3 (V3 a b c) /\ - / 5 <= a <= / 5 /\ - / 5 <= b <= / 5).
    { destruct HT as [->| ->]; do 3 eexists; (split; [reflexivity|]); lra. }
    destruct ET as (a & b & c & -> & Ha & Hb).  unfold T. rewrite !moved_id.
    destruct Hp as [<-|[<-|[<-|[<-|[]]]]]; [exists 0%nat|exists 1%nat|exists 2%nat|exists 3%nat]; (split; [lia|]); unfold side_of, vadd, upright_at; cbn [vx vy vz nth fst snd];
      (split; [|f_equal; ring]); repeat (match goal with |- context [Rltb ?u ?v] => (rewrite (lt_true u v) by lra) || (rewrite (lt_false u v) by lra) end); reflexivity. }
  assert (A1 : forall p T', In p around -> T' = T0 \/ T' = T -> exists X,
     nearest_k_search vec find_side four_poles (transform T' p) n_neighbors = Ok X /\ line_through X (transform T p) /\
     forall m C, mean_and_covariance X = Ok (m, C) -> principal_direction C (V3 0 0 1)).
  { intros p T' Hp HT. destruct (SD p T' Hp HT) as (k & Hk & E1 & E2). eexists. split; [apply (found_upright _ k); auto|].
    rewrite E2. split; [apply upright_line|apply upright_principal]. }
  assert (A2 : forall p T', In p around -> T' = T0 \/ T' = T -> exists X,
     nearest_k_search vec find_side table (transform T' p) n_neighbors = Ok X /\ plane_through X (transform T p) /\
     solves_least_squares (fun (_ : list vec) (_ : list R) => V3 0 0 (-1)) X (repeat (-1) (length X))).
  { intros p T' Hp HT. exists table. split; [apply found_table|]. split; [|apply table_solved].
    exists (V3 0 0 1), 1. split; [lra|]. split; [apply table_in|]. split; [|apply table_independent].
    destruct (SD p T' Hp HT) as (k & Hk & E1 & E2). rewrite E2. unfold in_plane. vb. ring. }
  split; [unfold is_rotation, T, id3, mmul3, transpose3, det3; cbn; split; [f_equal; ring|ring]|].
  split; [reflexivity|]. split; [discriminate|]. split; [exact A1|]. split; [exact A2|]. split; [apply sel_sort_valid|]. split; auto.
  intros T' Js rs HT E.
  assert (EL : lin T' = id3) by (destruct HT as [->| ->]; reflexivity).
  destruct (loam_displaced (fun _ => V3 0 0 1) (fun _ _ => V3 0 0 (-1)) find_side (fun l => l) four_poles table n_neighbors (around, around) T' T) as (l & EP & HD & _).
  { rewrite EL. reflexivity. }
  { left. discriminate. }
  { intros p Hp. apply A1; auto. }
  { intros p Hp. apply A2; auto. }
  destruct (displaced_split _ l HD) as [_ D2]. rewrite E in EP.
  assert (EJ : Js = map fst l) by congruence. assert (ER : rs = map snd l) by congruence. rewrite <- EJ, <- ER in D2. clear EP HD EJ ER l.
  assert (TJ : forall p, In p around -> exists r, edge_term (fun _ => V3 0 0 1) find_side four_poles n_neighbors T' p = Ok (edge_jacobian qid p (V3 0 0 (-1)) (V3 0 0 1), r)).
  { intros p Hp. destruct (SD p T' Hp HT) as (k & Hk & E1 & E2). unfold edge_term, edge_fit. rewrite (found_upright _ k) by auto. cbn [bind].
    destruct (mean_cov_ok (upright (fst (upright_at k)) (snd (upright_at k)))) as [m [C HM]]; [discriminate|]. rewrite HM. cbn [bind fst snd].
    eexists. f_equal. f_equal. rewrite EL, quat_id3. unfold edge_jacobian. f_equal; [f_equal|]; f_equal; destruct m as [m1 m2 m3]; unfold vsub, vadd; cbn [vx vy vz]; f_equal; ring. }
  assert (SJ : forall p, surface_term (fun _ _ => V3 0 0 (-1)) find_side table n_neighbors T' p = Ok (surface_jacobian (V3 0 0 (-1)) qid p, [signed_distance (V3 0 0 (-1)) (transform T' p)])).
  { intros p. unfold surface_term, plane_fit. rewrite found_table. cbn [bind]. rewrite EL, quat_id3. reflexivity. }
  assert (JJ : Js = around_jacobians).
  { unfold loam_problem in E. cbn [fst snd] in E.
    destruct (TJ (V3 1 0 0)) as [r1 R1]; [cbn; auto|]. destruct (TJ (V3 (-1) 0 0)) as [r2 R2]; [cbn; auto|].
    destruct (TJ (V3 0 1 0)) as [r3 R3]; [cbn; auto|]. destruct (TJ (V3 0 (-1) 0)) as [r4 R4]; [cbn; auto|].
    unfold around in E. cbn [mapM] in E. rewrite R1, R2, R3, R4, !SJ in E. cbn [bind map fst snd app] in E.
    match type of E with Ok (?J, _) = _ => assert (EJ : Js = J) by congruence end. rewrite EJ. reflexivity. }
  rewrite JJ in *. split; [apply around_determined|]. rewrite (displaced_residuals _ _ _ D2).
  set (d := vsub (tra T') (tra T)).
  assert (TE : total_error (map (map (displacement d)) around_jacobians) = 16 * (vx d * vx d + vy d * vy d) + 4 * (vz d * vz d)).
  { unfold total_error, displacement, around_jacobians, around, edge_jacobian, surface_jacobian, qid. rewrite norm_down. destruct d as [d1 d2 d3].
    cbv beta iota zeta delta [drpdq hat beside mat_mul row_mul vlist vscale vsub vadd vnth vcross vdot qvec qw qx qy qz vx vy vz map combine fold_right nth seq app fst snd Nat.eqb]. field. }
  rewrite TE. pose proof dbl_max_1024. unfold d, vsub. destruct HT as [->| ->]; unfold T0, T; cbn [tra vx vy vz]; lra.
Qed.
