(** Proofs for C119. *)
From Coq Require Import List ZArith Bool Lia Lra Reals Nsatz.
From Verif Require Import Base Arith LibModel SpecLib LibProofs LocModel PoseModel OptModel ProblemModel LocNodeModel SpecPose SpecFit SpecOpt SpecStep SpecRotMap SpecMsg
  AngleProofs RotProofs WitnessProofs StepProofs SlopeProofs Prop_Rotation FitProofs LeastSquares LocOriginProofs.
Import ListNotations.
Open Scope R_scope.

(** The least squares solution is the only one. *)
Lemma least_unique X : independent X -> forall u v, (forall w, misfit X (repeat (-1) (length X)) u <= misfit X (repeat (-1) (length X)) w) ->
  (forall w, misfit X (repeat (-1) (length X)) v <= misfit X (repeat (-1) (length X)) w) -> u = v.
Proof.
  intros HI u v Hu Hv. set (m := vscale (/ 2) (vadd u v)).
  assert (EQ : misfit X (repeat (-1) (length X)) u = misfit X (repeat (-1) (length X)) v) by (apply Rle_antisym; auto).
  assert (P : forall k X, misfit X k m = / 2 * misfit X k u + / 2 * misfit X k v
    - / 4 * fold_right Rplus 0 (map (fun x => vdot (vsub u v) x * vdot (vsub u v) x) (map fst (combine X k)))).
  { intros k. clear - m. unfold misfit. induction k as [|a k IH]; intros [|x Y]; cbn [map combine fold_right fst snd]; try lra.
    rewrite IH. unfold m, vscale, vadd, vsub, vdot. cbn [vx vy vz]. field. }
  specialize (P (repeat (-1) (length X)) X). specialize (Hu m). 
  assert (F : map fst (combine X (repeat (-1) (length X))) = X).
  { clear. induction X as [|x X IH]; cbn; congruence. }
  rewrite F in P. change (fold_right Rplus 0 (map (fun x => vdot (vsub u v) x * vdot (vsub u v) x) X)) with (sum_over (fun x => vdot (vsub u v) x * vdot (vsub u v) x) X) in P.
  assert (Z : vsub u v = origin).
  { apply HI. intros x Hx. assert (S : vdot (vsub u v) x * vdot (vsub u v) x = 0).
    { apply (so_zero (fun x => vdot (vsub u v) x * vdot (vsub u v) x) X); auto; [intros; apply Rle_0_sqr|lra]. }
    apply Rmult_integral in S. tauto. }
  pose proof (f_equal vx Z). pose proof (f_equal vy Z). pose proof (f_equal vz Z). unfold vsub, origin in *. cbn [vx vy vz] in *. apply vec_ext3; lra.
Qed.

Section Turn.
Variable g : quat.
Hypothesis Ug : unit g.
Notation tp := (turned_point g).

(** * Rotations *)
Lemma tp_sandwich p : tp p = sandwich g p. Proof. apply to_rotation_sandwich. auto. Qed.
Lemma tp_add a b : tp (vadd a b) = vadd (tp a) (tp b).
Proof. unfold turned_point. destruct (to_rotation g), a, b. apply vec_ext; vcbn; ring. Qed.
Lemma tp_sub a b : tp (vsub a b) = vsub (tp a) (tp b).
Proof. unfold turned_point. destruct (to_rotation g), a, b. apply vec_ext; vcbn; ring. Qed.
Lemma tp_scale c a : tp (vscale c a) = vscale c (tp a).
Proof. unfold turned_point. destruct (to_rotation g), a. apply vec_ext; vcbn; ring. Qed.
Lemma tp_zero : tp (V3 0 0 0) = V3 0 0 0.
Proof. unfold turned_point. destruct (to_rotation g). apply vec_ext; vcbn; ring. Qed.
Lemma tp_dot a b : vdot (tp a) (tp b) = vdot a b.
Proof.
  rewrite !tp_sandwich. pose proof Ug as U. unfold unit, qnorm2 in U. destruct g as [w x y z], a as [a1 a2 a3], b as [b1 b2 b3]. cbn [qw qx qy qz] in U.
  transitivity ((w * w + x * x + y * y + z * z) * (w * w + x * x + y * y + z * z) * (a1 * b1 + a2 * b2 + a3 * b3)); [vcbn; ring|rewrite U; vcbn; ring].
Qed.
Lemma tp_norm a : vnorm (tp a) = vnorm a.
Proof. unfold vnorm. rewrite tp_dot. reflexivity. Qed.
Lemma tp_cross a b : vcross (tp a) (tp b) = tp (vcross a b).
Proof.
  rewrite !tp_sandwich. pose proof Ug as U. unfold unit, qnorm2 in U. destruct g as [w x y z], a as [a1 a2 a3], b as [b1 b2 b3]. cbn [qw qx qy qz] in U.
  assert (E : vcross (sandwich (Qn w x y z) (V3 a1 a2 a3)) (sandwich (Qn w x y z) (V3 b1 b2 b3))
     = vscale (w * w + x * x + y * y + z * z) (sandwich (Qn w x y z) (vcross (V3 a1 a2 a3) (V3 b1 b2 b3)))) by (apply vec_ext; vcbn; ring).
  rewrite E, U. apply vec_ext; vcbn; ring.
Qed.
Lemma tp_transform q t p : unit q -> transform (make_pose (qmul g q) (tp t)) p = tp (transform (make_pose q t) p).
Proof.
  intros Uq. unfold transform, make_pose. cbn [lin tra]. rewrite tp_add. f_equal. rewrite rotation_mul by auto. unfold turned_point.
  destruct (to_rotation g), (to_rotation q), p. apply vec_ext; vcbn; ring.
Qed.
Lemma tp_pose q t : unit q -> make_pose (qmul g q) (tp t) = turned_pose g (make_pose q t).
Proof. intros Uq. unfold turned_pose, make_pose. cbn [lin tra]. rewrite rotation_mul by auto. reflexivity. Qed.

(** * Terms: the squared length of r + J x *)
Definition size (J : mat) (r : list R) (x : list R) : R :=
  fold_right Rplus 0 (map (fun ab => (snd ab + row_dot (fst ab) x) * (snd ab + row_dot (fst ab) x)) (combine J r)).
(** The turned direction in the seven coordinates. *)
Definition turn7 (x : nat -> R) : nat -> R :=
  let u := qmul g (Qn (x 0%nat) (x 1%nat) (x 2%nat) (x 3%nat)) in let v := tp (V3 (x 4%nat) (x 5%nat) (x 6%nat)) in
  fun i => nth i [qw u; qx u; qy u; qz u; vx v; vy v; vz v] 0.
Definition list7 (x : nat -> R) : list R := map x (seq 0 7).
Definition alike_term (a b : mat * list R) : Prop :=
  forall x, size (fst b) (snd b) (list7 (turn7 x)) = size (fst a) (snd a) (list7 x).

Lemma turn7_norm x : total 7 (fun i => turn7 x i * turn7 x i) = total 7 (fun i => x i * x i).
Proof.
  unfold turn7. set (u := Qn (x 0%nat) (x 1%nat) (x 2%nat) (x 3%nat)). set (v := V3 (x 4%nat) (x 5%nat) (x 6%nat)). cbv zeta.
  pose proof (qnorm2_mul g u) as E. rewrite Ug in E. pose proof (tp_dot v v) as E2. unfold qnorm2, vdot in E, E2.
  unfold total. cbn [seq map fold_right nth]. unfold u, v in *. cbn [qw qx qy qz vx vy vz] in E, E2. lra.
Qed.
(** The turn has an inverse. *)
Lemma turn7_onto y : exists x, forall i, (i < 7)%nat -> turn7 x i = y i.
Proof.
  set (u := qmul (qconj g) (Qn (y 0%nat) (y 1%nat) (y 2%nat) (y 3%nat))).
  set (v := mapply (transpose3 (to_rotation g)) (V3 (y 4%nat) (y 5%nat) (y 6%nat))).
  exists (fun i => nth i [qw u; qx u; qy u; qz u; vx v; vy v; vz v] 0).
  assert (EU : qmul g (Qn (qw u) (qx u) (qy u) (qz u)) = Qn (y 0%nat) (y 1%nat) (y 2%nat) (y 3%nat)).
  { unfold u. pose proof Ug as U. unfold unit, qnorm2 in U. destruct g as [a b c d]. cbn [qw qx qy qz] in U.
    assert (Ha : a * a = 1 - b * b - c * c - d * d) by lra. apply quat_ext; vcbn; ring [Ha]. }
  assert (EV : tp (V3 (vx v) (vy v) (vz v)) = V3 (y 4%nat) (y 5%nat) (y 6%nat)).
  { unfold v, turned_point. pose proof (rotation_rows _ (to_rotation_is_rotation g Ug)) as HR. destruct (to_rotation g) as [a b c d e f h i j].
    cbn [m00 m01 m02 m10 m11 m12 m20 m21 m22] in HR. destruct HR as (R1 & R2 & R3 & R4 & R5 & R6).
    apply vec_ext; vcbn; nsatz. }
  unfold turn7. cbn [nth]. rewrite EU, EV. cbn [qw qx qy qz vx vy vz].
  intros i Hi. do 7 (destruct i as [|i]; [reflexivity|]). lia.
Qed.
(** What the turn does to the directions in which a pose can move. *)
Definition turn6 (y : nat -> R) : nat -> R :=
  let v := tp (V3 (y 3%nat) (y 4%nat) (y 5%nat)) in fun k => nth k [y 0%nat; y 1%nat; y 2%nat; vx v; vy v; vz v] 0.
Lemma tangent_turn q y : tangent (qmul g q) (turn6 y) = list7 (turn7 (fun i => nth i (tangent q y) 0)).
Proof.
  unfold tangent, turn6, list7, turn7. cbn [nth]. unfold coords. cbn [app nth seq map].
  set (v := tp _). destruct g as [a b c d], q as [e f h k]. cbv zeta. 
  repeat (apply (f_equal2 (@cons R)); [try reflexivity; unfold hamilton, qmul, vdot, vadd, vscale, vcross, qvec; cbn [qw qx qy qz vx vy vz]; ring|]). reflexivity.
Qed.
Lemma turn6_onto y : exists x, forall i, (i < 6)%nat -> turn6 x i = y i.
Proof.
  destruct (turn7_onto (fun i => match i with 4%nat => y 3%nat | 5%nat => y 4%nat | 6%nat => y 5%nat | _ => 0 end)) as [x Hx].
  exists (fun i => match i with 0%nat => y 0%nat | 1%nat => y 1%nat | 2%nat => y 2%nat | 3%nat => x 4%nat | 4%nat => x 5%nat | _ => x 6%nat end).
  intros i Hi. pose proof (Hx 4%nat ltac:(lia)) as H4. pose proof (Hx 5%nat ltac:(lia)) as H5. pose proof (Hx 6%nat ltac:(lia)) as H6.
  unfold turn7 in *. cbn [nth] in *. unfold turn6. do 6 (destruct i as [|i]; [cbn [nth]; auto|]). lia.
Qed.
Lemma tangent_ext q y z : (forall i, (i < 6)%nat -> y i = z i) -> tangent q y = tangent q z.
Proof. intros H. unfold tangent. rewrite !H by lia. reflexivity. Qed.
Lemma tangent_list7 q y : list7 (fun i => nth i (tangent q y) 0) = tangent q y.
Proof. reflexivity. Qed.

(** * Steps *)
Section Steps.
Variables (Js Js' : list mat) (rs rs' : list (list R)).
Hypothesis HS : well_shaped Js rs.
Hypothesis HS' : well_shaped Js' rs'.
Hypothesis HA : Forall2 alike_term (combine Js rs) (combine Js' rs').

Definition weighted_size (w : list R) (l : list (mat * list R)) (x : list R) : R :=
  fold_right Rplus 0 (map (fun wJr => fst wJr * size (fst (snd wJr)) (snd (snd wJr)) x) (combine w l)).
Lemma error_turned w x : linear_error w Js' rs' (list7 (turn7 x)) = linear_error w Js rs (list7 x).
Proof.
  change (weighted_size w (combine Js' rs') (list7 (turn7 x)) = weighted_size w (combine Js rs) (list7 x)).
  assert (G : forall la lb, Forall2 alike_term la lb -> forall w, weighted_size w lb (list7 (turn7 x)) = weighted_size w la (list7 x)).
  { clear. intros la lb HF0. unfold weighted_size. induction HF0 as [|a b la lb Hab HF IH]; intros [|c w]; try reflexivity.
    cbn [combine map fold_right fst snd]. rewrite Hab, IH. reflexivity. }
  exact (G _ _ HA w).
Qed.
Lemma same_number : length Js' = length Js.
Proof.
  assert (L : length (combine Js rs) = length (combine Js' rs')) by (generalize HA; clear; intros HF0; induction HF0; cbn [length]; auto).
  destruct (shape_checks Js rs HS) as [E1 _]. destruct (shape_checks Js' rs' HS') as [E2 _].
  rewrite !combine_length, <- E1, <- E2, !Nat.min_id in L. auto.
Qed.
Lemma error_zero (a : mat * list R) : length (fst a) = length (snd a) -> size (fst a) (snd a) (list7 (fun _ => 0)) = rdot (snd a).
Proof.
  destruct a as [J r]. cbn [fst snd]. intros HL. revert r HL. unfold size, rdot. induction J as [|row J IH]; intros [|e r] HL; try discriminate; auto.
  cbn [combine map fold_right fst snd]. rewrite IH by (cbn in HL; lia). f_equal.
  assert (Z : forall l, row_dot l (list7 (fun _ => 0)) = 0).
  { intros l. unfold row_dot, list7. cbn [seq map]. generalize 7%nat. intros _.
    assert (G : forall z, Forall (fun c => c = 0) z -> fold_right Rplus 0 (map (fun ab => fst ab * snd ab) (combine l z)) = 0).
    { clear. induction l as [|a l IH]; intros [|b z] H; auto. inversion H; subst. cbn [combine map fold_right fst snd]. rewrite IH by auto. ring. }
    apply G. repeat constructor. }
  rewrite Z. ring.
Qed.
Lemma turn7_zero i : turn7 (fun _ => 0) i = 0.
Proof.
  unfold turn7. rewrite tp_zero. destruct g as [a b c d]. unfold qmul. cbn [qw qx qy qz vx vy vz].
  do 7 (destruct i as [|i]; [cbn [nth]; ring|]). destruct i; reflexivity.
Qed.
Lemma errors_turned : map rdot rs' = map rdot rs.
Proof.
  assert (E : forall Js rs, well_shaped Js rs -> map rdot rs = map (fun a => size (fst a) (snd a) (list7 (fun _ => 0))) (combine Js rs)).
  { clear. intros Js0 rs0 H0. induction H0 as [|J r Js1 rs1 [HL HF] H1 IH]; [reflexivity|]. cbn [combine map fst snd]. rewrite IH.
    f_equal. symmetry. apply (error_zero (J, r)). auto. }
  rewrite (E Js rs HS), (E Js' rs' HS').
  assert (G : forall la lb, Forall2 alike_term la lb -> map (fun a => size (fst a) (snd a) (list7 (fun _ => 0))) lb = map (fun a => size (fst a) (snd a) (list7 (fun _ => 0))) la).
  { clear - Ug. intros la lb HF0. induction HF0 as [|a b la lb Hab HF IH]; try reflexivity.
    cbn [map]. rewrite IH. f_equal. rewrite <- Hab. f_equal. unfold list7. apply map_ext. intros i. symmetry. apply turn7_zero. }
  exact (G _ _ HA).
Qed.
Lemma quad_normal (Js0 : list mat) rs0 x : well_shaped Js0 rs0 ->
  quad 7 (normal_matrix Js0) x = lsum (fun t => rho t x * rho t x) (flat (repeat 1 (length Js0)) Js0 rs0).
Proof.
  intros H0. set (l := flat _ Js0 rs0). pose proof (quad_flat (map (fun t => (1, snd t)) l) x) as Q.
  rewrite lsum_map in Q. unfold t_w, rho, t_row in Q. cbn [fst snd] in Q.
  rewrite (lsum_ext _ (fun t => rho t x * rho t x)) in Q.
  2: { intros t _. unfold rho, t_row. ring. }
  rewrite <- Q. unfold quad. apply total_ext. intros i _. apply total_ext. intros j _.
  rewrite (normal_flat (repeat 1 (length Js0)) Js0 rs0 i j H0 (repeat_length _ _)). fold l. rewrite lsum_map. cbn [fst snd].
  f_equal. f_equal. apply lsum_ext. intros t _. unfold t_row. ring.
Qed.
Lemma flat_ones (Js0 : list mat) rs0 t : In t (flat (repeat 1 (length Js0)) Js0 rs0) -> well_shaped Js0 rs0 -> t_w t = 1.
Proof. intros H H0. apply flat_in in H; auto. destruct H as [H _]. apply repeat_spec in H. auto. Qed.
(** The quadratic form of the normal matrix from the linear errors. *)
Lemma quad_error (Js0 : list mat) rs0 x : well_shaped Js0 rs0 ->
  let E z := linear_error (repeat 1 (length Js0)) Js0 rs0 (list7 z) in
  2 * quad 7 (normal_matrix Js0) x = E x + E (fun i => - x i) - 2 * E (fun _ => 0).
Proof.
  intros H0 E. unfold E. rewrite !linear_error_flat by (auto; reflexivity).
  rewrite (quad_normal Js0 rs0) by auto. set (l := flat _ _ _).
  rewrite <- !lsum_scal. unfold Rminus. rewrite <- lsum_plus.
  match goal with |- _ = ?a + - ?b => replace (a + - b) with (a + -1 * b) by ring end. rewrite <- lsum_scal, <- lsum_plus.
  apply lsum_ext. intros t Ht. rewrite (flat_ones _ _ _ Ht H0).
  assert (R0 : forall z, rho t (fun i => nth i (list7 z) 0) = rho t z).
  { intros z. unfold rho. apply total_ext. intros i Hi. do 7 (destruct i as [|i]; [reflexivity|]). lia. }
  rewrite !R0. assert (R1 : rho t (fun i => - x i) = - rho t x) by (unfold rho, total; cbn [seq map fold_right]; ring).
  assert (R2 : rho t (fun _ => 0) = 0) by (unfold rho, total; cbn [seq map fold_right]; ring). rewrite R1, R2. ring.
Qed.
Lemma turn7_opp x i : turn7 (fun k => - x k) i = - turn7 x i.
Proof.
  unfold turn7. replace (V3 (- x 4%nat) (- x 5%nat) (- x 6%nat)) with (vscale (-1) (V3 (x 4%nat) (x 5%nat) (x 6%nat))) by (apply vec_ext; vcbn; ring).
  rewrite tp_scale. set (v := tp _). destruct g as [a b c d]. unfold qmul, vscale. cbn [qw qx qy qz vx vy vz].
  do 7 (destruct i as [|i]; [cbn [nth]; ring|]). destruct i; cbn [nth]; ring.
Qed.
Lemma quad_turned x : quad 7 (normal_matrix Js') (turn7 x) = quad 7 (normal_matrix Js) x.
Proof.
  pose proof (quad_error Js rs x HS) as E1. pose proof (quad_error Js' rs' (turn7 x) HS') as E2. cbv zeta in E1, E2.
  rewrite same_number in E2.
  assert (X1 : list7 (fun i => - turn7 x i) = list7 (turn7 (fun i => - x i))) by (unfold list7; apply map_ext; intros i; symmetry; apply turn7_opp).
  assert (X2 : list7 (fun _ => 0) = list7 (turn7 (fun _ => 0))) by (unfold list7; apply map_ext; intros i; symmetry; apply turn7_zero).
  rewrite X1 in E2. rewrite X2 in E2 at 1. rewrite !error_turned in E2. lra.
Qed.
Lemma quad_ext7 A x y : (forall i, (i < 7)%nat -> x i = y i) -> quad 7 A x = quad 7 A y.
Proof. intros H. unfold quad. apply total_ext. intros i Hi. apply total_ext. intros j Hj. rewrite !H by auto. reflexivity. Qed.

Variable eig : nat -> (nat -> nat -> R) -> list R.
Variable llt : nat -> (nat -> nat -> R) -> (nat -> R) -> (nat -> R).
Hypothesis HL : solves_positive_definite llt.
Hypothesis HE : eigenvalues_of 7 (normal_matrix Js) (eig 7%nat (normal_matrix Js)).
Hypothesis HE' : eigenvalues_of 7 (normal_matrix Js') (eig 7%nat (normal_matrix Js')).

Lemma regular_form (Js0 : list mat) rs0 : well_shaped Js0 rs0 -> eigenvalues_of 7 (normal_matrix Js0) (eig 7%nat (normal_matrix Js0)) ->
  (forall e, In e (eig 7%nat (normal_matrix Js0)) -> / 10 <= Rabs e) <-> (forall x, / 10 * total 7 (fun i => x i * x i) <= quad 7 (normal_matrix Js0) x).
Proof.
  intros H0 [H1 H2].
  assert (EV : forall e, In e (eig 7%nat (normal_matrix Js0)) -> exists z, 0 < total 7 (fun i => z i * z i) /\ quad 7 (normal_matrix Js0) z = e * total 7 (fun i => z i * z i)).
  { intros e He. destruct (H1 e He) as [z [Hz Ez]]. exists z. split; [apply total_sq_pos; auto|].
    unfold quad. rewrite <- total_scal. apply total_ext. intros i Hi.
    rewrite (total_ext 7 _ (fun j => z i * (normal_matrix Js0 i j * z j))) by (intros; ring).
    rewrite total_scal, Ez by auto. ring. }
  assert (P : forall z, 0 <= quad 7 (normal_matrix Js0) z).
  { intros z. rewrite (quad_normal Js0 rs0) by auto. set (l := flat _ _ _). rewrite <- (lsum_zero l). apply lsum_le. intros. nra. }
  split.
  - intros H x. destruct (H2 x) as [e [He Hle]]. apply Rle_trans with (2 := Hle). apply Rmult_le_compat_r.
    + unfold total. cbn [seq map fold_right]. nra.
    + destruct (EV e He) as [z [Pz Qz]]. specialize (P z). specialize (H e He). unfold Rabs in H. destruct (Rcase_abs e); [nra|lra].
  - intros H e He. destruct (EV e He) as [z [Pz Qz]]. specialize (H z). rewrite Qz in H.
    apply Rle_trans with e; [|apply Rle_abs]. apply Rmult_le_reg_r with (1 := Pz). lra.
Qed.
Lemma same_regular : (forall e, In e (eig 7%nat (normal_matrix Js)) -> / 10 <= Rabs e) <-> (forall e, In e (eig 7%nat (normal_matrix Js')) -> / 10 <= Rabs e).
Proof.
  rewrite (regular_form Js rs HS HE), (regular_form Js' rs' HS' HE'). split; intros H x.
  - destruct (turn7_onto x) as [z Hz]. rewrite <- (quad_ext7 _ (turn7 z) x Hz), quad_turned.
    rewrite (total_ext 7 _ (fun i => turn7 z i * turn7 z i)) by (intros i Hi; rewrite Hz; auto). rewrite turn7_norm. auto.
  - rewrite <- quad_turned, <- turn7_norm. auto.
Qed.
Lemma same_degenerate : is_degenerate eig 7 (normal_matrix Js') = is_degenerate eig 7 (normal_matrix Js).
Proof.
  assert (EQ : forall Js0 : list mat, is_degenerate eig 7 (normal_matrix Js0) = false <-> forall e, In e (eig 7%nat (normal_matrix Js0)) -> / 10 <= Rabs e).
  { clear. intros Js0. unfold is_degenerate. split.
    - intros H e He. apply Rnot_lt_le. intros N. assert (true = false); [|discriminate]. rewrite <- H. symmetry. apply existsb_exists. exists e. split; auto. apply lt_true. auto.
    - intros H. destruct (existsb _ _) eqn:E; auto. apply existsb_exists in E. destruct E as [e [He Hlt]]. specialize (H e He). apply Rltb_spec in Hlt. lra. }
  pose proof same_regular as SR. destruct (is_degenerate eig 7 (normal_matrix Js)) eqn:E1, (is_degenerate eig 7 (normal_matrix Js')) eqn:E2; auto.
  - pose proof (proj2 (EQ Js) (proj2 SR (proj1 (EQ Js') E2))) as N. rewrite <- E1. exact (eq_sym N).
  - pose proof (proj2 (EQ Js') (proj1 SR (proj1 (EQ Js) E1))) as N. rewrite <- E2. exact N.
Qed.
Lemma degenerate_update q0 w (Js0 : list mat) rs0 : well_shaped Js0 rs0 -> length w = length Js0 -> is_degenerate eig 7 (normal_matrix Js0) = true ->
  calc_update eig llt q0 w Js0 rs0 = Ok (qid, V3 0 0 0).
Proof.
  intros H0 HLw HD. unfold is_degenerate in HD. apply existsb_exists in HD. destruct HD as [e [He Hlt]]. apply Rltb_spec in Hlt.
  apply degenerate_step; eauto. destruct (shape_checks Js0 rs0 H0) as [E _]. congruence.
Qed.

Lemma step_turned q w : unit q -> length w = length Js -> Forall (fun c => 0 < c) w ->
  exists dq dt, unit dq /\ calc_update eig llt q w Js rs = Ok (dq, dt) /\ calc_update eig llt (qmul g q) w Js' rs' = Ok (dq, tp dt).
Proof.
  intros Uq HLw Hw. assert (HLw' : length w = length Js') by (rewrite same_number; auto).
  destruct (is_degenerate eig 7 (normal_matrix Js)) eqn:ED.
  - exists qid, (V3 0 0 0). split; [unfold unit, qnorm2, qid; cbn; ring|]. rewrite tp_zero.
    split; apply degenerate_update; auto. rewrite same_degenerate. auto.
  - assert (Hnd : forall e, In e (eig 7%nat (normal_matrix Js)) -> / 10 <= Rabs e).
    { intros e He. apply Rnot_lt_le. intros N. assert (true = false); [|discriminate]. rewrite <- ED. symmetry.
      unfold is_degenerate. apply existsb_exists. exists e. split; auto. apply lt_true. auto. }
    assert (Hnd' : forall e, In e (eig 7%nat (normal_matrix Js')) -> / 10 <= Rabs e) by (apply same_regular; auto).
    destruct (step_minimises eig llt HL q Uq w Js rs HS HLw Hw HE Hnd) as [x [E1 M1]].
    assert (Uq' : unit (qmul g q)) by (apply unit_mul; auto).
    destruct (step_minimises eig llt HL (qmul g q) Uq' w Js' rs' HS' HLw' Hw HE' Hnd') as [x' [E2 M2]].
    assert (T : forall y, linear_error w Js' rs' (tangent (qmul g q) (turn6 y)) = linear_error w Js rs (tangent q y)).
    { intros y. rewrite tangent_turn, error_turned, tangent_list7. reflexivity. }
    assert (X : forall k, (k < 6)%nat -> x' k = turn6 x k).
    { apply (minimiser_unique eig (qmul g q) Uq' w Js' rs' HS' HLw' Hw HE' Hnd'); auto.
      intros y. destruct (turn6_onto y) as [z Hz]. rewrite <- (tangent_ext _ _ _ Hz), !T. apply M1. }
    eexists. eexists. split; [|split; [exact E1|]]; [apply aa_unit|]. rewrite E2, !X by lia. reflexivity.
Qed.
End Steps.

(** * Runs *)
Definition same_problem eig (a b : outcome (list mat * list (list R))) : Prop :=
  match a, b with
  | Ok (Js, rs), Ok (Js', rs') =>
      well_shaped Js rs /\ well_shaped Js' rs' /\ Forall2 alike_term (combine Js rs) (combine Js' rs') /\
      eigenvalues_of 7 (normal_matrix Js) (eig 7%nat (normal_matrix Js)) /\
      eigenvalues_of 7 (normal_matrix Js') (eig 7%nat (normal_matrix Js'))
  | ThrowInvalid, ThrowInvalid | ThrowRange, ThrowRange | ThrowOther, ThrowOther | AssertFail, AssertFail | UB, UB => True
  | _, _ => False
  end.
Definition turned_result (r : opt_result exact pose) : opt_result exact pose :=
  {| r_pose := turned_pose g (r_pose r); r_message := r_message r; r_iteration := r_iteration r;
     r_error := r_error r; r_error_scale := r_error_scale r; r_success := r_success r |}.

Section Runs.
Variable eig : nat -> (nat -> nat -> R) -> list R.
Variable llt : nat -> (nat -> nat -> R) -> (nat -> R) -> (nat -> R).
Variable sel : selector exact.
Hypothesis HL : solves_positive_definite llt.
Variables make make' : pose -> outcome (list mat * list (list R)).
Variable T : pose.
Hypothesis HT : is_rotation (lin T).
Variable bound : nat.
Hypothesis HM : forall q t, reaches eig llt sel make T bound q t -> unit q -> same_problem eig (make (make_pose q t)) (make' (make_pose (qmul g q) (tp t))).

Notation its := (iterations exact quat vec pose mat (list R) make make_pose rdot (calc_update eig llt) qmul vadd
    check_convergence sel b_robust k_robust tiny_robust).
Notation loop P := (opt_loop exact quat vec pose mat (list R) P make_pose rdot
    (calc_update eig llt) qmul vadd check_convergence sel b_robust k_robust tiny_robust).

Lemma its_more q0 t0 e0 s0 l q t e s J r e' s' dq dt :
  its q0 t0 e0 s0 l q t e s ->
  measured exact quat vec pose mat (list R) make make_pose rdot sel b_robust q t J r e' s' ->
  d_ltb exact e e' = false -> d_ltb exact s s' = false ->
  SpecOpt.step exact quat vec mat (list R) rdot (calc_update eig llt) k_robust tiny_robust q J r s' dq dt -> check_convergence dq dt = false ->
  exists l', length l' = S (length l) /\ its q0 t0 e0 s0 l' (qmul q dq) (vadd t dt) e' s'.
Proof.
  intros H H1 H2 H3 H4 H5. induction H as [q t e s|q t e0 s0 J1 r1 e1 s1 dq1 dt1 l q' t' e2 s2 M1 L1 L2 S1 C1 H IH].
  - exists [(e', s')]. split; [reflexivity|]. econstructor; eauto. constructor.
  - destruct (IH H1 H2 H3 H4) as [l' [Ll' Hl']]. exists ((e1, s1) :: l'). split; [exact (f_equal S Ll')|]. econstructor; eauto.
Qed.

Lemma loop_turned n : forall iter q t pe ps l, unit q -> (length l + n <= bound)%nat -> its (fst (of_pose T)) (snd (of_pose T)) dbl_max dbl_max l q t pe ps ->
  loop make' n iter (qmul g q) (tp t) pe ps = (r <- loop make n iter q t pe ps ;; Ok (turned_result r)).
Proof.
  induction n as [|n IH]; intros iter q t pe ps l Uq HN HR; cbn [opt_loop].
  - cbn [bind]. unfold reached_maximum, turned_result. cbn [r_pose r_message r_iteration r_error r_error_scale r_success]. rewrite tp_pose by auto. reflexivity.
  - assert (HB : (length l < bound)%nat) by lia.
    assert (HP := HM q t (ex_intro _ l (ex_intro _ pe (ex_intro _ ps (conj HB HR)))) Uq). unfold same_problem in HP.
    destruct (make (make_pose q t)) as [[Js rs]| | | | |] eqn:EM, (make' (make_pose (qmul g q) (tp t))) as [[Js' rs']| | | | |];
      try contradiction; try reflexivity.
    destruct HP as (HS & HS' & HA & HE & HE'). cbn [bind].
    pose proof (errors_turned Js Js' rs rs' HS HS' HA) as EE.
    assert (LR : length rs' = length rs) by (apply (f_equal (@length R)) in EE; rewrite !map_length in EE; auto).
    destruct rs as [|r rs], rs' as [|r' rs']; try discriminate.
    { cbn [bind]. unfold empty_input, turned_result. cbn [r_pose r_message r_iteration r_error r_error_scale r_success]. rewrite tp_pose by auto. reflexivity. }
    set (r0 := r :: rs) in *. set (r0' := r' :: rs') in *.
    unfold compute_errors, normalize_error_scale. change (D exact) with R in *. rewrite EE. destruct (scale exact sel b_robust (map rdot r0)) as [sc| | | | |] eqn:ES; cbn [bind]; try reflexivity.
    change (D exact) with R in *.
    match goal with |- context [d_ltb exact pe ?e] => set (err := e) in *; change (sum_errors exact (map rdot r0)) with err end.
    destruct (d_ltb exact pe err) eqn:L1.
    { unfold larger_error, turned_result. cbn [bind r_pose r_message r_iteration r_error r_error_scale r_success]. rewrite tp_pose by auto. reflexivity. }
    destruct (d_ltb exact ps sc) eqn:L2.
    { unfold larger_scale, turned_result. cbn [bind r_pose r_message r_iteration r_error r_error_scale r_success]. rewrite tp_pose by auto. reflexivity. }
    unfold compute_weights. set (w := map (fun e => huber_derivative exact e k_robust) _).
    assert (Lw : length w = length Js).
    { unfold w. rewrite !map_length. destruct (shape_checks Js r0 HS) as [E _]. auto. }
    assert (Pw : Forall (fun c => 0 < c) w).
    { unfold w. apply Forall_forall. intros c Hc. apply in_map_iff in Hc. destruct Hc as [e [<- _]]. apply huber_pos. }
    destruct (step_turned Js Js' r0 r0' HS HS' HA eig llt HL HE HE' q w Uq Lw Pw) as (dq & dt & Ud & E1 & E2).
    change (D exact) with R in *. rewrite E1, E2. cbn [bind].
    assert (EC : check_convergence dq (tp dt) = check_convergence dq dt) by (unfold check_convergence; rewrite tp_norm; reflexivity).
    assert (EA : vadd (tp t) (tp dt) = tp (vadd t dt)) by (symmetry; apply tp_add).
    assert (EQ : qmul (qmul g q) dq = qmul g (qmul q dq)).
    { destruct g as [a1 a2 a3 a4], q as [b1 b2 b3 b4], dq as [c1 c2 c3 c4]. apply quat_ext; vcbn; ring. }
    rewrite EC, EA, EQ. assert (Uq2 : unit (qmul q dq)) by (apply unit_mul; auto).
    destruct (check_convergence dq dt) eqn:CV.
    { unfold successfully_converged, turned_result. cbn [bind r_pose r_message r_iteration r_error r_error_scale r_success]. rewrite tp_pose by auto. reflexivity. }
    destruct (its_more _ _ _ _ _ _ _ _ _ Js r0 err sc dq dt HR) as [l' [Ll' Hl']]; auto.
    { unfold measured. split; auto. split; [discriminate|]. split; [reflexivity|exact ES]. }
    { unfold SpecOpt.step. rewrite <- E1. unfold w. rewrite (map_map _ _ (map rdot r0)). reflexivity. }
    apply (IH _ _ _ _ _ l'); auto. change (D exact) with R in *. lia.
Qed.
Lemma optimize_turned max_iter : bound = Z.to_nat max_iter -> of_pose (turned_pose g T) = (qmul g (fst (of_pose T)), tp (snd (of_pose T))) ->
  optimize eig llt sel make' max_iter (turned_pose g T) = (r <- optimize eig llt sel make max_iter T ;; Ok (turned_result r)).
Proof.
  intros EB E. unfold optimize, opt_run. rewrite E. destruct (of_pose T) as [q t] eqn:ET. cbn [fst snd].
  assert (Uq : unit q). { unfold of_pose in ET. injection ET as <- _. apply quat_of_ok. auto. }
  rewrite (loop_turned (Z.to_nat max_iter) 0 q t dbl_max dbl_max []); auto.
  2:{ rewrite EB. cbn [length]. lia. }
  2:{ rewrite ET. cbn [fst snd]. apply (it_none exact). }
  destruct (opt_loop exact _ _ _ _ _ make _ _ _ _ _ _ _ _ _ _ (Z.to_nat max_iter) 0%Z q t dbl_max dbl_max) as [r| | | | |]; cbn [bind]; try reflexivity.
  destruct (max_iter <? 0)%Z; reflexivity.
Qed.
End Runs.

(** * Terms of the problems *)
Definition dvec (q : quat) (p : vec) (u : quat) : vec := vec_of (mat_app (drpdq q p) (coords u)).
Lemma dvec_turned q p u : dvec (qmul g q) p (qmul g u) = tp (dvec q p u).
Proof. rewrite tp_sandwich. clear Ug. destruct g as [a b c d], q as [e f h k], p as [p1 p2 p3], u as [u1 u2 u3 u4]. unfold dvec, vec_of. apply vec_ext; vcbn; ring. Qed.
Definition rate (q : quat) (p : vec) (x : nat -> R) : vec :=
  vadd (dvec q p (Qn (x 0%nat) (x 1%nat) (x 2%nat) (x 3%nat))) (V3 (x 4%nat) (x 5%nat) (x 6%nat)).
Lemma rate_turned q p x : rate (qmul g q) p (turn7 x) = tp (rate q p x).
Proof.
  unfold rate. rewrite tp_add, <- dvec_turned. unfold turn7. cbn [nth]. set (u := qmul g (Qn _ _ _ _)). set (v := tp (V3 _ _ _)).
  destruct u, v; reflexivity.
Qed.
Lemma size_alignment q p r x : size (beside (drpdq q p) [[1; 0; 0]; [0; 1; 0]; [0; 0; 1]]) (vlist r) (list7 x)
  = vdot (vadd r (rate q p x)) (vadd r (rate q p x)).
Proof.
  unfold size, rate, dvec, vec_of, list7, row_dot. destruct q as [e f h k], p as [p1 p2 p3], r as [r1 r2 r3]. vcbn. ring.
Qed.
Lemma alignment_alike q p r : alike_term (beside (drpdq q p) [[1; 0; 0]; [0; 1; 0]; [0; 0; 1]], vlist r)
  (beside (drpdq (qmul g q) p) [[1; 0; 0]; [0; 1; 0]; [0; 0; 1]], vlist (tp r)).
Proof. intros x. cbn [fst snd]. rewrite !size_alignment, rate_turned, <- tp_add, tp_dot. reflexivity. Qed.
Lemma size_edge q p0 p1 p2 r x : size (edge_jacobian q p0 p1 p2) (vlist r) (list7 x)
  = vdot (vadd r (vcross (vsub p2 p1) (rate q p0 x))) (vadd r (vcross (vsub p2 p1) (rate q p0 x))).
Proof.
  unfold size, rate, dvec, vec_of, list7, row_dot, edge_jacobian. destruct q as [e f h k], p0 as [u1 u2 u3], p1 as [v1 v2 v3], p2 as [w1 w2 w3], r as [r1 r2 r3]. vcbn. ring.
Qed.
Lemma edge_alike q t p0 p1 p2 : unit q ->
  alike_term (edge_jacobian q p0 p1 p2, vlist (edge_residual (make_pose q t) p0 p1 p2))
    (edge_jacobian (qmul g q) p0 (tp p1) (tp p2), vlist (edge_residual (make_pose (qmul g q) (tp t)) p0 (tp p1) (tp p2))).
Proof.
  intros Uq x. cbn [fst snd]. rewrite !size_edge, rate_turned. unfold edge_residual. rewrite tp_transform by auto.
  rewrite <- !tp_sub, !tp_cross, <- tp_add, tp_dot. reflexivity.
Qed.
(** Exchanging the two points of the line changes the signs only. *)
Lemma edge_alike_opposite q t p0 p1 p2 : unit q ->
  alike_term (edge_jacobian q p0 p1 p2, vlist (edge_residual (make_pose q t) p0 p1 p2))
    (edge_jacobian (qmul g q) p0 (tp p2) (tp p1), vlist (edge_residual (make_pose (qmul g q) (tp t)) p0 (tp p2) (tp p1))).
Proof.
  intros Uq x. rewrite <- (edge_alike q t p0 p1 p2 Uq x). cbn [fst snd]. rewrite !size_edge. set (u := rate _ _ _). unfold edge_residual. set (T := make_pose _ _).
  set (y := transform T p0). set (a := tp p1). set (b := tp p2). clearbody u y a b. destruct u, y, a, b. vcbn. ring.
Qed.
Lemma size_surface q w p r x : size (surface_jacobian w q p) [r] (list7 x)
  = (r + vdot w (rate q p x) / vnorm w) * (r + vdot w (rate q p x) / vnorm w).
Proof.
  unfold size, rate, dvec, vec_of, list7, row_dot, surface_jacobian. set (n := / vnorm w). unfold Rdiv. fold n. clearbody n. destruct q as [e f h k], p as [u1 u2 u3], w as [w1 w2 w3]. vcbn. ring.
Qed.
Lemma surface_alike_turned q t w p : unit q ->
  alike_term (surface_jacobian w q p, [signed_distance w (transform (make_pose q t) p)])
    (surface_jacobian (tp w) (qmul g q) p, [signed_distance (tp w) (transform (make_pose (qmul g q) (tp t)) p)]).
Proof.
  intros Uq x. cbn [fst snd]. rewrite !size_surface, rate_turned. unfold signed_distance. rewrite tp_transform by auto. rewrite !tp_dot, tp_norm. reflexivity.
Qed.

(** * The problems *)
Lemma start_turned T : is_rotation (lin T) -> same_sign g (quat_of (lin T)) ->
  of_pose (turned_pose g T) = (qmul g (fst (of_pose T)), tp (snd (of_pose T))).
Proof.
  intros HR HS. unfold of_pose, turned_pose. cbn [lin tra fst snd]. f_equal. unfold same_sign in HS.
  destruct (quat_of_ok (lin T) HR) as [U E]. rewrite rotation_mul in HS by auto. rewrite E in HS. exact HS.
Qed.
Lemma back q : unit q -> to_rotation (quat_of (to_rotation q)) = to_rotation q.
Proof. intros U. apply quat_of_ok. apply to_rotation_is_rotation. auto. Qed.

Lemma alignment_turned eig source target q t : unit q -> same_sign g q ->
  right_eigenvalues eig (alignment_make (source, target) (make_pose q t)) ->
  right_eigenvalues eig (alignment_make (source, map tp target) (make_pose (qmul g q) (tp t))) ->
  same_problem eig (alignment_make (source, target) (make_pose q t)) (alignment_make (source, map tp target) (make_pose (qmul g q) (tp t))).
Proof.
  intros Uq HS HE HE'. unfold alignment_make, alignment_residual in *. cbn [fst snd] in *. rewrite map_length in *.
  destruct (Nat.eqb_spec (length source) (length target)) as [L|L]; cbn [assert_ bind] in *; [|exact I].
  cbn [same_problem]. cbn [make_pose lin] in *. rewrite HS in *.
  assert (SH : forall p (f : vec * vec -> vec) src tgt, length src = length tgt ->
    well_shaped (alignment_jacobian p src) (map (fun xy => vlist (f xy)) (combine src tgt))).
  { clear. intros p f src. unfold well_shaped, alignment_jacobian. induction src as [|x src IH]; intros [|y tgt] L; try discriminate; cbn [map combine]; constructor.
    - split; [reflexivity|]. repeat constructor.
    - apply IH. cbn in L. lia. }
  split; [apply SH; auto|]. split; [apply SH; rewrite map_length; auto|]. split; [|split; [eapply HE; reflexivity|eapply HE'; reflexivity]].
  clear HE HE' SH. unfold alignment_jacobian. revert target L. induction source as [|x source IH]; intros [|y target] L; try discriminate; cbn [map combine]; constructor.
  - cbn [fst snd]. change (Iso (to_rotation (qmul g q)) (tp t)) with (make_pose (qmul g q) (tp t)). rewrite tp_transform, <- tp_sub by auto. apply alignment_alike.
  - apply IH. cbn in L. lia.
Qed.
(** * The localizer's terms *)
Lemma tp_onto (v : vec) : exists u, tp u = v.
Proof.
  exists (sandwich (qconj g) v). rewrite tp_sandwich. pose proof Ug as U. unfold unit, qnorm2 in U. destruct g as [w x y z], v as [a b c]. cbn [qw qx qy qz] in U.
  assert (E : sandwich (Qn w x y z) (sandwich (qconj (Qn w x y z)) (V3 a b c)) = vscale ((w * w + x * x + y * y + z * z) * (w * w + x * x + y * y + z * z)) (V3 a b c)) by (apply vec_ext; vcbn; ring).
  rewrite E, U. apply vec_ext; vcbn; ring.
Qed.
Lemma tp_inj a b : tp a = tp b -> a = b.
Proof.
  intros E. assert (Z : vsub a b = origin). { apply sq_zero. rewrite <- tp_dot, tp_sub, E. unfold vsub, vdot. cbn [vx vy vz]. ring. }
  pose proof (f_equal vx Z). pose proof (f_equal vy Z). pose proof (f_equal vz Z). unfold vsub, origin in *. cbn [vx vy vz] in *. apply vec_ext; lra.
Qed.
Lemma vsum_turned X : vsum (map tp X) = tp (vsum X).
Proof. induction X as [|x X IH]; cbn [map vsum fold_right]; [symmetry; apply tp_zero|]. unfold vsum in IH. rewrite IH, tp_add. reflexivity. Qed.
Lemma mean_turned X : mean_and_covariance X = AssertFail /\ mean_and_covariance (map tp X) = AssertFail \/
  exists c C C', mean_and_covariance X = Ok (c, C) /\ mean_and_covariance (map tp X) = Ok (tp c, C') /\
    forall u, vdot (tp u) (mapply C' (tp u)) = vdot u (mapply C u).
Proof.
  destruct X as [|x X]; [left; split; reflexivity|right]. set (Y := x :: X).
  destruct (mean_cov_ok Y) as [c [C E]]; [discriminate|]. destruct (mean_cov_ok (map tp Y)) as [c' [C' E']]; [discriminate|].
  exists c, C, C'. split; auto.
  assert (EC : c' = tp c).
  { destruct (mean_cov_inv _ _ _ E) as [EM _]. destruct (mean_cov_inv _ _ _ E') as [EM' _].
    unfold mean_and_covariance, center in E, E'. rewrite map_length in E'. change (Nat.eqb (length Y) 0) with false in *. cbn [negb assert_ bind] in E, E'.
    injection E as <- _. injection E' as <- _. rewrite tp_scale. f_equal. apply (vsum_turned Y). }
  subst c'. split; auto. intros u.
  assert (NZ : INR (length Y) <> 0) by (apply not_0_INR; discriminate).
  pose proof (cov_quad Y c C E u) as Q. pose proof (cov_quad (map tp Y) (tp c) C' E' (tp u)) as Q'. rewrite map_length in Q'.
  apply (Rmult_eq_reg_l (INR (length Y))); auto. rewrite <- Q, <- Q'. unfold sum_over. rewrite map_map. f_equal. apply map_ext. intros y.
  rewrite <- tp_sub, tp_dot. reflexivity.
Qed.
Lemma principal_turned principal C C' : (forall u, vdot (tp u) (mapply C' (tp u)) = vdot u (mapply C u)) ->
  (forall u, principal_direction C u -> u = principal C \/ u = vscale (-1) (principal C)) -> principal_direction C' (principal C') ->
  principal C' = tp (principal C) \/ principal C' = vscale (-1) (tp (principal C)).
Proof.
  intros HQ H1 [H2 H3]. destruct (tp_onto (principal C')) as [u E]. rewrite <- E in *. rewrite tp_dot in H2.
  destruct (H1 u) as [-> | ->].
  - split; auto. intros v Hv. rewrite <- !HQ. apply H3. rewrite tp_dot. auto.
  - left. reflexivity.
  - right. apply tp_scale.
Qed.
Lemma independent_turned X : independent X -> independent (map tp X).
Proof.
  intros HI w Hw. destruct (tp_onto w) as [u <-]. rewrite (HI u); [apply tp_zero|]. intros x Hx. rewrite <- tp_dot. apply Hw. apply in_map. auto.
Qed.
Lemma misfit_turned X k w : misfit (map tp X) k (tp w) = misfit X k w.
Proof.
  unfold misfit. revert k. induction X as [|x X IH]; intros [|a k]; cbn [map combine fold_right fst snd]; auto. rewrite IH, tp_dot. reflexivity.
Qed.
Lemma plane_turned qr X : (forall X, solves_least_squares qr X (repeat (-1) (length X))) -> independent X ->
  estimate_plane qr (map tp X) = tp (estimate_plane qr X).
Proof.
  intros HQ HI. unfold estimate_plane. destruct (tp_onto (qr (map tp X) (repeat (-1) (length (map tp X))))) as [u E]. rewrite <- E. f_equal.
  pose proof (HQ X HI) as M. pose proof (HQ (map tp X) (independent_turned X HI)) as M'. rewrite map_length in *. rewrite <- E in M'.
  assert (M2 : forall w, misfit X (repeat (-1) (length X)) u <= misfit X (repeat (-1) (length X)) w).
  { intros w. rewrite <- (misfit_turned X _ u), <- (misfit_turned X _ w). apply M'. }
  exact (least_unique X HI _ _ M2 M).
Qed.
(** Related terms, of the right shape. *)
Definition shaped (a : mat * list R) : Prop := length (fst a) = length (snd a) /\ Forall (fun row => length row = 7%nat) (fst a).
Definition turned_terms (a b : mat * list R) : Prop := shaped a /\ shaped b /\ alike_term a b.

Section Localizer.
Variable find : list vec -> vec -> nat -> list nat.
Hypothesis HF : searches_turned g find.
Variable principal : mat3 -> vec.
Variable qr : list vec -> list R -> vec.
Hypothesis HQ : forall X, solves_least_squares qr X (repeat (-1) (length X)).

Lemma search_turned m q n : nearest_k_search vec find (map tp m) (tp q) n = omap (map tp) (nearest_k_search vec find m q n).
Proof.
  unfold nearest_k_search. destruct n as [|n]; [reflexivity|]. rewrite HF. unfold get_rows. rewrite <- mapM_omap. apply mapM_ext.
  intros i _. rewrite nth_error_map. destruct (nth_error m i); reflexivity.
Qed.
(** The same pose, by the quaternion that the conversion gives. *)
Lemma by_conversion q t : unit q -> same_sign g q -> exists p, unit p /\ quat_of (to_rotation q) = p /\ quat_of (to_rotation (qmul g q)) = qmul g p /\
  make_pose q t = make_pose p t /\ make_pose (qmul g q) (tp t) = make_pose (qmul g p) (tp t).
Proof.
  intros Uq HS. exists (quat_of (to_rotation q)). assert (U : unit (quat_of (to_rotation q))) by (apply quat_of_ok; apply to_rotation_is_rotation; auto).
  split; auto. split; auto. split; auto. unfold make_pose. rewrite !rotation_mul by auto. rewrite !back by auto. auto.
Qed.
Lemma edge_term_turned m n q t p : elongated g principal find m n -> unit q -> same_sign g q ->
  same turned_terms (edge_term principal find m n (make_pose q t) p) (edge_term principal find (map tp m) n (make_pose (qmul g q) (tp t)) p).
Proof.
  intros HE Uq HS. unfold edge_term, edge_fit. rewrite tp_transform, search_turned by auto.
  specialize (HE (transform (make_pose q t) p)).
  destruct (nearest_k_search vec find m (transform (make_pose q t) p) n) as [X| | | | |]; cbn [omap bind same]; auto.
  destruct (HE X eq_refl) as [H1 H2].
  destruct (mean_turned X) as [[-> ->]|(c & C & C' & E1 & E2 & HC)]; cbn [bind same]; auto. rewrite E1, E2. cbn [bind same fst snd].
  destruct (H1 c C E1) as [_ H4]. specialize (H2 (tp c) C' E2).
  destruct (by_conversion q t Uq HS) as (p' & Up & Q1 & Q2 & M1 & M2).
  cbn [make_pose lin]. rewrite Q1, Q2. change (Iso (to_rotation q) t) with (make_pose q t). change (Iso (to_rotation (qmul g q)) (tp t)) with (make_pose (qmul g q) (tp t)).
  rewrite M1, M2. assert (SH : forall q a b c r, shaped (edge_jacobian q a b c, vlist r)) by (intros; split; [reflexivity|repeat constructor]).
  split; [apply SH|]. split; [apply SH|].
  destruct (principal_turned principal C C' HC H4 H2) as [-> | ->].
  - rewrite <- tp_sub, <- tp_add. apply edge_alike. auto.
  - replace (vsub (tp c) (vscale (-1) (tp (principal C)))) with (tp (vadd c (principal C))) by (rewrite tp_add; apply vec_ext; vcbn; ring).
    replace (vadd (tp c) (vscale (-1) (tp (principal C)))) with (tp (vsub c (principal C))) by (rewrite tp_sub; apply vec_ext; vcbn; ring).
    apply edge_alike_opposite. auto.
Qed.
Lemma surface_term_turned m n q t p : determined find m n -> unit q -> same_sign g q ->
  same turned_terms (surface_term qr find m n (make_pose q t) p) (surface_term qr find (map tp m) n (make_pose (qmul g q) (tp t)) p).
Proof.
  intros HE Uq HS. unfold surface_term, plane_fit. rewrite tp_transform, search_turned by auto.
  specialize (HE (transform (make_pose q t) p)).
  destruct (nearest_k_search vec find m (transform (make_pose q t) p) n) as [X| | | | |]; cbn [omap bind same]; auto.
  rewrite plane_turned by auto. destruct (by_conversion q t Uq HS) as (p' & Up & Q1 & Q2 & M1 & M2).
  cbn [make_pose lin]. rewrite Q1, Q2. change (Iso (to_rotation q) t) with (make_pose q t).
  rewrite <- tp_transform by auto. rewrite M1, M2. split; [split; [reflexivity|repeat constructor]|]. split; [split; [reflexivity|repeat constructor]|].
  apply surface_alike_turned. auto.
Qed.
Lemma loam_turned eig downsample edge_map surface_map n scan q t :
  (fst scan = [] \/ elongated g principal find edge_map n) -> (downsample (snd scan) = [] \/ determined find surface_map n) ->
  unit q -> same_sign g q ->
  right_eigenvalues eig (loam_problem principal qr find downsample edge_map surface_map n scan (make_pose q t)) ->
  right_eigenvalues eig (loam_problem principal qr find downsample (map tp edge_map) (map tp surface_map) n scan (make_pose (qmul g q) (tp t))) ->
  same_problem eig (loam_problem principal qr find downsample edge_map surface_map n scan (make_pose q t))
    (loam_problem principal qr find downsample (map tp edge_map) (map tp surface_map) n scan (make_pose (qmul g q) (tp t))).
Proof.
  intros H1 H2 Uq HS. unfold loam_problem.
  assert (A1 : same (Forall2 turned_terms) (mapM (edge_term principal find edge_map n (make_pose q t)) (fst scan))
    (mapM (edge_term principal find (map tp edge_map) n (make_pose (qmul g q) (tp t))) (fst scan))).
  { destruct H1 as [-> |H1]; [constructor|]. apply same_mapM. intros x _. apply edge_term_turned; auto. }
  assert (A2 : same (Forall2 turned_terms) (mapM (surface_term qr find surface_map n (make_pose q t)) (downsample (snd scan)))
    (mapM (surface_term qr find (map tp surface_map) n (make_pose (qmul g q) (tp t))) (downsample (snd scan)))).
  { destruct H2 as [-> |H2]; [constructor|]. apply same_mapM. intros x _. apply surface_term_turned; auto. }
  destruct (mapM (edge_term principal find edge_map n (make_pose q t)) (fst scan)) as [es| | | | |]; cbn [same] in A1;
    [|rewrite A1; intros _ _; exact I..].
  destruct (mapM (edge_term principal find (map tp edge_map) n (make_pose (qmul g q) (tp t))) (fst scan)) as [es'| | | | |]; try contradiction. cbn [bind].
  destruct (mapM (surface_term qr find surface_map n (make_pose q t)) (downsample (snd scan))) as [ss| | | | |]; cbn [same] in A2;
    [|rewrite A2; intros _ _; exact I..].
  destruct (mapM (surface_term qr find (map tp surface_map) n (make_pose (qmul g q) (tp t))) (downsample (snd scan))) as [ss'| | | | |]; try contradiction. cbn [bind].
  pose proof (Forall2_app A1 A2) as A. rewrite <- !map_app. set (l := es ++ ss) in *. set (l' := es' ++ ss') in *. clearbody l l'.
  intros HE HE'. cbn [same_problem]. rewrite !combine_parts.
  assert (W : well_shaped (map fst l) (map snd l) /\ well_shaped (map fst l') (map snd l') /\ Forall2 alike_term l l').
  { clear - A. unfold well_shaped. induction A as [|a b l l' [S1 [S2 S3]] A [I1 [I2 I3]]]; [split; [|split]; constructor|]. cbn [map]. split; [|split]; constructor; auto. }
  destruct W as [W1 [W2 W3]]. split; auto. split; auto. split; auto. split; [eapply HE; reflexivity|eapply HE'; reflexivity].
Qed.
End Localizer.
End Turn.
