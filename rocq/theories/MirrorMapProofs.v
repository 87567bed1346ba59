(** Proofs for C121. *)
From Coq Require Import List ZArith Bool Lia Lra Reals Nsatz.
From Verif Require Import Base Arith LibModel SpecLib LibProofs LocModel PoseModel OptModel ProblemModel LocNodeModel SpecPose SpecFit SpecOpt SpecStep SpecRotMap SpecMirrorMap SpecMsg
  AngleProofs RotProofs WitnessProofs StepProofs SlopeProofs Prop_Rotation FitProofs LeastSquares LocOriginProofs RotMapProofs.
Import ListNotations.
Open Scope R_scope.

(** * The mirror *)
Notation mp := mirrored_point.
Notation mq := mirrored_quat.
Ltac mcbn := unfold mirrored_point, mirrored_quat, mirrored_rotation in *; vcbn.
Lemma mp_mp p : mp (mp p) = p. Proof. destruct p. apply vec_ext; mcbn; ring. Qed.
Lemma mp_add a b : mp (vadd a b) = vadd (mp a) (mp b). Proof. destruct a, b. apply vec_ext; mcbn; ring. Qed.
Lemma mp_sub a b : mp (vsub a b) = vsub (mp a) (mp b). Proof. destruct a, b. apply vec_ext; mcbn; ring. Qed.
Lemma mp_scale c a : mp (vscale c a) = vscale c (mp a). Proof. destruct a. apply vec_ext; mcbn; ring. Qed.
Lemma mp_dot a b : vdot (mp a) (mp b) = vdot a b. Proof. destruct a, b. mcbn. ring. Qed.
Lemma mp_norm a : vnorm (mp a) = vnorm a. Proof. unfold vnorm. rewrite mp_dot. reflexivity. Qed.
Lemma mp_cross a b : vcross (mp a) (mp b) = vscale (-1) (mp (vcross a b)). Proof. destruct a, b. apply vec_ext; mcbn; ring. Qed.
Lemma mq_mul p q : mq (qmul p q) = qmul (mq p) (mq q). Proof. destruct p, q. apply quat_ext; mcbn; ring. Qed.
Lemma mq_unit q : unit q -> unit (mq q). Proof. destruct q. unfold unit, qnorm2. mcbn. intros <-. ring. Qed.
Lemma mq_norm2 q : qnorm2 (mq q) = qnorm2 q. Proof. destruct q. unfold qnorm2. mcbn. ring. Qed.
Lemma mq_mq q : mq (mq q) = q. Proof. destruct q. apply quat_ext; mcbn; ring. Qed.
Lemma mq_rotation q : to_rotation (mq q) = mirrored_rotation (to_rotation q). Proof. destruct q. apply mat3_ext; mcbn; ring. Qed.
Lemma mirrored_apply m p : mapply (mirrored_rotation m) (mp p) = mp (mapply m p). Proof. destruct m, p. apply vec_ext; mcbn; ring. Qed.
Lemma mirrored_is_rotation m : is_rotation m -> is_rotation (mirrored_rotation m).
Proof. intros H. destruct (quat_of_ok m H) as [U E]. rewrite <- E, <- mq_rotation. apply to_rotation_is_rotation. apply mq_unit. auto. Qed.
Lemma aa_mirrored a b c : angle_axis_to_quaternion (V3 (- a) b (- c)) = mq (angle_axis_to_quaternion (V3 a b c)).
Proof.
  unfold angle_axis_to_quaternion. replace (vnorm (V3 (- a) b (- c))) with (vnorm (V3 a b c)).
  2: { unfold vnorm, vdot. cbn [vx vy vz]. f_equal. ring. }
  set (k := vnorm _). destruct (Rltb k (/ 100000000)); [apply quat_ext; cbn; ring|]. apply quat_ext; cbn [mirrored_quat vscale vx vy vz qw qx qy qz]; ring.
Qed.
Lemma dvec_mirrored q p u : dvec (mq q) (mp p) (mq u) = mp (dvec q p u).
Proof. destruct q as [e f h k], p as [p1 p2 p3], u as [u1 u2 u3 u4]. unfold dvec, vec_of. apply vec_ext; mcbn; ring. Qed.

(** The map, mirrored and turned by the unit quaternion g; points of a scan are mirrored. *)
Section Mirror.
Variable g : quat.
Hypothesis Ug : unit g.
Definition tp (p : vec) : vec := turned_point g (mp p).
Definition tq (q : quat) : quat := qmul g (mq q).
Definition tpose (T : pose) : pose := turned_pose g (mirrored_pose T).
Definition good_sign (q : quat) : Prop := quat_of (to_rotation (tq q)) = tq (quat_of (to_rotation q)).

Lemma tp_add a b : tp (vadd a b) = vadd (tp a) (tp b). Proof. unfold tp. rewrite mp_add. apply RotMapProofs.tp_add. Qed.
Lemma tp_sub a b : tp (vsub a b) = vsub (tp a) (tp b). Proof. unfold tp. rewrite mp_sub. apply RotMapProofs.tp_sub. Qed.
Lemma tp_scale c a : tp (vscale c a) = vscale c (tp a). Proof. unfold tp. rewrite mp_scale. apply RotMapProofs.tp_scale. Qed.
Lemma tp_zero : tp (V3 0 0 0) = V3 0 0 0.
Proof. unfold tp. replace (mp (V3 0 0 0)) with (V3 0 0 0) by (apply vec_ext; mcbn; ring). apply RotMapProofs.tp_zero. Qed.
Lemma tp_dot a b : vdot (tp a) (tp b) = vdot a b. Proof. unfold tp. rewrite RotMapProofs.tp_dot, mp_dot by auto. reflexivity. Qed.
Lemma tp_norm a : vnorm (tp a) = vnorm a. Proof. unfold tp. rewrite RotMapProofs.tp_norm, mp_norm by auto. reflexivity. Qed.
Lemma tp_cross a b : vcross (tp a) (tp b) = vscale (-1) (tp (vcross a b)).
Proof. unfold tp. rewrite RotMapProofs.tp_cross, mp_cross, RotMapProofs.tp_scale by auto. reflexivity. Qed.
Lemma tq_unit q : unit q -> unit (tq q). Proof. intros. unfold tq. apply unit_mul; auto using mq_unit. Qed.
Lemma tp_transform q t p : unit q -> transform (make_pose (tq q) (tp t)) (mp p) = tp (transform (make_pose q t) p).
Proof.
  intros Uq. unfold tq, tp. rewrite RotMapProofs.tp_transform by auto using mq_unit. f_equal.
  unfold transform, make_pose. cbn [lin tra]. rewrite mq_rotation, mirrored_apply, mp_add. reflexivity.
Qed.
Lemma tp_pose q t : unit q -> make_pose (tq q) (tp t) = tpose (make_pose q t).
Proof.
  intros Uq. unfold tq, tp, tpose. rewrite RotMapProofs.tp_pose by auto using mq_unit. f_equal. unfold mirrored_pose, make_pose. cbn [lin tra]. rewrite mq_rotation. reflexivity.
Qed.

Definition mirror7 (x : nat -> R) : nat -> R := fun i => nth i [x 0%nat; - x 1%nat; x 2%nat; - x 3%nat; x 4%nat; - x 5%nat; x 6%nat] 0.
Definition turn7 (x : nat -> R) : nat -> R := RotMapProofs.turn7 g (mirror7 x).
Definition alike_term (a b : mat * list R) : Prop :=
  forall x, size (fst b) (snd b) (list7 (turn7 x)) = size (fst a) (snd a) (list7 x).
Lemma turn7_norm x : total 7 (fun i => turn7 x i * turn7 x i) = total 7 (fun i => x i * x i).
Proof. unfold turn7. rewrite RotMapProofs.turn7_norm by auto. unfold total, mirror7. cbn [seq map fold_right nth]. ring. Qed.
Lemma turn7_local x y i : (forall i, (i < 7)%nat -> x i = y i) -> RotMapProofs.turn7 g x i = RotMapProofs.turn7 g y i.
Proof. intros H. unfold RotMapProofs.turn7. rewrite !H by lia. reflexivity. Qed.
Lemma turn7_onto y : exists x, forall i, (i < 7)%nat -> turn7 x i = y i.
Proof.
  destruct (RotMapProofs.turn7_onto g Ug y) as [x Hx]. exists (mirror7 x). intros i Hi. rewrite <- Hx by auto. unfold turn7. apply turn7_local.
  intros j Hj. unfold mirror7. do 7 (destruct j as [|j]; [cbn [nth]; ring|]). lia.
Qed.
Definition turn6 (y : nat -> R) : nat -> R :=
  let v := tp (V3 (y 3%nat) (y 4%nat) (y 5%nat)) in fun k => nth k [- y 0%nat; y 1%nat; - y 2%nat; vx v; vy v; vz v] 0.
Lemma tangent_turn q y : tangent (tq q) (turn6 y) = list7 (turn7 (fun i => nth i (tangent q y) 0)).
Proof.
  unfold tangent, turn6, list7, turn7, RotMapProofs.turn7, mirror7. cbn [nth]. unfold coords. cbn [app nth seq map].
  unfold tp, mirrored_point. cbn [vx vy vz]. set (v := turned_point g _). unfold tq. destruct g as [a b c d], q as [e f h k]. cbv zeta. 
  repeat (apply (f_equal2 (@cons R)); [try reflexivity; unfold mirrored_quat, hamilton, qmul, vdot, vadd, vscale, vcross, qvec; cbn [qw qx qy qz vx vy vz]; field|]). reflexivity.
Qed.
Lemma tp_onto (v : vec) : exists u, tp u = v.
Proof. destruct (RotMapProofs.tp_onto g Ug v) as [u <-]. exists (mp u). unfold tp. rewrite mp_mp. reflexivity. Qed.
Lemma turn6_onto y : exists x, forall i, (i < 6)%nat -> turn6 x i = y i.
Proof.
  destruct (tp_onto (V3 (y 3%nat) (y 4%nat) (y 5%nat))) as [u E].
  exists (fun i => nth i [- y 0%nat; y 1%nat; - y 2%nat; vx u; vy u; vz u] 0). intros i Hi. unfold turn6. cbn [nth].
  replace (V3 (vx u) (vy u) (vz u)) with u by (destruct u; reflexivity). rewrite E. cbn [vx vy vz].
  do 6 (destruct i as [|i]; [cbn [nth]; ring|]). lia.
Qed.
Lemma turn7_zero i : turn7 (fun _ => 0) i = 0.
Proof.
  unfold turn7. transitivity (RotMapProofs.turn7 g (fun _ => 0) i); [|apply RotMapProofs.turn7_zero; auto]. apply turn7_local. intros j Hj. unfold mirror7. do 7 (destruct j as [|j]; [cbn [nth]; ring|]). lia.
Qed.
Lemma turn7_opp x i : turn7 (fun k => - x k) i = - turn7 x i.
Proof.
  unfold turn7. rewrite <- RotMapProofs.turn7_opp by auto. apply turn7_local. intros j Hj. unfold mirror7. do 7 (destruct j as [|j]; [cbn [nth]; ring|]). lia.
Qed.
(** * Steps *)
Section Steps.
Variables (Js Js' : list mat) (rs rs' : list (list R)).
Hypothesis HS : well_shaped Js rs.
Hypothesis HS' : well_shaped Js' rs'.
Hypothesis HA : Forall2 alike_term (combine Js rs) (combine Js' rs').

Lemma error_turned w x : linear_error w Js' rs' (list7 (turn7 x)) = linear_error w Js rs (list7 x).
Proof.
  change (weighted_size w (combine Js' rs') (list7 (turn7 x)) = weighted_size w (combine Js rs) (list7 x)).
  assert (G : forall la lb, Forall2 alike_term la lb -> forall w, weighted_size w lb (list7 (turn7 x)) = weighted_size w la (list7 x)).
  { clear. intros la lb HF0. unfold weighted_size. induction HF0 as [|a b la lb Hab HF IH]; intros [|c w]; try reflexivity.
    cbn [combine map fold_right fst snd]. rewrite Hab, IH. reflexivity. }
  exact (G _ _ HA w).
Qed.
Lemma same_number : length Js' = length Js.
Proof.
  assert (L : length (combine Js rs) = length (combine Js' rs')) by (generalize HA; clear; intros HF0; induction HF0; cbn [length]; auto).
  destruct (shape_checks Js rs HS) as [E1 _]. destruct (shape_checks Js' rs' HS') as [E2 _].
  rewrite !combine_length, <- E1, <- E2, !Nat.min_id in L. auto.
Qed.
Lemma errors_turned : map rdot rs' = map rdot rs.
Proof.
  assert (E : forall Js rs, well_shaped Js rs -> map rdot rs = map (fun a => size (fst a) (snd a) (list7 (fun _ => 0))) (combine Js rs)).
  { clear. intros Js0 rs0 H0. induction H0 as [|J r Js1 rs1 [HL HF] H1 IH]; [reflexivity|]. cbn [combine map fst snd]. rewrite IH.
    f_equal. symmetry. apply (error_zero (J, r)). auto. }
  rewrite (E Js rs HS), (E Js' rs' HS').
  assert (G : forall la lb, Forall2 alike_term la lb -> map (fun a => size (fst a) (snd a) (list7 (fun _ => 0))) lb = map (fun a => size (fst a) (snd a) (list7 (fun _ => 0))) la).
  { clear - Ug. intros la lb HF0. induction HF0 as [|a b la lb Hab HF IH]; try reflexivity.
    cbn [map]. rewrite IH. f_equal. rewrite <- Hab. f_equal. unfold list7. apply map_ext. intros i. symmetry. apply turn7_zero. }
  exact (G _ _ HA).
Qed.
Lemma quad_turned x : quad 7 (normal_matrix Js') (turn7 x) = quad 7 (normal_matrix Js) x.
Proof.
  pose proof (quad_error Js rs x HS) as E1. pose proof (quad_error Js' rs' (turn7 x) HS') as E2. cbv zeta in E1, E2.
  rewrite same_number in E2.
  assert (X1 : list7 (fun i => - turn7 x i) = list7 (turn7 (fun i => - x i))) by (unfold list7; apply map_ext; intros i; symmetry; apply turn7_opp).
  assert (X2 : list7 (fun _ => 0) = list7 (turn7 (fun _ => 0))) by (unfold list7; apply map_ext; intros i; symmetry; apply turn7_zero).
  rewrite X1 in E2. rewrite X2 in E2 at 1. rewrite !error_turned in E2. lra.
Qed.

Variable eig : nat -> (nat -> nat -> R) -> list R.
Variable llt : nat -> (nat -> nat -> R) -> (nat -> R) -> (nat -> R).
Hypothesis HL : solves_positive_definite llt.
Hypothesis HE : eigenvalues_of 7 (normal_matrix Js) (eig 7%nat (normal_matrix Js)).
Hypothesis HE' : eigenvalues_of 7 (normal_matrix Js') (eig 7%nat (normal_matrix Js')).

Lemma same_regular : (forall e, In e (eig 7%nat (normal_matrix Js)) -> / 10 <= Rabs e) <-> (forall e, In e (eig 7%nat (normal_matrix Js')) -> / 10 <= Rabs e).
Proof.
  rewrite (regular_form eig Js rs HS HE), (regular_form eig Js' rs' HS' HE'). split; intros H x.
  - destruct (turn7_onto x) as [z Hz]. rewrite <- (quad_ext7 _ (turn7 z) x Hz), quad_turned.
    rewrite (total_ext 7 _ (fun i => turn7 z i * turn7 z i)) by (intros i Hi; rewrite Hz; auto). rewrite turn7_norm. auto.
  - rewrite <- quad_turned, <- turn7_norm. auto.
Qed.
Lemma same_degenerate : is_degenerate eig 7 (normal_matrix Js') = is_degenerate eig 7 (normal_matrix Js).
Proof.
  assert (EQ : forall Js0 : list mat, is_degenerate eig 7 (normal_matrix Js0) = false <-> forall e, In e (eig 7%nat (normal_matrix Js0)) -> / 10 <= Rabs e).
  { clear. intros Js0. unfold is_degenerate. split.
    - intros H e He. apply Rnot_lt_le. intros N. assert (true = false); [|discriminate]. rewrite <- H. symmetry. apply existsb_exists. exists e. split; auto. apply lt_true. auto.
    - intros H. destruct (existsb _ _) eqn:E; auto. apply existsb_exists in E. destruct E as [e [He Hlt]]. specialize (H e He). apply Rltb_spec in Hlt. lra. }
  pose proof same_regular as SR. destruct (is_degenerate eig 7 (normal_matrix Js)) eqn:E1, (is_degenerate eig 7 (normal_matrix Js')) eqn:E2; auto.
  - pose proof (proj2 (EQ Js) (proj2 SR (proj1 (EQ Js') E2))) as N. rewrite <- E1. exact (eq_sym N).
  - pose proof (proj2 (EQ Js') (proj1 SR (proj1 (EQ Js) E1))) as N. rewrite <- E2. exact N.
Qed.

Lemma step_turned q w : unit q -> length w = length Js -> Forall (fun c => 0 < c) w ->
  exists dq dt, unit dq /\ calc_update eig llt q w Js rs = Ok (dq, dt) /\ calc_update eig llt (tq q) w Js' rs' = Ok (mq dq, tp dt).
Proof.
  intros Uq HLw Hw. assert (HLw' : length w = length Js') by (rewrite same_number; auto).
  destruct (is_degenerate eig 7 (normal_matrix Js)) eqn:ED.
  - exists qid, (V3 0 0 0). split; [unfold unit, qnorm2, qid; cbn; ring|]. rewrite tp_zero. replace (mq qid) with qid by (apply quat_ext; unfold qid; mcbn; ring).
    split; apply degenerate_update; auto. rewrite same_degenerate. auto.
  - assert (Hnd : forall e, In e (eig 7%nat (normal_matrix Js)) -> / 10 <= Rabs e).
    { intros e He. apply Rnot_lt_le. intros N. assert (true = false); [|discriminate]. rewrite <- ED. symmetry.
      unfold is_degenerate. apply existsb_exists. exists e. split; auto. apply lt_true. auto. }
    assert (Hnd' : forall e, In e (eig 7%nat (normal_matrix Js')) -> / 10 <= Rabs e) by (apply same_regular; auto).
    destruct (step_minimises eig llt HL q Uq w Js rs HS HLw Hw HE Hnd) as [x [E1 M1]].
    assert (Uq' : unit (tq q)) by (apply tq_unit; auto).
    destruct (step_minimises eig llt HL (tq q) Uq' w Js' rs' HS' HLw' Hw HE' Hnd') as [x' [E2 M2]].
    assert (T : forall y, linear_error w Js' rs' (tangent (tq q) (turn6 y)) = linear_error w Js rs (tangent q y)).
    { intros y. rewrite tangent_turn, error_turned, tangent_list7. reflexivity. }
    assert (X : forall k, (k < 6)%nat -> x' k = turn6 x k).
    { apply (minimiser_unique eig (tq q) Uq' w Js' rs' HS' HLw' Hw HE' Hnd'); auto.
      intros y. destruct (turn6_onto y) as [z Hz]. rewrite <- (tangent_ext _ _ _ Hz), !T. apply M1. }
    eexists. eexists. split; [|split; [exact E1|]]; [apply aa_unit|]. rewrite E2, !X by lia. unfold turn6. cbn [nth]. rewrite aa_mirrored. reflexivity.
Qed.
End Steps.

(** * Runs *)
Definition same_problem eig (a b : outcome (list mat * list (list R))) : Prop :=
  match a, b with
  | Ok (Js, rs), Ok (Js', rs') =>
      well_shaped Js rs /\ well_shaped Js' rs' /\ Forall2 alike_term (combine Js rs) (combine Js' rs') /\
      eigenvalues_of 7 (normal_matrix Js) (eig 7%nat (normal_matrix Js)) /\
      eigenvalues_of 7 (normal_matrix Js') (eig 7%nat (normal_matrix Js'))
  | ThrowInvalid, ThrowInvalid | ThrowRange, ThrowRange | ThrowOther, ThrowOther | AssertFail, AssertFail | UB, UB => True
  | _, _ => False
  end.
Definition turned_result (r : opt_result exact pose) : opt_result exact pose :=
  {| r_pose := tpose (r_pose r); r_message := r_message r; r_iteration := r_iteration r;
     r_error := r_error r; r_error_scale := r_error_scale r; r_success := r_success r |}.

Section Runs.
Variable eig : nat -> (nat -> nat -> R) -> list R.
Variable llt : nat -> (nat -> nat -> R) -> (nat -> R) -> (nat -> R).
Variable sel : selector exact.
Hypothesis HL : solves_positive_definite llt.
Variables make make' : pose -> outcome (list mat * list (list R)).
Variable T : pose.
Hypothesis HT : is_rotation (lin T).
Variable bound : nat.
Hypothesis HM : forall q t, reaches eig llt sel make T bound q t -> unit q -> same_problem eig (make (make_pose q t)) (make' (make_pose (tq q) (tp t))).

Notation its := (iterations exact quat vec pose mat (list R) make make_pose rdot (calc_update eig llt) qmul vadd
    check_convergence sel b_robust k_robust tiny_robust).
Notation loop P := (opt_loop exact quat vec pose mat (list R) P make_pose rdot
    (calc_update eig llt) qmul vadd check_convergence sel b_robust k_robust tiny_robust).


Lemma loop_turned n : forall iter q t pe ps l, unit q -> (length l + n <= bound)%nat -> its (fst (of_pose T)) (snd (of_pose T)) dbl_max dbl_max l q t pe ps ->
  loop make' n iter (tq q) (tp t) pe ps = (r <- loop make n iter q t pe ps ;; Ok (turned_result r)).
Proof.
  induction n as [|n IH]; intros iter q t pe ps l Uq HN HR; cbn [opt_loop].
  - cbn [bind]. unfold reached_maximum, turned_result. cbn [r_pose r_message r_iteration r_error r_error_scale r_success]. rewrite tp_pose by auto. reflexivity.
  - assert (HB : (length l < bound)%nat) by lia.
    assert (HP := HM q t (ex_intro _ l (ex_intro _ pe (ex_intro _ ps (conj HB HR)))) Uq). unfold same_problem in HP.
    destruct (make (make_pose q t)) as [[Js rs]| | | | |] eqn:EM, (make' (make_pose (tq q) (tp t))) as [[Js' rs']| | | | |];
      try contradiction; try reflexivity.
    destruct HP as (HS & HS' & HA & HE & HE'). cbn [bind].
    pose proof (errors_turned Js Js' rs rs' HS HS' HA) as EE.
    assert (LR : length rs' = length rs) by (apply (f_equal (@length R)) in EE; rewrite !map_length in EE; auto).
    destruct rs as [|r rs], rs' as [|r' rs']; try discriminate.
    { cbn [bind]. unfold empty_input, turned_result. cbn [r_pose r_message r_iteration r_error r_error_scale r_success]. rewrite tp_pose by auto. reflexivity. }
    set (r0 := r :: rs) in *. set (r0' := r' :: rs') in *.
    unfold compute_errors, normalize_error_scale. change (D exact) with R in *. rewrite EE. destruct (scale exact sel b_robust (map rdot r0)) as [sc| | | | |] eqn:ES; cbn [bind]; try reflexivity.
    change (D exact) with R in *.
    match goal with |- context [d_ltb exact pe ?e] => set (err := e) in *; change (sum_errors exact (map rdot r0)) with err end.
    destruct (d_ltb exact pe err) eqn:L1.
    { unfold larger_error, turned_result. cbn [bind r_pose r_message r_iteration r_error r_error_scale r_success]. rewrite tp_pose by auto. reflexivity. }
    destruct (d_ltb exact ps sc) eqn:L2.
    { unfold larger_scale, turned_result. cbn [bind r_pose r_message r_iteration r_error r_error_scale r_success]. rewrite tp_pose by auto. reflexivity. }
    unfold compute_weights. set (w := map (fun e => huber_derivative exact e k_robust) _).
    assert (Lw : length w = length Js).
    { unfold w. rewrite !map_length. destruct (shape_checks Js r0 HS) as [E _]. auto. }
    assert (Pw : Forall (fun c => 0 < c) w).
    { unfold w. apply Forall_forall. intros c Hc. apply in_map_iff in Hc. destruct Hc as [e [<- _]]. apply huber_pos. }
    destruct (step_turned Js Js' r0 r0' HS HS' HA eig llt HL HE HE' q w Uq Lw Pw) as (dq & dt & Ud & E1 & E2).
    change (D exact) with R in *. rewrite E1, E2. cbn [bind].
    assert (EC : check_convergence (mq dq) (tp dt) = check_convergence dq dt).
    { unfold check_convergence. rewrite tp_norm. f_equal. f_equal. unfold vnorm, vdot, qvec, mirrored_quat. cbn [qx qy qz vx vy vz]. f_equal. ring. }
    assert (EA : vadd (tp t) (tp dt) = tp (vadd t dt)) by (symmetry; apply tp_add).
    assert (EQ : qmul (tq q) (mq dq) = tq (qmul q dq)).
    { unfold tq. rewrite mq_mul. generalize (mq q) (mq dq). intros [b1 b2 b3 b4] [c1 c2 c3 c4]. destruct g as [a1 a2 a3 a4]. apply quat_ext; vcbn; ring. }
    rewrite EC, EA, EQ. assert (Uq2 : unit (qmul q dq)) by (apply unit_mul; auto).
    destruct (check_convergence dq dt) eqn:CV.
    { unfold successfully_converged, turned_result. cbn [bind r_pose r_message r_iteration r_error r_error_scale r_success]. rewrite tp_pose by auto. reflexivity. }
    destruct (its_more eig llt sel make _ _ _ _ _ _ _ _ _ Js r0 err sc dq dt HR) as [l' [Ll' Hl']]; auto.
    { unfold measured. split; auto. split; [discriminate|]. split; [reflexivity|exact ES]. }
    { unfold SpecOpt.step. rewrite <- E1. unfold w. rewrite (map_map _ _ (map rdot r0)). reflexivity. }
    apply (IH _ _ _ _ _ l'); auto. change (D exact) with R in *. lia.
Qed.
Lemma optimize_turned max_iter : bound = Z.to_nat max_iter -> of_pose (tpose T) = (tq (fst (of_pose T)), tp (snd (of_pose T))) ->
  optimize eig llt sel make' max_iter (tpose T) = (r <- optimize eig llt sel make max_iter T ;; Ok (turned_result r)).
Proof.
  intros EB E. unfold optimize, opt_run. rewrite E. destruct (of_pose T) as [q t] eqn:ET. cbn [fst snd].
  assert (Uq : unit q). { unfold of_pose in ET. injection ET as <- _. apply quat_of_ok. auto. }
  rewrite (loop_turned (Z.to_nat max_iter) 0 q t dbl_max dbl_max []); auto.
  2:{ rewrite EB. cbn [length]. lia. }
  2:{ rewrite ET. cbn [fst snd]. apply (it_none exact). }
  destruct (opt_loop exact _ _ _ _ _ make _ _ _ _ _ _ _ _ _ _ (Z.to_nat max_iter) 0%Z q t dbl_max dbl_max) as [r| | | | |]; cbn [bind]; try reflexivity.
  destruct (max_iter <? 0)%Z; reflexivity.
Qed.
End Runs.

(** * Terms of the problems *)
Lemma rate_turned q p x : rate (tq q) (mp p) (turn7 x) = tp (rate q p x).
Proof.
  unfold tq, turn7, tp. rewrite RotMapProofs.rate_turned by auto. f_equal. unfold rate. rewrite mp_add, <- dvec_mirrored. reflexivity.
Qed.
Lemma alignment_alike q p r : alike_term (beside (drpdq q p) [[1; 0; 0]; [0; 1; 0]; [0; 0; 1]], vlist r)
  (beside (drpdq (tq q) (mp p)) [[1; 0; 0]; [0; 1; 0]; [0; 0; 1]], vlist (tp r)).
Proof. intros x. cbn [fst snd]. rewrite !size_alignment, rate_turned, <- tp_add, tp_dot. reflexivity. Qed.
Lemma edge_alike q t p0 p1 p2 : unit q ->
  alike_term (edge_jacobian q p0 p1 p2, vlist (edge_residual (make_pose q t) p0 p1 p2))
    (edge_jacobian (tq q) (mp p0) (tp p1) (tp p2), vlist (edge_residual (make_pose (tq q) (tp t)) (mp p0) (tp p1) (tp p2))).
Proof.
  intros Uq x. cbn [fst snd]. rewrite !size_edge, rate_turned. unfold edge_residual. rewrite tp_transform by auto.
  rewrite <- !tp_sub, !tp_cross. set (a := vcross _ (rate _ _ _)). set (b := vcross _ _).
  replace (vadd (vscale (-1) (tp b)) (vscale (-1) (tp a))) with (vscale (-1) (tp (vadd b a))) by (rewrite tp_add; apply vec_ext; vcbn; ring).
  rewrite <- tp_scale, tp_dot. unfold vdot, vscale. cbn [vx vy vz]. ring.
Qed.
(** Exchanging the two points of the line changes the signs only. *)
Lemma edge_alike_opposite q t p0 p1 p2 : unit q ->
  alike_term (edge_jacobian q p0 p1 p2, vlist (edge_residual (make_pose q t) p0 p1 p2))
    (edge_jacobian (tq q) (mp p0) (tp p2) (tp p1), vlist (edge_residual (make_pose (tq q) (tp t)) (mp p0) (tp p2) (tp p1))).
Proof.
  intros Uq x. rewrite <- (edge_alike q t p0 p1 p2 Uq x). cbn [fst snd]. rewrite !size_edge. set (u := rate _ _ _). unfold edge_residual. set (T := make_pose _ _).
  set (y := transform T (mp p0)). set (a := tp p1). set (b := tp p2). clearbody u y a b. destruct u, y, a, b. vcbn. ring.
Qed.
Lemma surface_alike_turned q t w p : unit q ->
  alike_term (surface_jacobian w q p, [signed_distance w (transform (make_pose q t) p)])
    (surface_jacobian (tp w) (tq q) (mp p), [signed_distance (tp w) (transform (make_pose (tq q) (tp t)) (mp p))]).
Proof.
  intros Uq x. cbn [fst snd]. rewrite !size_surface, rate_turned. unfold signed_distance. rewrite tp_transform by auto. rewrite !tp_dot, tp_norm. reflexivity.
Qed.

(** * The problems *)
Lemma start_turned T : is_rotation (lin T) -> good_sign (quat_of (lin T)) ->
  of_pose (tpose T) = (tq (fst (of_pose T)), tp (snd (of_pose T))).
Proof.
  intros HR HS. unfold of_pose, tpose, turned_pose, mirrored_pose. cbn [lin tra fst snd]. f_equal. unfold good_sign in HS.
  destruct (quat_of_ok (lin T) HR) as [U E]. unfold tq in HS at 1. rewrite rotation_mul in HS by auto using mq_unit. rewrite mq_rotation, E in HS. exact HS.
Qed.

Lemma alignment_turned eig source target q t : unit q -> good_sign q ->
  right_eigenvalues eig (alignment_make (source, target) (make_pose q t)) ->
  right_eigenvalues eig (alignment_make (map mp source, map tp target) (make_pose (tq q) (tp t))) ->
  same_problem eig (alignment_make (source, target) (make_pose q t)) (alignment_make (map mp source, map tp target) (make_pose (tq q) (tp t))).
Proof.
  intros Uq HS HE HE'. unfold alignment_make, alignment_residual in *. cbn [fst snd] in *. rewrite !map_length in *.
  destruct (Nat.eqb_spec (length source) (length target)) as [L|L]; cbn [assert_ bind] in *; [|exact I].
  cbn [same_problem]. cbn [make_pose lin] in *. rewrite HS in *.
  assert (SH : forall p (f : vec * vec -> vec) src tgt, length src = length tgt ->
    well_shaped (alignment_jacobian p src) (map (fun xy => vlist (f xy)) (combine src tgt))).
  { clear. intros p f src. unfold well_shaped, alignment_jacobian. induction src as [|x src IH]; intros [|y tgt] L; try discriminate; cbn [map combine]; constructor.
    - split; [reflexivity|]. repeat constructor.
    - apply IH. cbn in L. lia. }
  split; [apply SH; auto|]. split; [apply SH; rewrite !map_length; auto|]. split; [|split; [eapply HE; reflexivity|eapply HE'; reflexivity]].
  clear HE HE' SH. unfold alignment_jacobian. revert target L. induction source as [|x source IH]; intros [|y target] L; try discriminate; cbn [map combine]; constructor.
  - cbn [fst snd]. change (Iso (to_rotation (tq q)) (tp t)) with (make_pose (tq q) (tp t)). rewrite tp_transform, <- tp_sub by auto. apply alignment_alike.
  - apply IH. cbn in L. lia.
Qed.
(** * The localizer's terms *)
Lemma tp_inj a b : tp a = tp b -> a = b.
Proof.
  intros E. assert (Z : vsub a b = origin). { apply sq_zero. rewrite <- tp_dot, tp_sub, E. unfold vsub, vdot. cbn [vx vy vz]. ring. }
  pose proof (f_equal vx Z). pose proof (f_equal vy Z). pose proof (f_equal vz Z). unfold vsub, origin in *. cbn [vx vy vz] in *. apply vec_ext; lra.
Qed.
Lemma vsum_turned X : vsum (map tp X) = tp (vsum X).
Proof. induction X as [|x X IH]; cbn [map vsum fold_right]; [symmetry; apply tp_zero|]. unfold vsum in IH. rewrite IH, tp_add. reflexivity. Qed.
Lemma mean_turned X : mean_and_covariance X = AssertFail /\ mean_and_covariance (map tp X) = AssertFail \/
  exists c C C', mean_and_covariance X = Ok (c, C) /\ mean_and_covariance (map tp X) = Ok (tp c, C') /\
    forall u, vdot (tp u) (mapply C' (tp u)) = vdot u (mapply C u).
Proof.
  destruct X as [|x X]; [left; split; reflexivity|right]. set (Y := x :: X).
  destruct (mean_cov_ok Y) as [c [C E]]; [discriminate|]. destruct (mean_cov_ok (map tp Y)) as [c' [C' E']]; [discriminate|].
  exists c, C, C'. split; auto.
  assert (EC : c' = tp c).
  { destruct (mean_cov_inv _ _ _ E) as [EM _]. destruct (mean_cov_inv _ _ _ E') as [EM' _].
    unfold mean_and_covariance, center in E, E'. rewrite map_length in E'. change (Nat.eqb (length Y) 0) with false in *. cbn [negb assert_ bind] in E, E'.
    injection E as <- _. injection E' as <- _. rewrite tp_scale. f_equal. apply (vsum_turned Y). }
  subst c'. split; auto. intros u.
  assert (NZ : INR (length Y) <> 0) by (apply not_0_INR; discriminate).
  pose proof (cov_quad Y c C E u) as Q. pose proof (cov_quad (map tp Y) (tp c) C' E' (tp u)) as Q'. rewrite map_length in Q'.
  apply (Rmult_eq_reg_l (INR (length Y))); auto. rewrite <- Q, <- Q'. unfold sum_over. rewrite map_map. f_equal. apply map_ext. intros y.
  rewrite <- tp_sub, tp_dot. reflexivity.
Qed.
Lemma principal_turned principal C C' : (forall u, vdot (tp u) (mapply C' (tp u)) = vdot u (mapply C u)) ->
  (forall u, principal_direction C u -> u = principal C \/ u = vscale (-1) (principal C)) -> principal_direction C' (principal C') ->
  principal C' = tp (principal C) \/ principal C' = vscale (-1) (tp (principal C)).
Proof.
  intros HQ H1 [H2 H3]. destruct (tp_onto (principal C')) as [u E]. rewrite <- E in *. rewrite tp_dot in H2.
  destruct (H1 u) as [-> | ->].
  - split; auto. intros v Hv. rewrite <- !HQ. apply H3. rewrite tp_dot. auto.
  - left. reflexivity.
  - right. apply tp_scale.
Qed.
Lemma independent_turned X : independent X -> independent (map tp X).
Proof.
  intros HI w Hw. destruct (tp_onto w) as [u <-]. rewrite (HI u); [apply tp_zero|]. intros x Hx. rewrite <- tp_dot. apply Hw. apply in_map. auto.
Qed.
Lemma misfit_turned X k w : misfit (map tp X) k (tp w) = misfit X k w.
Proof.
  unfold misfit. revert k. induction X as [|x X IH]; intros [|a k]; cbn [map combine fold_right fst snd]; auto. rewrite IH, tp_dot. reflexivity.
Qed.
Lemma plane_turned qr X : (forall X, solves_least_squares qr X (repeat (-1) (length X))) -> independent X ->
  estimate_plane qr (map tp X) = tp (estimate_plane qr X).
Proof.
  intros HQ HI. unfold estimate_plane. destruct (tp_onto (qr (map tp X) (repeat (-1) (length (map tp X))))) as [u E]. rewrite <- E. f_equal.
  pose proof (HQ X HI) as M. pose proof (HQ (map tp X) (independent_turned X HI)) as M'. rewrite map_length in *. rewrite <- E in M'.
  assert (M2 : forall w, misfit X (repeat (-1) (length X)) u <= misfit X (repeat (-1) (length X)) w).
  { intros w. rewrite <- (misfit_turned X _ u), <- (misfit_turned X _ w). apply M'. }
  exact (least_unique X HI _ _ M2 M).
Qed.
(** Related terms, of the right shape. *)
Definition turned_terms (a b : mat * list R) : Prop := shaped a /\ shaped b /\ alike_term a b.

Section Localizer.
Variable find : list vec -> vec -> nat -> list nat.
Hypothesis HF : (forall m q n, find (map tp m) (tp q) n = find m q n).
Variable principal : mat3 -> vec.
Variable qr : list vec -> list R -> vec.
Hypothesis HQ : forall X, solves_least_squares qr X (repeat (-1) (length X)).

(** Neighbourhoods with one principal direction; the one of the mirrored and turned
    neighbourhood is computed rightly. *)
Definition elongated_tp (m : list vec) (n : nat) : Prop :=
  forall q X, nearest_k_search vec find m q n = Ok X ->
    (forall c C, mean_and_covariance X = Ok (c, C) ->
       principal_direction C (principal C) /\
       forall u, principal_direction C u -> u = principal C \/ u = vscale (-1) (principal C)) /\
    (forall c C, mean_and_covariance (map tp X) = Ok (c, C) -> principal_direction C (principal C)).
Lemma search_turned m q n : nearest_k_search vec find (map tp m) (tp q) n = omap (map tp) (nearest_k_search vec find m q n).
Proof.
  unfold nearest_k_search. destruct n as [|n]; [reflexivity|]. rewrite HF. unfold get_rows. rewrite <- mapM_omap. apply mapM_ext.
  intros i _. rewrite nth_error_map. destruct (nth_error m i); reflexivity.
Qed.
(** The same pose, by the quaternion that the conversion gives. *)
Lemma by_conversion q t : unit q -> good_sign q -> exists p, unit p /\ quat_of (to_rotation q) = p /\ quat_of (to_rotation (tq q)) = tq p /\
  make_pose q t = make_pose p t /\ make_pose (tq q) (tp t) = make_pose (tq p) (tp t).
Proof.
  intros Uq HS. exists (quat_of (to_rotation q)). assert (U : unit (quat_of (to_rotation q))) by (apply quat_of_ok; apply to_rotation_is_rotation; auto).
  split; auto. split; auto. split; auto. unfold make_pose, tq. rewrite !rotation_mul by auto using mq_unit. rewrite !mq_rotation, !back by auto. auto.
Qed.
Lemma edge_term_turned m n q t p : elongated_tp m n -> unit q -> good_sign q ->
  same turned_terms (edge_term principal find m n (make_pose q t) p) (edge_term principal find (map tp m) n (make_pose (tq q) (tp t)) (mp p)).
Proof.
  intros HE Uq HS. unfold edge_term, edge_fit. rewrite tp_transform, search_turned by auto.
  specialize (HE (transform (make_pose q t) p)).
  destruct (nearest_k_search vec find m (transform (make_pose q t) p) n) as [X| | | | |]; cbn [omap bind same]; auto.
  destruct (HE X eq_refl) as [H1 H2].
  destruct (mean_turned X) as [[-> ->]|(c & C & C' & E1 & E2 & HC)]; cbn [bind same]; auto. rewrite E1, E2. cbn [bind same fst snd].
  destruct (H1 c C E1) as [_ H4]. specialize (H2 (tp c) C' E2).
  destruct (by_conversion q t Uq HS) as (p' & Up & Q1 & Q2 & M1 & M2).
  cbn [make_pose lin]. rewrite Q1, Q2. change (Iso (to_rotation q) t) with (make_pose q t). change (Iso (to_rotation (tq q)) (tp t)) with (make_pose (tq q) (tp t)).
  rewrite M1, M2. assert (SH : forall q a b c r, shaped (edge_jacobian q a b c, vlist r)) by (intros; split; [reflexivity|repeat constructor]).
  split; [apply SH|]. split; [apply SH|].
  destruct (principal_turned principal C C' HC H4 H2) as [-> | ->].
  - rewrite <- tp_sub, <- tp_add. apply edge_alike. auto.
  - replace (vsub (tp c) (vscale (-1) (tp (principal C)))) with (tp (vadd c (principal C))) by (rewrite tp_add; apply vec_ext; vcbn; ring).
    replace (vadd (tp c) (vscale (-1) (tp (principal C)))) with (tp (vsub c (principal C))) by (rewrite tp_sub; apply vec_ext; vcbn; ring).
    apply edge_alike_opposite. auto.
Qed.
Lemma surface_term_turned m n q t p : determined find m n -> unit q -> good_sign q ->
  same turned_terms (surface_term qr find m n (make_pose q t) p) (surface_term qr find (map tp m) n (make_pose (tq q) (tp t)) (mp p)).
Proof.
  intros HE Uq HS. unfold surface_term, plane_fit. rewrite tp_transform, search_turned by auto.
  specialize (HE (transform (make_pose q t) p)).
  destruct (nearest_k_search vec find m (transform (make_pose q t) p) n) as [X| | | | |]; cbn [omap bind same]; auto.
  rewrite plane_turned by auto. destruct (by_conversion q t Uq HS) as (p' & Up & Q1 & Q2 & M1 & M2).
  cbn [make_pose lin]. rewrite Q1, Q2. change (Iso (to_rotation q) t) with (make_pose q t).
  rewrite <- tp_transform by auto. rewrite M1, M2. split; [split; [reflexivity|repeat constructor]|]. split; [split; [reflexivity|repeat constructor]|].
  apply surface_alike_turned. auto.
Qed.
Lemma loam_turned eig downsample edge_map surface_map n scan q t :
  downsample (map mp (snd scan)) = map mp (downsample (snd scan)) ->
  (fst scan = [] \/ elongated_tp edge_map n) -> (downsample (snd scan) = [] \/ determined find surface_map n) ->
  unit q -> good_sign q ->
  right_eigenvalues eig (loam_problem principal qr find downsample edge_map surface_map n scan (make_pose q t)) ->
  right_eigenvalues eig (loam_problem principal qr find downsample (map tp edge_map) (map tp surface_map) n (map mp (fst scan), map mp (snd scan)) (make_pose (tq q) (tp t))) ->
  same_problem eig (loam_problem principal qr find downsample edge_map surface_map n scan (make_pose q t))
    (loam_problem principal qr find downsample (map tp edge_map) (map tp surface_map) n (map mp (fst scan), map mp (snd scan)) (make_pose (tq q) (tp t))).
Proof.
  intros HD H1 H2 Uq HS. unfold loam_problem. cbn [fst snd]. rewrite HD, !mapM_map.
  assert (A1 : same (Forall2 turned_terms) (mapM (edge_term principal find edge_map n (make_pose q t)) (fst scan))
    (mapM (fun p => edge_term principal find (map tp edge_map) n (make_pose (tq q) (tp t)) (mp p)) (fst scan))).
  { destruct H1 as [-> |H1]; [constructor|]. apply same_mapM. intros x _. apply edge_term_turned; auto. }
  assert (A2 : same (Forall2 turned_terms) (mapM (surface_term qr find surface_map n (make_pose q t)) (downsample (snd scan)))
    (mapM (fun p => surface_term qr find (map tp surface_map) n (make_pose (tq q) (tp t)) (mp p)) (downsample (snd scan)))).
  { destruct H2 as [-> |H2]; [constructor|]. apply same_mapM. intros x _. apply surface_term_turned; auto. }
  destruct (mapM (edge_term principal find edge_map n (make_pose q t)) (fst scan)) as [es| | | | |]; cbn [same] in A1;
    [|rewrite A1; intros _ _; exact I..].
  destruct (mapM (fun p => edge_term principal find (map tp edge_map) n (make_pose (tq q) (tp t)) (mp p)) (fst scan)) as [es'| | | | |]; try contradiction. cbn [bind].
  destruct (mapM (surface_term qr find surface_map n (make_pose q t)) (downsample (snd scan))) as [ss| | | | |]; cbn [same] in A2;
    [|rewrite A2; intros _ _; exact I..].
  destruct (mapM (fun p => surface_term qr find (map tp surface_map) n (make_pose (tq q) (tp t)) (mp p)) (downsample (snd scan))) as [ss'| | | | |]; try contradiction. cbn [bind].
  pose proof (Forall2_app A1 A2) as A. rewrite <- !map_app. set (l := es ++ ss) in *. set (l' := es' ++ ss') in *. clearbody l l'.
  intros HE HE'. cbn [same_problem]. rewrite !combine_parts.
  assert (W : well_shaped (map fst l) (map snd l) /\ well_shaped (map fst l') (map snd l') /\ Forall2 alike_term l l').
  { clear - A. unfold well_shaped. induction A as [|a b l l' [S1 [S2 S3]] A [I1 [I2 I3]]]; [split; [|split]; constructor|]. cbn [map]. split; [|split]; constructor; auto. }
  destruct W as [W1 [W2 W3]]. split; auto. split; auto. split; auto. split; [eapply HE; reflexivity|eapply HE'; reflexivity].
Qed.
End Localizer.
End Mirror.
