(** Properties C39-C41, C47, C50 and C53: the optimiser. *)
From Coq Require Import List ZArith Bool Lia Lra Reals.
From Flocq Require Import IEEE754.BinarySingleNaN.
From Verif Require Import Base Arith LibModel SpecLib LibProofs LocModel PoseModel OptModel SpecPose SpecOpt AngleProofs RotProofs OptProofs WitnessProofs.
Import ListNotations.
Open Scope R_scope.

(** ** C39: every run that returns.  There is a sequence of accepted iterations from the
    initial pose, one for each performed iteration but the last, and the result says how
    it ended.  Any arithmetic (IEEE included), any problem, any update oracle. *)
Section Verdict.
Variable A : arith.
Variable Quat Vec Pose Jac Res : Type.
Variable make : Pose -> outcome (list Jac * list Res).
Variable of_pose : Pose -> Quat * Vec.
Variable make_pose : Quat -> Vec -> Pose.
Variable dot : Res -> D A.
Variable calc_update : Quat -> list (D A) -> list Jac -> list Res -> outcome (Quat * Vec).
Variable qmul : Quat -> Quat -> Quat.
Variable vadd : Vec -> Vec -> Vec.
Variable converged : Quat -> Vec -> bool.
Variable sel : selector A.
Variable b_scale k_huber tiny dmax : D A.
Notation run := (opt_run A Quat Vec Pose Jac Res make of_pose make_pose dot calc_update qmul vadd converged sel b_scale k_huber tiny dmax).
Notation measured := (measured A Quat Vec Pose Jac Res make make_pose dot sel b_scale).
Notation step := (step A Quat Vec Jac Res dot calc_update k_huber tiny).
Notation iterations := (iterations A Quat Vec Pose Jac Res make make_pose dot calc_update qmul vadd converged sel b_scale k_huber tiny).

Theorem C39_verdict max_iter p r : (0 <= max_iter)%Z -> run max_iter p = Ok r ->
  exists l q t e s,
    iterations (fst (of_pose p)) (snd (of_pose p)) dmax dmax l q t e s /\
    never_increases (d_ltb A) (dmax :: map fst l) /\
    r_iteration r = Z.of_nat (length l) /\ (r_iteration r <= max_iter)%Z /\
    (r_success r = false <-> r_message r = EmptyInput \/ r_message r = ReachedMaximumIteration) /\
    match r_message r with
    | EmptyInput => (r_iteration r < max_iter)%Z /\ r_pose r = make_pose q t /\
        r_error r = d_of_Z A 0 /\ r_error_scale r = d_of_Z A 0 /\ exists J, make (make_pose q t) = Ok (J, [])
    | LargerErrorThanPrevious => (r_iteration r < max_iter)%Z /\ r_pose r = make_pose q t /\
        d_ltb A e (r_error r) = true /\ exists J res, measured q t J res (r_error r) (r_error_scale r)
    | LargerScaleThanPrevious => (r_iteration r < max_iter)%Z /\ r_pose r = make_pose q t /\
        d_ltb A e (r_error r) = false /\ d_ltb A s (r_error_scale r) = true /\
        exists J res, measured q t J res (r_error r) (r_error_scale r)
    | SuccessfullyConverged => (r_iteration r < max_iter)%Z /\
        d_ltb A e (r_error r) = false /\ d_ltb A s (r_error_scale r) = false /\
        exists J res dq dt, measured q t J res (r_error r) (r_error_scale r) /\
          step q J res (r_error_scale r) dq dt /\ converged dq dt = true /\
          r_pose r = make_pose (qmul q dq) (vadd t dt)
    | ReachedMaximumIteration => r_iteration r = max_iter /\ r_pose r = make_pose q t /\
        r_error r = e /\ r_error_scale r = s
    end.
Proof.
  intros Hm H.
  destruct (run_trace A Quat Vec Pose Jac Res make of_pose make_pose dot calc_update qmul vadd converged sel b_scale k_huber tiny dmax max_iter p r Hm H)
    as [l [q [t [e [s [I [V1 V2]]]]]]].
  exists l, q, t, e, s. split; auto. split; [apply (proj1 (iterations_decrease _ _ _ _ _ _ _ _ _ _ _ _ _ _ _ _ _ _ _ _ _ _ _ _ _ _ I))|].
  split; [lia|].
  destruct (r_message r); cbn in V2.
  - destruct V2 as [V2 [V3 [V4 [V5 [V6 V7]]]]]. split; [lia|]. split; [tauto|]. split; [lia|auto].
  - destruct V2 as [V2 [V3 [V4 [V5 V7]]]]. split; [lia|]. split; [rewrite V4; split; [discriminate|intros [?|?]; discriminate]|]. split; [lia|auto].
  - destruct V2 as [V2 [V3 [V4 [V5 V7]]]]. split; [lia|]. split; [rewrite V4; split; [discriminate|intros [?|?]; discriminate]|]. split; [lia|auto].
  - destruct V2 as [V2 [V4 [V5 [V6 V7]]]]. split; [lia|]. split; [rewrite V4; split; [discriminate|intros [?|?]; discriminate]|]. split; [lia|auto].
  - destruct V2 as [V2 [V3 [V4 [V5 V7]]]]. split; [lia|]. split; [tauto|]. split; [lia|auto].
Qed.

(** A run returns whenever the problem, the scale and the update do. *)
Theorem C39_defined max_iter p :
  (forall p, exists J r, make p = Ok (J, r)) ->
  (forall v, v <> [] -> exists x, scale A sel b_scale v = Ok x) ->
  (forall q t J r w, make (make_pose q t) = Ok (J, r) -> length w = length r -> exists dq dt, calc_update q w J r = Ok (dq, dt)) ->
  exists r, run max_iter p = Ok r.
Proof.
  intros H1 H2 H3. unfold opt_run. destruct (of_pose p) as [q t].
  destruct (loop_defined A Quat Vec Pose Jac Res make make_pose dot calc_update qmul vadd converged sel b_scale k_huber tiny
    (Z.to_nat max_iter) 0%Z q t dmax dmax H1 H2 H3) as [r E]. rewrite E. cbn [bind]. eauto.
Qed.
End Verdict.
Print Assumptions C39_verdict.
Print Assumptions C39_defined.

(** A problem with identity Jacobian whose residual doubles once the pose has moved. *)
Definition overshoot (T : pose) : outcome (list mat * list (list R)) :=
  Ok ([eye7], [along (if Req_EM_T (vx (tra T)) 0 then 1 else 2)]).
Definition origin : pose := Iso id3 (V3 0 0 0).

Lemma origin_rotation : is_rotation (lin origin).
Proof. split; [apply mat3_ext; unfold origin; vcbn; ring|unfold origin; vcbn; ring]. Qed.

Section Witness.
Variable eigenvalues : nat -> (nat -> nat -> R) -> list R.
Variable llt_solve : nat -> (nat -> nat -> R) -> (nat -> R) -> (nat -> R).
Variable sel : selector exact.
Hypothesis HE : correct_eigenvalues eigenvalues.
Hypothesis HS : correct_solver llt_solve.
Hypothesis HN : valid_nth exact sel.

Lemma first_step left q e0 s0 iter : unit q -> 1 <= e0 -> 0 <= s0 ->
  opt_loop exact quat vec pose mat (list R) overshoot make_pose rdot (calc_update eigenvalues llt_solve) qmul vadd check_convergence sel
    b_robust k_robust tiny_robust (S left) iter q (V3 0 0 0) e0 s0 =
  opt_loop exact quat vec pose mat (list R) overshoot make_pose rdot (calc_update eigenvalues llt_solve) qmul vadd check_convergence sel
    b_robust k_robust tiny_robust left (iter + 1) q (V3 (-1) 0 0) 1 0.
Proof.
  intros U He Hs. cbn [opt_loop]. unfold overshoot at 1. cbn [make_pose tra vx]. destruct (Req_EM_T 0 0) as [_|N]; [|congruence].
  cbn [bind]. unfold normalize_error_scale. cbn [compute_errors map]. rewrite scale1 by exact HN. cbn [bind].
  assert (E1 : rdot (along 1) = 1) by (unfold rdot, along; cbn [map fold_right]; ring). rewrite E1.
  assert (ES : forall x, sum_errors exact (@cons (D exact) x nil) = x) by (intros x; apply Rplus_0_l). rewrite ES.
  change (d_ltb exact e0 1) with (Rltb e0 1). rewrite (lt_false e0 1) by lra.
  change (d_ltb exact s0 0) with (Rltb s0 0). rewrite (lt_false s0 0) by lra.
  cbn [compute_weights map]. rewrite (eye_step _ _ HE HS q _ 1 U) by apply huber_pos. cbn [bind].
  assert (EC : check_convergence qid (V3 (- (1)) 0 0) = false).
  { unfold check_convergence. apply andb_false_intro2. apply lt_false. unfold vnorm, vdot. cbn [vx vy vz].
    replace (- (1) * - (1) + 0 * 0 + 0 * 0) with (1 * 1) by ring. rewrite sqrt_square by lra. lra. }
  rewrite EC, qmul_id. f_equal. apply vec_ext; vcbn; ring.
Qed.

(** ** C40 is refuted: for every correct eigenvalue solver, linear solver and
    nth_element, and every max_iter of at least two. *)
Theorem C40_error_increases_refuted max_iter : (2 <= max_iter)%Z ->
  exists r J0 res0 J1 res1, optimize eigenvalues llt_solve sel overshoot max_iter origin = Ok r /\ r_success r = true /\
    overshoot origin = Ok (J0, res0) /\ overshoot (r_pose r) = Ok (J1, res1) /\
    total_error res0 = 1 /\ total_error res1 = 4.
Proof.
  intros Hm. unfold optimize, opt_run. destruct (of_pose origin) as [q t] eqn:EP.
  assert (U : unit q) by (injection EP as <- _; apply (quat_of_ok _ origin_rotation)).
  assert (Et : t = V3 0 0 0) by (injection EP as _ <-; reflexivity). subst t.
  replace (Z.to_nat max_iter) with (S (S (Z.to_nat (max_iter - 2)))) by lia.
  pose proof dbl_max_big as B. rewrite first_step by (auto; lra).
  replace (max_iter <? 0)%Z with false by (symmetry; apply Z.ltb_ge; lia).
  cbn [opt_loop]. unfold overshoot at 1. cbn [make_pose tra vx]. destruct (Req_EM_T (-1) 0) as [N|_]; [lra|].
  cbn [bind]. unfold normalize_error_scale. cbn [compute_errors map]. rewrite scale1 by exact HN. cbn [bind].
  assert (E1 : rdot (along 2) = 4) by (unfold rdot, along; cbn [map fold_right]; ring). rewrite E1.
  assert (ES : forall x, sum_errors exact (@cons (D exact) x nil) = x) by (intros x; apply Rplus_0_l). rewrite ES.
  change (d_ltb exact 1 4) with (Rltb 1 4). rewrite (lt_true 1 4) by lra. cbn [bind].
  exists (larger_error exact pose (make_pose q (V3 (-1) 0 0)) (0 + 1) 4 0).
  exists [eye7], [along 1], [eye7], [along 2]. split; [reflexivity|]. split; [reflexivity|].
  unfold overshoot, larger_error. cbn [r_pose make_pose tra vx origin].
  destruct (Req_EM_T 0 0) as [_|N]; [|congruence]. destruct (Req_EM_T (-1) 0) as [N|_]; [lra|].
  split; auto. split; auto. unfold total_error, along. cbn [map fold_right]. split; ring.
Qed.

(** ** C53 is refuted: an update that returns false moves the pose. *)
Theorem C53_failed_update_moves_refuted :
  exists after, update_pose eigenvalues llt_solve sel overshoot 1 origin = Ok (after, false) /\
    tra after = V3 (-1) 0 0 /\ tra origin = V3 0 0 0.
Proof.
  unfold update_pose, localizer_update, opt_run. destruct (of_pose origin) as [q t] eqn:EP.
  assert (U : unit q) by (injection EP as <- _; apply (quat_of_ok _ origin_rotation)).
  assert (Et : t = V3 0 0 0) by (injection EP as _ <-; reflexivity). subst t.
  change (Z.to_nat 1) with 1%nat. pose proof dbl_max_big as B. rewrite first_step by (auto; lra).
  cbn [opt_loop bind]. change (1 <? 0)%Z with false. cbn [bind]. eexists. split; [reflexivity|]. auto.
Qed.
End Witness.
Print Assumptions C40_error_increases_refuted.
Print Assumptions C53_failed_update_moves_refuted.

(** What holds instead for C40: the error reported at the last accepted iteration has
    never increased, see C39.  For C53: an update that fails because the problem is empty
    at the start does not move the pose. *)
Theorem C53_empty_problem_partial eig llt sel problem max_iter before J : (1 <= max_iter)%Z -> is_rotation (lin before) ->
  problem before = Ok (J, []) -> update_pose eig llt sel problem max_iter before = Ok (before, false).
Proof.
  intros Hm HR HP. unfold update_pose, localizer_update, opt_run.
  pose proof (make_of_pose before HR) as MP. destruct (of_pose before) as [q t]. cbn [fst snd] in MP.
  replace (Z.to_nat max_iter) with (S (Z.to_nat (max_iter - 1))) by lia. cbn [opt_loop]. rewrite MP, HP. cbn [bind].
  replace (max_iter <? 0)%Z with false by (symmetry; apply Z.ltb_ge; lia). reflexivity.
Qed.
Print Assumptions C53_empty_problem_partial.

(** ** C41 is refuted for every degenerate problem: whenever the eigenvalue solver reports
    an eigenvalue below 0.1 for the normal matrix at the initial pose, the run succeeds
    and returns the initial pose. *)
Theorem C41_degenerate_succeeds_refuted eig llt sel problem max_iter initial J res :
  valid_nth exact sel -> is_rotation (lin initial) -> (1 <= max_iter)%Z ->
  problem initial = Ok (J, res) -> res <> [] -> well_shaped J res ->
  (exists e, In e (eig 7%nat (normal_matrix J)) /\ Rabs e < / 10) ->
  exists r, optimize eig llt sel problem max_iter initial = Ok r /\
    r_success r = true /\ r_iteration r = 0%Z /\ r_pose r = initial.
Proof.
  intros HN HR Hm HP Hne HW HD. unfold optimize, opt_run.
  pose proof (make_of_pose initial HR) as MP. destruct (of_pose initial) as [q t]. cbn [fst snd] in MP.
  replace (Z.to_nat max_iter) with (S (Z.to_nat (max_iter - 1))) by lia.
  replace (max_iter <? 0)%Z with false by (symmetry; apply Z.ltb_ge; lia).
  cbn [opt_loop]. rewrite MP, HP. cbn [bind]. destruct res as [|x res]; [congruence|].
  unfold normalize_error_scale. rewrite (scale_defined sel (compute_errors exact (list R) rdot (x :: res)) HN) by discriminate. cbn [bind].
  destruct (d_ltb exact dbl_max _); [eexists; cbn [bind]; split; [reflexivity|]; auto|].
  destruct (d_ltb exact dbl_max _); [eexists; cbn [bind]; split; [reflexivity|]; auto|].
  rewrite (degenerate_step eig llt q _ J (x :: res) HW); auto.
  2: { unfold compute_weights, compute_errors. rewrite !map_length. reflexivity. }
  cbn [bind]. rewrite converged_zero, qmul_id, vadd_zero, MP. eexists. cbn [bind]. split; [reflexivity|]. auto.
Qed.
Print Assumptions C41_degenerate_succeeds_refuted.
(** One residual with a zero Jacobian is degenerate for a solver returning the diagonal. *)
Definition diag_eig (n : nat) (A : nat -> nat -> R) : list R := map (fun i => A i i) (seq 0 n).
Example ex_C41 : well_shaped [[[0;0;0;0;0;0;0]]] [[5]] /\
  exists e, In e (diag_eig 7 (normal_matrix [[[0;0;0;0;0;0;0]]])) /\ Rabs e < / 10.
Proof.
  split; [repeat constructor|]. exists 0. split; [|rewrite Rabs_R0; lra]. left. unfold normal_matrix. cbn [map fold_right nth]. ring.
Qed.

(** Such solvers exist, so C40 and C53 are not vacuous. *)
Example ex_C40 : correct_eigenvalues diag_eig /\ correct_solver (fun n A b i => b i / A i i) /\ valid_nth exact sel_sort.
Proof.
  split; [|split; [|exact sel_sort_valid]].
  - intros n A _ e He. apply in_map_iff in He. destruct He as [i [<- Hi]]. apply in_seq in Hi. exists i. split; [lia|auto].
  - intros n A b [_ H] i Hi. specialize (H i Hi). field. lra.
Qed.

(** A run that returns, with one accepted iteration, so C39 is not vacuous either. *)
Example ex_C39 : exists r, optimize diag_eig (fun n A b i => b i / A i i) sel_sort overshoot 5 origin = Ok r /\ r_success r = true.
Proof.
  destruct ex_C40 as [H1 [H2 H3]].
  destruct (C40_error_increases_refuted _ _ _ H1 H2 H3 5 ltac:(lia)) as [r [J0 [r0 [J1 [r1 [E [S _]]]]]]]. eauto.
Qed.

(** ** C47 *)
Theorem C47_increment_unit theta : unit (angle_axis_to_quaternion theta).
Proof. exact (aa_unit theta). Qed.
(** Above the threshold of 1e-8 the increment is the rotation by |theta| about theta: its
    axis part is parallel to theta and its angle is |theta|. *)
Theorem C47_increment_angle theta : / 100000000 <= vnorm theta ->
  qw (angle_axis_to_quaternion theta) = cos (vnorm theta / 2) /\
  qvec (angle_axis_to_quaternion theta) = vscale (sin (vnorm theta / 2) / vnorm theta) theta.
Proof.
  intros H. unfold angle_axis_to_quaternion. rewrite lt_false by auto. split; [reflexivity|].
  destruct theta as [a b c]. set (k := vnorm _) in *. apply vec_ext; unfold vscale, qvec; cbn [qw qx qy qz vx vy vz]; field; lra.
Qed.
Theorem C47_pose_stays_rotation eig llt sel problem max_iter initial r :
  is_rotation (lin initial) -> optimize eig llt sel problem max_iter initial = Ok r ->
  is_rotation (lin (r_pose r)) /\ exists q t, unit q /\ r_pose r = make_pose q t.
Proof.
  intros HR H. unfold optimize in H.
  destruct (run_inv exact quat vec pose mat (list R) problem of_pose make_pose rdot (calc_update eig llt) qmul vadd check_convergence sel
    b_robust k_robust tiny_robust dbl_max unit max_iter initial r) as [q [t [E U]]]; auto.
  - intros q w J res dq dt U HU. apply unit_mul; auto. unfold calc_update in HU.
    destruct (weighted_update eig llt (make_m q) w J res) as [dx| | | | |]; try discriminate. cbn [bind] in HU.
    injection HU as <- _. apply aa_unit.
  - apply (quat_of_ok _ HR).
  - split; [|eauto]. rewrite E. cbn [make_pose lin]. apply to_rotation_is_rotation. auto.
Qed.
Print Assumptions C47_increment_unit.
Print Assumptions C47_increment_angle.
Print Assumptions C47_pose_stays_rotation.
Example ex_C47 : is_rotation (lin origin) /\ / 100000000 <= vnorm (V3 3 0 4).
Proof.
  split; [exact origin_rotation|]. unfold vnorm, vdot. cbn [vx vy vz]. replace (3 * 3 + 0 * 0 + 4 * 4) with (5 * 5) by ring.
  rewrite sqrt_square; lra.
Qed.

(** ** C50 *)
Section Search.
Variable Row : Type.
Variable find : list Row -> Row -> nat -> list nat.
Hypothesis HF : finds_neighbors find.

Lemma get_rows_ok (m : list Row) idx : (forall i, In i idx -> (i < length m)%nat) ->
  exists rows, get_rows Row m idx = Ok rows /\ Forall2 (fun i r => nth_error m i = Some r) idx rows.
Proof.
  induction idx as [|i idx IH]; intros H; [exists []; split; [reflexivity|constructor]|].
  destruct IH as [rows [E1 E2]]; [intros; apply H; right; auto|]. unfold get_rows in *. cbn [mapM].
  destruct (nth_error m i) as [r|] eqn:E; [|apply nth_error_None in E; specialize (H i (or_introl eq_refl)); lia].
  cbn [bind]. rewrite E1. cbn [bind]. exists (r :: rows). split; auto.
Qed.

(** Maps with at least n points: n different points of the map. *)
Theorem C50_distinct_partial m query n : (1 <= n <= length m)%nat ->
  exists idx rows, nearest_k_search Row find m query n = Ok rows /\ length idx = n /\ NoDup idx /\
    Forall2 (fun i r => nth_error m i = Some r) idx rows.
Proof.
  intros Hn. destruct (HF m query n) as [H1 [H2 H3]].
  assert (EI : firstn n (find m query n ++ repeat 0%nat (n - length (find m query n))) = find m query n).
  { rewrite H3. replace (n - Nat.min n (length m))%nat with 0%nat by lia. cbn [repeat]. rewrite app_nil_r. apply firstn_all2. lia. }
  destruct (get_rows_ok m (find m query n) H2) as [rows [E1 E2]].
  exists (find m query n), rows. unfold nearest_k_search. destruct n; [lia|]. rewrite EI, E1. split; auto. split; [lia|auto].
Qed.
(** Smaller non-empty maps: the search succeeds, and the same map point is returned more
    than once, always. *)
Theorem C50_duplicates_refuted m query n : (1 <= length m < n)%nat ->
  exists idx rows, nearest_k_search Row find m query n = Ok rows /\ length idx = n /\
    Forall2 (fun i r => nth_error m i = Some r) idx rows /\ ~ NoDup idx.
Proof.
  intros Hn. destruct (HF m query n) as [H1 [H2 H3]].
  set (idx := find m query n ++ repeat 0%nat (n - length (find m query n))).
  assert (EI : firstn n idx = idx).
  { apply firstn_all2. unfold idx. rewrite app_length, repeat_length. lia. }
  assert (HI : forall i, In i idx -> (i < length m)%nat).
  { intros i Hi. unfold idx in Hi. apply in_app_or in Hi. destruct Hi as [Hi|Hi]; auto. apply repeat_spec in Hi. lia. }
  assert (HL : length idx = n) by (unfold idx; rewrite app_length, repeat_length; lia).
  destruct (get_rows_ok m idx HI) as [rows [E1 E2]].
  exists idx, rows. unfold nearest_k_search. destruct n as [|n]; [lia|]. fold idx. rewrite EI, E1. split; auto. split; auto. split; auto.
  intros ND. assert (L : (length idx <= length (seq 0 (length m)))%nat).
  { apply NoDup_incl_length; auto. intros i Hi. apply in_seq. specialize (HI i Hi). lia. }
  rewrite seq_length in L. lia.
Qed.
(** The empty map is not searched safely. *)
Theorem C50_empty_map_refuted query n : (1 <= n)%nat -> nearest_k_search Row find [] query n = AssertFail.
Proof.
  intros Hn. destruct (HF [] query n) as [H1 [H2 H3]]. rewrite Nat.min_0_r in H3.
  destruct (find [] query n) eqn:E; [|discriminate]. unfold nearest_k_search. destruct n; [lia|]. rewrite E. reflexivity.
Qed.
End Search.
Print Assumptions C50_distinct_partial.
Print Assumptions C50_duplicates_refuted.
Print Assumptions C50_empty_map_refuted.
(** A search that satisfies the specification, on a map of two points. *)
Definition first_neighbors {Row : Type} (m : list Row) (q : Row) (n : nat) : list nat := seq 0 (Nat.min n (length m)).
Example ex_C50 : finds_neighbors (@first_neighbors nat) /\
  nearest_k_search nat first_neighbors [7; 8]%nat 0%nat 2 = Ok [7; 8]%nat /\
  nearest_k_search nat first_neighbors [7; 8]%nat 0%nat 4 = Ok [7; 8; 7; 7]%nat.
Proof.
  split; [|split; reflexivity]. intros m q n. unfold first_neighbors. split; [apply seq_NoDup|]. split; [|apply seq_length].
  intros i Hi. apply in_seq in Hi. lia.
Qed.
