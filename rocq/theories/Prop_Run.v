(** C87 for whole runs: the optimiser performs iteratively reweighted least squares with
    Huber's weights. *)
From Coq Require Import List ZArith Bool Reals Lra Lia Permutation Sorted.
From Verif Require Import Base Arith LibModel LibProofs LocModel PoseModel OptModel SpecPose SpecLib SpecOpt SpecStep SpecRun RotProofs
  WitnessProofs StepProofs SolverProofs Prop_Lib Prop_Step Prop_Chart.
From Verif Require Prop_Optimizer.
Import ListNotations.
Open Scope R_scope.

Lemma med_is_median v : v <> [] -> is_median v (med v).
Proof.
  intros Hv. exists (rsort v). split; [apply rsort_perm|]. split; [apply rsort_sorted|].
  unfold med. destruct (Nat.odd (length v)) eqn:O.
  - left. exists (length v / 2)%nat. split; [|reflexivity]. apply Nat.odd_spec in O. destruct O as [k Hk]. rewrite Hk.
    replace (2 * k + 1)%nat with (1 + k * 2)%nat at 2 by lia. rewrite Nat.div_add by lia. cbn. lia.
  - right. assert (E : Nat.even (length v) = true) by (rewrite <- Nat.negb_odd, O; reflexivity). apply Nat.even_spec in E. destruct E as [k Hk].
    assert (1 <= k)%nat by (destruct v; [congruence|cbn in Hk; lia]).
    exists (k - 1)%nat. rewrite Hk. rewrite Nat.mul_comm, Nat.div_mul by lia. split; [lia|]. replace (k - 1 + 1)%nat with k by lia. reflexivity.
Qed.
Lemma squared_rdot r : rdot r = squared r.
Proof. reflexivity. Qed.
Lemma weight_huber (e : R) : huber_derivative exact e k_robust = huber_weight e.
Proof.
  unfold huber_derivative, huber_weight, k_robust. cbn [exact d_ltb d_mul d_div d_sqrt d_of_Z].
  assert (E : 1345 / 1000 = 1.345) by lra. rewrite E.
  destruct (Rlt_dec e (1.345 * 1.345)) as [L|L].
  - change (Rltb e (1.345 * 1.345)) with (Rltb e (1.345 * 1.345)). rewrite lt_true by exact L. reflexivity.
  - rewrite lt_false by lra. reflexivity.
Qed.
Lemma weights_huber sel rs sc : valid_nth exact sel -> rs <> [] -> scale exact sel b_robust (map rdot rs) = Ok sc ->
  huber_weights rs (map (fun e => huber_derivative exact (d_div exact e (d_add exact sc tiny_robust)) k_robust) (map rdot rs)).
Proof.
  intros HN Hr HS. assert (HV : map rdot rs <> []) by (destruct rs; [congruence|discriminate]).
  rewrite (scale_defined sel _ HN HV) in HS. injection HS as HS.
  exists (med (map rdot rs)), (madv (map rdot rs)). split; [apply med_is_median, HV|]. split.
  - apply med_is_median. destruct rs; [congruence|discriminate].
  - rewrite map_map. apply map_ext. intros r. rewrite weight_huber. f_equal. cbn [exact d_div d_add]. rewrite <- HS.
    change (rdot r / (b_robust * madv (map rdot rs) + tiny_robust) = squared r / (1.482602218505602 * madv (map rdot rs) + 1e-16)).
    rewrite squared_rdot. f_equal. unfold b_robust, tiny_robust. lra.
Qed.
Lemma increment_turn theta : angle_axis_to_quaternion theta = turn theta (if Rlt_dec (vnorm theta) 1e-8 then 0 else 1).
Proof.
  destruct (C79_increment theta) as [H1 H2]. destruct (Rlt_dec (vnorm theta) 1e-8) as [L|L]; [apply H2|apply H1]; lra.
Qed.

Section Run.
Variable eig : nat -> (nat -> nat -> R) -> list R.
Variable llt : nat -> (nat -> nat -> R) -> (nat -> R) -> (nat -> R).
Variable sel : selector exact.
Variable problem : pose -> outcome (list mat * list (list R)).
Hypothesis HL : solves_positive_definite llt.
Hypothesis HN : valid_nth exact sel.

Lemma step_moves q t Js rs sc dq dt : unit q -> rs <> [] -> scale exact sel b_robust (map rdot rs) = Ok sc ->
  SpecOpt.step exact quat vec mat (list R) rdot (calc_update eig llt) k_robust tiny_robust q Js rs sc dq dt ->
  unit (qmul q dq) /\ exists w, huber_weights rs w /\ moves eig q t Js rs w (qmul q dq) (vadd t dt).
Proof.
  intros U Hr HS H. unfold SpecOpt.step in H.
  set (w := map (fun e => huber_derivative exact (d_div exact e (d_add exact sc tiny_robust)) k_robust) (map rdot rs)) in H.
  assert (UI : unit dq).
  { unfold calc_update in H. match type of H with context [bind ?u _] => destruct u as [dx| | | | |]; try discriminate H end. cbn [bind] in H. injection H as <- _. apply aa_unit. }
  split; [apply unit_mul; assumption|].
  exists w. split; [apply (weights_huber sel); assumption|]. intros WS.
  assert (Lw : length w = length rs) by (unfold w; rewrite !map_length; reflexivity).
  split.
  - intros (e & He1 & He2). assert (He3 : Rabs e < / 10) by lra. assert (G := degenerate_step eig llt q w Js rs WS Lw (ex_intro _ e (conj He1 He3))).
    pose proof (eq_trans (eq_sym G) H) as H2. injection H2 as <- <-. rewrite qmul_id, vadd_zero. auto.
  - intros HE Hnd.
    assert (HP : Forall (fun c => 0 < c) w).
    { unfold w. apply Forall_forall. intros c Hc. apply in_map_iff in Hc. destruct Hc as (a & <- & _).
      apply (C42_weight_bounds _ _ k_robust ltac:(unfold k_robust; lra) (Rle_refl _)). }
    assert (LJ : length w = length Js) by (rewrite Lw; clear - WS; induction WS; cbn [length]; auto).
    destruct (C87_step_minimises eig llt q w Js rs HL U WS LJ HP HE) as [x [Ex Hx]].
    { intros e He. apply Hnd in He. lra. }
    pose proof (eq_trans (eq_sym Ex) H) as H2. injection H2 as <- <-. exists x. cbn zeta. rewrite increment_turn, qmul_hamilton. auto.
Qed.

Theorem C87_run max_iter initial r : (0 <= max_iter)%Z -> is_rotation (lin initial) ->
  optimize eig llt sel problem max_iter initial = Ok r ->
  exists n q0 q t, (Z.of_nat n <= max_iter)%Z /\ unit q0 /\ to_rotation q0 = lin initial /\
    descends eig problem n q0 (tra initial) q t /\ r_pose r = Iso (to_rotation q) t.
Proof.
  intros Hm HR H. unfold optimize in H.
  destruct (Prop_Optimizer.C39_verdict exact quat vec pose mat (list R) problem of_pose make_pose rdot (calc_update eig llt) qmul vadd check_convergence sel
    b_robust k_robust tiny_robust dbl_max max_iter initial r Hm H) as (l & q & t & e & s & HI & _ & EI & BI & _ & HC).
  destruct (quat_of_ok _ HR) as [U0 R0].
  assert (G : forall q0 t0 e0 s0 m, unit q0 ->
    iterations exact quat vec pose mat (list R) problem make_pose rdot (calc_update eig llt) qmul vadd check_convergence sel b_robust k_robust tiny_robust q0 t0 e0 s0 l q t e s ->
    forall q2 t2, (unit q -> descends eig problem m q t q2 t2) -> descends eig problem (length l + m) q0 t0 q2 t2).
  { intros q0 t0 e0 s0 m Uq HI0. clear - HI0 Uq HL HN. induction HI0 as [q0 t0 e0 s0|q0 t0 e0 s0 J rs e s dq dt l q t e' s' HM _ _ HS _ _ IH]; intros q2 t2 HD; cbn [length Nat.add].
    - apply HD, Uq.
    - destruct HM as (HM1 & HM2 & _ & HM4). destruct (step_moves q0 t0 J rs s dq dt Uq HM2 HM4 HS) as (U1 & w & HW & HMV).
      eapply goes; [exact HM1|exact HM2|exact HW|exact HMV|]. apply IH; auto. }
  specialize (G (fst (of_pose initial)) (snd (of_pose initial)) dbl_max dbl_max).
  assert (LAST : exists m q2 t2, (m <= 1)%nat /\ (m = 1%nat -> (r_iteration r < max_iter)%Z) /\ (unit q -> descends eig problem m q t q2 t2) /\ r_pose r = Iso (to_rotation q2) t2).
  { destruct (r_message r).
    - exists 0%nat, q, t. split; [lia|]. split; [lia|]. split; [constructor|]. apply HC.
    - exists 0%nat, q, t. split; [lia|]. split; [lia|]. split; [constructor|]. apply HC.
    - exists 0%nat, q, t. split; [lia|]. split; [lia|]. split; [constructor|]. apply HC.
    - destruct HC as (L & _ & _ & J & rs & dq & dt & (HM1 & HM2 & _ & HM4) & HS & _ & HP).
      exists 1%nat, (qmul q dq), (vadd t dt). split; [lia|]. split; [intros _; exact L|]. split; [|exact HP].
      intros Uq. destruct (step_moves q t J rs _ dq dt Uq HM2 HM4 HS) as (U1 & w & HW & HMV). eapply goes; [exact HM1|exact HM2|exact HW|exact HMV|constructor].
    - exists 0%nat, q, t. split; [lia|]. split; [lia|]. split; [constructor|]. apply HC. }
  destruct LAST as (m & q2 & t2 & M1 & M2 & HD & HP).
  exists (length l + m)%nat, (quat_of (lin initial)), q2, t2. split; [|split; [exact U0|split; [exact R0|split; [|exact HP]]]].
  - lia.
  - apply (G m); auto.
Qed.
End Run.
Print Assumptions C87_run.

(** Beside it: the problem of C40, posed as (1, 0, 0) from the goal along x. One step is
    made, by -1 along x, then the run ends. *)
Lemma one_entry n (f : nat -> R) i : (i < n)%nat -> (forall j, (j < n)%nat -> j <> i -> f j = 0) -> total n f = f i.
Proof.
  intros Hi Hz. rewrite (total_ext n f (fun j => if Nat.eqb j i then f i else 0)).
  2: { intros j Hj. destruct (Nat.eqb_spec j i) as [->|N]; [reflexivity|auto]. }
  unfold total. generalize (f i). clear f Hz. intros c.
  assert (G : forall m k, fold_right Rplus 0 (map (fun j => if Nat.eqb j i then c else 0) (seq k m)) = if ((k <=? i) && (i <? k + m))%nat then c else 0).
  { induction m as [|m IH]; intros k; cbn [seq map fold_right].
    - replace ((k <=? i) && (i <? k + 0))%nat with false by (symmetry; apply Bool.not_true_is_false; intros B; apply andb_prop in B; destruct B as [B1 B2]; apply Nat.leb_le in B1; apply Nat.ltb_lt in B2; lia). reflexivity.
    - rewrite IH. destruct (Nat.eqb_spec k i) as [->|N].
      + replace (S i <=? i)%nat with false by (symmetry; apply Nat.leb_gt; lia). rewrite Nat.leb_refl. replace (i <? i + S m)%nat with true by (symmetry; apply Nat.ltb_lt; lia). cbn. ring.
      + replace (S k + m)%nat with (k + S m)%nat by lia. rewrite Rplus_0_l.
        destruct (Nat.leb_spec (S k) i), (Nat.leb_spec k i); try lia; reflexivity. }
  rewrite G. replace (i <? 0 + n)%nat with true by (symmetry; apply Nat.ltb_lt; lia). reflexivity.
Qed.
Lemma diagonal_solver llt : solves_positive_definite llt -> correct_solver llt.
Proof.
  intros HL n A b [HO HD] i Hi. rewrite <- (HL n A b) with (i := i); [|split|exact Hi].
  - symmetry. apply (one_entry n (fun j => A i j * llt n A b j)); [exact Hi|]. intros j Hj N. rewrite HO by auto. ring.
  - intros k j Hk Hj. destruct (Nat.eq_dec k j) as [->|N]; [reflexivity|]. rewrite !HO by auto. reflexivity.
  - intros x (k & Hk & Hx). unfold quad. rewrite (total_ext n _ (fun k => A k k * (x k * x k))).
    2: { intros k' Hk'. rewrite (one_entry n _ k' Hk'); [ring|]. intros j Hj N. rewrite HO by auto. ring. }
    assert (P : forall m, (m <= n)%nat -> 0 <= total m (fun k => A k k * (x k * x k)) /\ ((k < m)%nat -> 0 < total m (fun k => A k k * (x k * x k)))).
    { induction m as [|m IH]; intros Hm.
      - unfold total. cbn. split; [lra|lia].
      - unfold total. rewrite seq_S, map_app, fold_right_app. cbn [map fold_right Nat.add].
        assert (F : forall l c, fold_right Rplus c l = fold_right Rplus 0 l + c) by (induction l as [|a l IHl]; intros c; cbn; [ring|rewrite IHl; ring]).
        rewrite F. fold (total m (fun k => A k k * (x k * x k))). destruct (IH ltac:(lia)) as [I1 I2]. assert (Am := HD m ltac:(lia)).
        assert (0 <= A m m * (x m * x m)) by nra. split; [lra|]. intros Lk. destruct (Nat.eq_dec k m) as [->|N].
        + assert (0 < x m * x m) by nra. nra.
        + specialize (I2 ltac:(lia)). lra. }
    apply (P n (le_n n)). exact Hk.
Qed.
Example ex_C87_run : exists llt r, solves_positive_definite llt /\ valid_nth exact sel_sort /\ is_rotation (lin Prop_Optimizer.origin) /\
  optimize Prop_Optimizer.diag_eig llt sel_sort Prop_Optimizer.overshoot 2 Prop_Optimizer.origin = Ok r /\ r_pose r <> Prop_Optimizer.origin.
Proof.
  destruct solver_exists as [llt HL]. exists llt.
  destruct Prop_Optimizer.ex_C40 as (HE & _ & _).
  destruct (Prop_Optimizer.C40_error_increases_refuted Prop_Optimizer.diag_eig llt sel_sort HE (diagonal_solver llt HL) sel_sort_valid 2 ltac:(lia))
    as (r & J0 & r0 & J1 & r1 & H1 & _ & H2 & H3 & E0 & E1).
  exists r. split; [exact HL|]. split; [exact sel_sort_valid|]. split; [exact Prop_Optimizer.origin_rotation|]. split; [exact H1|].
  intros E. rewrite E, H2 in H3. injection H3 as <- <-. lra.
Qed.
