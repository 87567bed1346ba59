(** Property C40, continued: in which cases a run that reports success is not worse than its
    start, and a run of the alignment problem that is. *)
From Coq Require Import List ZArith Bool Lia Lra Reals Permutation Sorted.
From Verif Require Import Base Arith LibModel SpecLib LibProofs LocModel PoseModel OptModel SpecPose SpecOpt AngleProofs RotProofs OptProofs WitnessProofs Prop_Optimizer StepProofs.
From Verif Require OffsetProofs Prop_Offset.
Import ListNotations.
Open Scope R_scope.

Section Any.
Variable eigenvalues : nat -> (nat -> nat -> R) -> list R.
Variable llt_solve : nat -> (nat -> nat -> R) -> (nat -> R) -> (nat -> R).
Variable sel : selector exact.
Variable problem : pose -> outcome (list mat * list (list R)).
Notation measured := (measured exact quat vec pose mat (list R) problem make_pose rdot sel b_robust).
Notation iterations := (iterations exact quat vec pose mat (list R) problem make_pose rdot (calc_update eigenvalues llt_solve) qmul vadd check_convergence sel b_robust k_robust tiny_robust).
Notation run := (optimize eigenvalues llt_solve sel problem).

Lemma measured_error q t J rs e s : measured q t J rs e s -> problem (make_pose q t) = Ok (J, rs) /\ e = total_error rs.
Proof.
  intros (A & _ & B & _). split; [exact A|]. rewrite B. unfold compute_errors. change (sum_errors exact (map rdot rs)) with (fold_left Rplus (map rdot rs) 0). apply OffsetProofs.errors_total.
Qed.
(** The error that the next pose is compared with: that of the pose before, and not larger
    than that of the first pose. *)
Lemma iterations_last q t e0 s0 l q' t' e s : iterations q t e0 s0 l q' t' e s ->
  (l = [] /\ q' = q /\ t' = t /\ e = e0) \/
  (exists J0 r0, problem (make_pose q t) = Ok (J0, r0) /\ e <= total_error r0) /\
  (exists qp tp Jp rp, problem (make_pose qp tp) = Ok (Jp, rp) /\ total_error rp = e).
Proof.
  induction 1 as [|q t e0 s0 J r e1 s1 dq dt l q' t' e s HM H1 H2 HS HC HI IH]; [auto|]. right. destruct (measured_error _ _ _ _ _ _ HM) as [P E].
  destruct IH as [(-> & -> & -> & ->)|[(J1 & r1 & P1 & L1) Prev]].
  - split; [exists J, r; split; [exact P|lra]|]. exists q, t, J, r. split; [exact P|lra].
  - split; [|exact Prev]. exists J, r. split; [exact P|]. inversion HI; subst.
    + lra.
    + destruct (measured_error _ _ _ _ _ _ H) as [P' E']. rewrite P' in P1. injection P1 as <- <-.
      rewrite E' in H0. change (Rltb (total_error r) (total_error r0) = false) in H0. apply rltb_false in H0. change (D exact) with R in *. lra.
Qed.

(** A run that stops because the scale has grown returns a pose whose error is not larger
    than that of the pose it was started with. *)
Theorem C40_scale_stop_partial max_iter p r : (0 <= max_iter)%Z -> is_rotation (lin p) -> run max_iter p = Ok r ->
  r_message r = LargerScaleThanPrevious ->
  exists J0 res0 J1 res1, problem p = Ok (J0, res0) /\ problem (r_pose r) = Ok (J1, res1) /\ total_error res1 <= total_error res0.
Proof.
  intros Hm HR H M. unfold optimize in H. destruct (C39_verdict _ _ _ _ _ _ _ _ _ _ _ _ _ _ _ _ _ _ _ _ _ _ Hm H) as (l & q & t & e & s & I & _ & _ & _ & _ & V).
  rewrite M in V. destruct V as (_ & EP & NE & _ & J1 & res1 & ME). destruct (measured_error _ _ _ _ _ _ ME) as [P1 E1]. rewrite EP.
  change (Rltb e (r_error r) = false) in NE. apply rltb_false in NE. assert (PQ : problem p = problem (make_pose (fst (of_pose p)) (snd (of_pose p)))) by (rewrite (make_of_pose p HR); reflexivity).
  destruct (iterations_last _ _ _ _ _ _ _ _ _ I) as [(_ & -> & -> & _)|[(J0 & r0 & P0 & L0) _]].
  - exists J1, res1, J1, res1. split; [rewrite PQ; exact P1|]. split; [exact P1|lra].
  - exists J0, r0, J1, res1. split; [rewrite PQ; exact P0|]. split; [exact P1|]. rewrite <- E1. lra.
Qed.

(** Whenever a run stops because the error has grown, after at least one step, it reports
    success and returns a pose that is worse than one it came from. *)
Theorem C40_returns_the_worse_refuted max_iter p r : (0 <= max_iter)%Z -> run max_iter p = Ok r ->
  r_message r = LargerErrorThanPrevious -> (0 < r_iteration r)%Z ->
  r_success r = true /\ exists before Jb rb J1 res1, problem before = Ok (Jb, rb) /\ problem (r_pose r) = Ok (J1, res1) /\ total_error rb < total_error res1.
Proof.
  intros Hm H M IT. unfold optimize in H. destruct (C39_verdict _ _ _ _ _ _ _ _ _ _ _ _ _ _ _ _ _ _ _ _ _ _ Hm H) as (l & q & t & e & s & I & _ & EI & _ & SU & V).
  rewrite M in V, SU. destruct V as (_ & EP & LT & J1 & res1 & ME). destruct (measured_error _ _ _ _ _ _ ME) as [P1 E1].
  split. { destruct (r_success r); [reflexivity|]. destruct SU as [SU _]. destruct (SU eq_refl); discriminate. }
  change (Rltb e (r_error r) = true) in LT. apply Rltb_spec in LT.
  destruct (iterations_last _ _ _ _ _ _ _ _ _ I) as [(-> & _)|[_ (qp & tp & Jp & rp & Pp & Ep)]]; [rewrite EI in IT; cbn in IT; lia|].
  exists (make_pose qp tp), Jp, rp, J1, res1. rewrite EP. split; [exact Pp|]. split; [exact P1|]. lra.
Qed.
End Any.
Print Assumptions C40_scale_stop_partial.
Print Assumptions C40_returns_the_worse_refuted.

(** ** Eight points to be aligned with eight others *)
(** Pairs of opposite points on the axes; the first six are to move by 1 along x, the last
    two by -3. *)
Definition here : list vec := [V3 1 0 0; V3 (-1) 0 0; V3 0 1 0; V3 0 (-1) 0; V3 0 0 1; V3 0 0 (-1); V3 1 0 0; V3 (-1) 0 0].
Definition there : list vec := [V3 2 0 0; V3 0 0 0; V3 1 1 0; V3 1 (-1) 0; V3 1 0 1; V3 1 0 (-1); V3 (-2) 0 0; V3 (-4) 0 0].
Definition off (a b : R) : list (list R) := map (fun x => [x; 0; 0]) [a; a; a; a; a; a; b; b].
Definition shifted (x y z : R) : pose := Iso id3 (V3 x y z).

Lemma eight_residuals x : alignment_make (here, there) (shifted x 0 0) = Ok (alignment_jacobian qid here, off (x - 1) (x + 3)).
Proof.
  unfold alignment_make. cbn [shifted lin fst snd]. rewrite Prop_Offset.quat_id3. unfold alignment_residual. cbn [length here there Nat.eqb assert_ bind combine map fst snd].
  f_equal. f_equal. unfold off. cbn [map]. repeat (apply f_equal2; [unfold vlist, vsub, transform, vadd; cbn; repeat (apply f_equal2; [ring|]); reflexivity|]). reflexivity.
Qed.
Lemma eight_error a b : total_error (off a b) = 6 * (a * a) + 2 * (b * b).
Proof. unfold total_error, off. cbn [map fold_right]. ring. Qed.
Lemma eight_scale a b : 0 <= a <= b -> madv [a; a; a; a; a; a; b; b] = 0.
Proof.
  intros H. assert (M : med [a; a; a; a; a; a; b; b] = a).
  { rewrite (med_eq _ [a; a; a; a; a; a; b; b]); [|discriminate|apply Permutation_refl|repeat first [apply SSorted_cons|apply SSorted_nil|apply Forall_cons|apply Forall_nil]; lra]. cbv [length Nat.odd Nat.even negb Nat.div Nat.divmod fst nth Nat.sub]. lra. }
  unfold madv. rewrite M. cbn [map]. replace (a - a) with 0 by ring. rewrite Rabs_R0, (Rabs_pos_eq (b - a)) by lra.
  rewrite (med_eq _ [0; 0; 0; 0; 0; 0; b - a; b - a]); [|discriminate|apply Permutation_refl|repeat first [apply SSorted_cons|apply SSorted_nil|apply Forall_cons|apply Forall_nil]; lra]. cbv [length Nat.odd Nat.even negb Nat.div Nat.divmod fst nth Nat.sub]. lra.
Qed.

Section Eight.
Variable eigenvalues : nat -> (nat -> nat -> R) -> list R.
Variable llt_solve : nat -> (nat -> nat -> R) -> (nat -> R) -> (nat -> R).
Variable sel : selector exact.
Hypothesis HE : correct_eigenvalues eigenvalues.
Hypothesis HS : correct_solver llt_solve.
Hypothesis HN : valid_nth exact sel.

Lemma jacobian_rows x y z : beside (drpdq qid (V3 x y z)) [[1; 0; 0]; [0; 1; 0]; [0; 0; 1]] =
  [[2 * x; 0; 2 * z; - (2 * y); 1; 0; 0]; [2 * y; - (2 * z); 0; 2 * x; 0; 1; 0]; [2 * z; 2 * y; - (2 * x); 0; 0; 0; 1]].
Proof. unfold beside, drpdq, hat, vcross, vdot, qvec, qid. cbn. repeat (apply f_equal2; [repeat (apply f_equal2; [ring|]); reflexivity|]). reflexivity. Qed.
Notation row3 x y z := [[2 * x; 0; 2 * z; - (2 * y); 1; 0; 0]; [2 * y; - (2 * z); 0; 2 * x; 0; 1; 0]; [2 * z; 2 * y; - (2 * x); 0; 0; 0; 1]].
Definition one (x y z : R) (i j : nat) : R :=
  match i, j with
  | 0%nat, 0%nat => 4 * (x * x + y * y + z * z) | 1%nat, 1%nat => 4 * (y * y + z * z) | 2%nat, 2%nat => 4 * (x * x + z * z) | 3%nat, 3%nat => 4 * (x * x + y * y)
  | 4%nat, 4%nat => 1 | 5%nat, 5%nat => 1 | 6%nat, 6%nat => 1
  | 1%nat, 2%nat => - (4 * (x * y)) | 2%nat, 1%nat => - (4 * (x * y)) | 1%nat, 3%nat => - (4 * (x * z)) | 3%nat, 1%nat => - (4 * (x * z)) | 2%nat, 3%nat => - (4 * (y * z)) | 3%nat, 2%nat => - (4 * (y * z))
  | 0%nat, 4%nat => 2 * x | 4%nat, 0%nat => 2 * x | 0%nat, 5%nat => 2 * y | 5%nat, 0%nat => 2 * y | 0%nat, 6%nat => 2 * z | 6%nat, 0%nat => 2 * z
  | 1%nat, 5%nat => - (2 * z) | 5%nat, 1%nat => - (2 * z) | 1%nat, 6%nat => 2 * y | 6%nat, 1%nat => 2 * y
  | 2%nat, 4%nat => 2 * z | 4%nat, 2%nat => 2 * z | 2%nat, 6%nat => - (2 * x) | 6%nat, 2%nat => - (2 * x)
  | 3%nat, 4%nat => - (2 * y) | 4%nat, 3%nat => - (2 * y) | 3%nat, 5%nat => 2 * x | 5%nat, 3%nat => 2 * x
  | _, _ => 0
  end.
Lemma jtj_one x y z i j : (i < 7)%nat -> (j < 7)%nat -> jtj (row3 x y z) i j = one x y z i j.
Proof.
  intros Hi Hj. unfold jtj, one. do 7 (destruct i as [|i]; [do 7 (destruct j as [|j]; [cbn [map fold_right nth]; ring|]); lia|]). lia.
Qed.
Definition jacs : list mat := [row3 1 0 0; row3 (-1) 0 0; row3 0 1 0; row3 0 (-1) 0; row3 0 0 1; row3 0 0 (-1); row3 1 0 0; row3 (-1) 0 0].
Lemma eight_jacobians : alignment_jacobian qid here = jacs.
Proof. unfold alignment_jacobian, here, jacs. cbn [map]. rewrite !jacobian_rows. reflexivity. Qed.

Definition gram (w v : R) (i j : nat) : R :=
  if Nat.eqb i j then match i with 0%nat => 4 * (6 * w + 2 * v) | 1%nat => 16 * w | 2%nat => 4 * (4 * w + 2 * v) | 3%nat => 4 * (4 * w + 2 * v) | _ => 6 * w + 2 * v end else 0.
Lemma eight_gram w v i j : (i < 7)%nat -> (j < 7)%nat ->
  fold_right Rplus 0 (map (fun wJ => fst wJ * jtj (snd wJ) i j) (combine [w; w; w; w; w; w; v; v] jacs)) = gram w v i j.
Proof.
  intros Hi Hj. unfold jacs. cbn [combine map fst snd fold_right]. rewrite !jtj_one by assumption. unfold gram, one.
  do 7 (destruct i as [|i]; [do 7 (destruct j as [|j]; [cbn [Nat.eqb]; ring|]); lia|]). lia.
Qed.
Lemma eight_plain i j : (i < 7)%nat -> (j < 7)%nat -> fold_right Rplus 0 (map (fun J => jtj J i j) jacs) = gram 1 1 i j.
Proof.
  intros Hi Hj. rewrite <- eight_gram by assumption. unfold jacs. cbn [combine map fst snd fold_right]. ring.
Qed.
Lemma jtr_one x y z c i : (i < 7)%nat -> jtr (row3 x y z) [c; 0; 0] i = c * match i with 0%nat => 2 * x | 2%nat => 2 * z | 3%nat => - (2 * y) | 4%nat => 1 | _ => 0 end.
Proof. intros Hi. unfold jtr. do 7 (destruct i as [|i]; [cbn [combine map fold_right fst snd nth]; ring|]). lia. Qed.
Lemma eight_slope w v a b i : (i < 7)%nat ->
  fold_right Rplus 0 (map (fun wJr => fst wJr * jtr (fst (snd wJr)) (snd (snd wJr)) i) (combine [w; w; w; w; w; w; v; v] (combine jacs (off a b)))) =
  if Nat.eqb i 4 then 6 * w * a + 2 * v * b else 0.
Proof.
  intros Hi. unfold jacs, off. cbn [combine map fst snd fold_right]. rewrite !jtr_one by assumption. do 7 (destruct i as [|i]; [cbn [Nat.eqb]; ring|]). lia.
Qed.
Lemma eight_regular : is_degenerate eigenvalues 7 (fun i j => fold_right Rplus 0 (map (fun J => jtj J i j) jacs)) = false.
Proof.
  unfold is_degenerate. apply Bool.not_true_iff_false. intros H. apply existsb_exists in H. destruct H as [e [He1 He2]]. apply Rltb_spec in He2.
  assert (Dg : diagonal 7 (fun i j => fold_right Rplus 0 (map (fun J => jtj J i j) jacs))).
  { split.
    - intros i j Hi Hj Hn. rewrite eight_plain by auto. unfold gram. apply Nat.eqb_neq in Hn. rewrite Hn. reflexivity.
    - intros i Hi. rewrite eight_plain by auto. unfold gram. rewrite Nat.eqb_refl. do 7 (destruct i as [|i]; [lra|]). lia. }
  destruct (HE 7%nat _ Dg e He1) as [i [Hi Ei]]. cbv beta in Ei. rewrite eight_plain in Ei by auto. unfold gram in Ei. rewrite Nat.eqb_refl in Ei.
  assert (8 <= e) by (rewrite <- Ei || rewrite Ei; do 7 (destruct i as [|i]; [lra|]); lia). rewrite Rabs_pos_eq in He2; lra.
Qed.
Lemma eight_step w v a b : 0 < w -> 0 < v ->
  calc_update eigenvalues llt_solve qid [w; w; w; w; w; w; v; v] jacs (off a b) = Ok (qid, V3 (- ((6 * w * a + 2 * v * b) / (6 * w + 2 * v))) 0 0).
Proof.
  intros Hw Hv. unfold calc_update, weighted_update.
  change (Nat.eqb (length [w; w; w; w; w; w; v; v]) (length jacs)) with true. change (Nat.eqb (length [w; w; w; w; w; w; v; v]) (length (off a b))) with true.
  change (forallb (fun J => forallb (fun row => Nat.eqb (length row) 7) J) jacs) with true.
  change (forallb (fun Jr : list (list R) * list R => Nat.eqb (length (fst Jr)) (length (snd Jr))) (combine jacs (off a b))) with true.
  cbn [assert_]. rewrite eight_regular. cbv zeta. cbn [bind].
  set (B := fun k l : nat => sum_n 7 _). set (c := fun k : nat => sum_n 7 _).
  set (s := 6 * w + 2 * v). set (d := 6 * w * a + 2 * v * b).
  assert (EB : forall k l, (k < 6)%nat -> (l < 6)%nat -> B k l = if Nat.eqb k l then match k with 0%nat => 4 * w | 1%nat => 4 * w + 2 * v | 2%nat => 4 * w + 2 * v | _ => s end else 0).
  { intros k l Hk Hl. unfold B, sum_n. cbn [seq map fold_right]. rewrite !eight_gram by lia. unfold gram. cbn [Nat.eqb]. unfold s.
    do 6 (destruct k as [|k]; [do 6 (destruct l as [|l]; [unfold make_m, qid; cbn [left_mul_matrix qw qx qy qz nth Nat.add Nat.ltb Nat.leb Nat.eqb Nat.sub]; field|]); lia|]). lia. }
  assert (Ec : forall k, (k < 6)%nat -> c k = if Nat.eqb k 3 then d else 0).
  { intros k Hk. unfold c, sum_n. cbn [seq map fold_right]. rewrite !eight_slope by lia. cbn [Nat.eqb]. unfold d.
    do 6 (destruct k as [|k]; [unfold make_m; cbn [Nat.add Nat.ltb Nat.leb Nat.eqb Nat.sub]; ring|]). lia. }
  assert (Hs : 0 < s) by (unfold s; lra).
  assert (PD : diagonal 6 B).
  { split.
    - intros i j Hi Hj Hn. rewrite EB by auto. apply Nat.eqb_neq in Hn. rewrite Hn. reflexivity.
    - intros i Hi. rewrite EB by auto. rewrite Nat.eqb_refl. do 6 (destruct i as [|i]; [lra|]). lia. }
  pose proof (HS 6%nat B c PD) as Hx. set (x := llt_solve 6%nat B c) in *. clearbody x.
  assert (X : forall i, (i < 6)%nat -> x i = if Nat.eqb i 3 then d / s else 0).
  { intros i Hi. specialize (Hx i Hi). rewrite (Ec i Hi), (EB i i), Nat.eqb_refl in Hx by lia.
    do 6 (destruct i as [|i]; [cbn [Nat.eqb] in *; match type of Hx with ?k * _ = _ => apply Rmult_eq_reg_l with k; [rewrite Hx; try field; try ring; lra|lra] end|]). lia. }
  rewrite !X by lia. cbn [Nat.eqb]. rewrite Ropp_0, aa_zero. reflexivity.
Qed.

Lemma shifted_make x : make_pose qid (V3 x 0 0) = shifted x 0 0.
Proof. unfold make_pose, shifted. f_equal. unfold to_rotation, qid, id3. cbn [qw qx qy qz]. f_equal; ring. Qed.
Lemma eight_errors a b : compute_errors exact (list R) rdot (off a b) = [a * a; a * a; a * a; a * a; a * a; a * a; b * b; b * b].
Proof.
  assert (E : forall x, rdot [x; 0; 0] = x * x) by (intros x; unfold rdot; cbn [map fold_right]; ring).
  unfold compute_errors, off. cbn [map]. rewrite !E. reflexivity.
Qed.
Lemma eight_measured a b : 0 <= a * a <= b * b ->
  normalize_error_scale exact sel b_robust tiny_robust (compute_errors exact (list R) rdot (off a b)) =
  Ok (map (fun e => e / (b_robust * 0 + tiny_robust)) [a * a; a * a; a * a; a * a; a * a; a * a; b * b; b * b], b_robust * 0).
Proof.
  intros H. unfold normalize_error_scale. rewrite eight_errors. rewrite scale_defined by (auto; discriminate). rewrite eight_scale by exact H. reflexivity.
Qed.
Lemma eight_sum a b : sum_errors exact (compute_errors exact (list R) rdot (off a b)) = 6 * (a * a) + 2 * (b * b).
Proof. rewrite eight_errors. unfold sum_errors. cbn [fold_left]. cbn [exact d_add d_of_Z]. change (D exact) with R in *. ring. Qed.

(** ** C40 is refuted for the alignment of points: among all positions the start has the
    least error, 24; the run leaves it for a pose with the error 26.88 and reports success. *)
Theorem C40_alignment_refuted max_iter : (2 <= max_iter)%Z ->
  exists r J0 res0 J1 res1, optimize eigenvalues llt_solve sel (alignment_make (here, there)) max_iter (shifted 0 0 0) = Ok r /\
    r_success r = true /\ r_message r = LargerErrorThanPrevious /\ r_iteration r = 1%Z /\ alignment_make (here, there) (shifted 0 0 0) = Ok (J0, res0) /\ alignment_make (here, there) (r_pose r) = Ok (J1, res1) /\
    total_error res0 = 24 /\ total_error res1 = 2688 / 100 /\
    forall x y z J res, alignment_make (here, there) (shifted x y z) = Ok (J, res) -> 24 <= total_error res.
Proof.
  intros Hm. assert (E0 := eight_residuals 0). replace (0 - 1) with (-1) in E0 by ring. replace (0 + 3) with 3 in E0 by ring.
  assert (E1 := eight_residuals (3 / 5)). replace (3 / 5 - 1) with (- (2 / 5)) in E1 by field. replace (3 / 5 + 3) with (18 / 5) in E1 by field.
  rewrite eight_jacobians in E0, E1.
  assert (RUN : optimize eigenvalues llt_solve sel (alignment_make (here, there)) max_iter (shifted 0 0 0) =
    Ok (larger_error exact pose (shifted (3 / 5) 0 0) 1 (6 * (- (2 / 5) * - (2 / 5)) + 2 * (18 / 5 * (18 / 5))) (b_robust * 0))).
  { unfold optimize, opt_run. assert (OP : of_pose (shifted 0 0 0) = (qid, V3 0 0 0)) by (unfold of_pose, shifted; cbn [lin tra]; rewrite Prop_Offset.quat_id3; reflexivity).
    rewrite OP. replace (Z.to_nat max_iter) with (S (S (Z.to_nat (max_iter - 2)))) by lia. replace (max_iter <? 0)%Z with false by (symmetry; apply Z.ltb_ge; lia).
    pose proof Prop_Offset.dbl_max_1024 as DB. cbn [opt_loop]. rewrite shifted_make, E0. cbn [bind].
    unfold off at 1. cbn [map]. change [[-1; 0; 0]; [-1; 0; 0]; [-1; 0; 0]; [-1; 0; 0]; [-1; 0; 0]; [-1; 0; 0]; [3; 0; 0]; [3; 0; 0]] with (off (-1) 3).
    rewrite eight_measured by lra. cbn [bind]. rewrite eight_sum.
    change (d_ltb exact dbl_max (6 * (-1 * -1) + 2 * (3 * 3))) with (Rltb dbl_max (6 * (-1 * -1) + 2 * (3 * 3))). rewrite lt_false by lra.
    change (d_ltb exact dbl_max (b_robust * 0)) with (Rltb dbl_max (b_robust * 0)). rewrite lt_false by lra.
    assert (T : 0 < b_robust * 0 + tiny_robust) by (unfold tiny_robust; lra). set (tau := b_robust * 0 + tiny_robust) in *.
    assert (TS : tau < / 1000) by (unfold tau, tiny_robust; lra).
    set (w := k_robust / sqrt (/ tau)). assert (SP : 0 < sqrt (/ tau)) by (apply sqrt_lt_R0, Rinv_0_lt_compat, T).
    assert (KP : 0 < k_robust < 2) by (unfold k_robust; lra). assert (W : 0 < w) by (apply Rdiv_lt_0_compat; lra).
    assert (HD : forall x, 1 <= x -> huber_derivative exact (x * x / tau) k_robust = w / x).
    { intros x Hx. unfold huber_derivative. change ((if Rltb (x * x / tau) (k_robust * k_robust) then IZR 1 else k_robust / sqrt (x * x / tau)) = w / x).
      assert (/ tau > 1000) by (rewrite <- (Rinv_inv 1000); apply Rinv_lt_contravar; [apply Rmult_lt_0_compat; lra|lra]).
      rewrite lt_false by (unfold Rdiv; nra). unfold Rdiv at 2. rewrite sqrt_mult by (try nra; left; apply Rinv_0_lt_compat, T). rewrite sqrt_square by lra. unfold w. field. lra. }
    assert (CW : compute_weights exact k_robust (map (fun e => e / tau) [-1 * -1; -1 * -1; -1 * -1; -1 * -1; -1 * -1; -1 * -1; 3 * 3; 3 * 3]) = [w; w; w; w; w; w; w / 3; w / 3]).
    { unfold compute_weights. cbn [map]. replace (-1 * -1 / tau) with (1 * 1 / tau) by (field; lra). rewrite !HD by lra. replace (w / 1) with w by field. reflexivity. }
    rewrite CW, eight_step by lra. cbn [bind].
    replace (- ((6 * w * -1 + 2 * (w / 3) * 3) / (6 * w + 2 * (w / 3)))) with (3 / 5) by (field; lra).
    assert (EC : check_convergence qid (V3 (3 / 5) 0 0) = false).
    { unfold check_convergence. apply andb_false_intro2. apply lt_false. unfold vnorm, vdot. cbn [vx vy vz].
      replace (3 / 5 * (3 / 5) + 0 * 0 + 0 * 0) with (3 / 5 * (3 / 5)) by ring. rewrite sqrt_square by lra. lra. }
    rewrite EC, qmul_id. replace (vadd (V3 0 0 0) (V3 (3 / 5) 0 0)) with (V3 (3 / 5) 0 0) by (apply vec_ext; vcbn; ring).
    rewrite shifted_make, E1. cbn [bind]. unfold off at 1. cbn [map].
    change [[- (2 / 5); 0; 0]; [- (2 / 5); 0; 0]; [- (2 / 5); 0; 0]; [- (2 / 5); 0; 0]; [- (2 / 5); 0; 0]; [- (2 / 5); 0; 0]; [18 / 5; 0; 0]; [18 / 5; 0; 0]] with (off (- (2 / 5)) (18 / 5)).
    rewrite eight_measured by lra. cbn [bind]. rewrite eight_sum.
    change (d_ltb exact (6 * (-1 * -1) + 2 * (3 * 3)) ?e) with (Rltb (6 * (-1 * -1) + 2 * (3 * 3)) e). rewrite lt_true by lra. reflexivity. }
  exists (larger_error exact pose (shifted (3 / 5) 0 0) 1 (6 * (- (2 / 5) * - (2 / 5)) + 2 * (18 / 5 * (18 / 5))) (b_robust * 0)), jacs, (off (-1) 3), jacs, (off (- (2 / 5)) (18 / 5)).
  split; [exact RUN|]. split; [reflexivity|]. split; [reflexivity|]. split; [reflexivity|]. split; [exact E0|]. split; [exact E1|]. rewrite !eight_error. split; [ring|]. split; [field|].
  intros x y z J res H. unfold alignment_make, alignment_residual in H. cbn [fst snd length here there Nat.eqb assert_ bind] in H. injection H as _ <-.
  unfold total_error, vlist, vsub, transform, vadd, mapply. cbn [combine map fst snd fold_right shifted here there lin tra id3 vx vy vz m00 m01 m02 m10 m11 m12 m20 m21 m22]. nra.
Qed.

(** A problem whose errors all shrink, from 1 to 0 or 1/4, but spread: the run is stopped
    by the larger scale. *)
Definition spread (T : pose) : outcome (list mat * list (list R)) :=
  Ok (jacs, if Req_EM_T (vx (tra T)) 0 then off 1 1 else map (fun x => [x; 0; 0]) [0; 0; 0; 0; / 2; / 2; / 2; / 2]).
Lemma spread_stops max_iter : (2 <= max_iter)%Z ->
  exists r, optimize eigenvalues llt_solve sel spread max_iter (shifted 0 0 0) = Ok r /\ r_message r = LargerScaleThanPrevious /\ r_iteration r = 1%Z.
Proof.
  intros Hm. unfold optimize, opt_run. assert (OP : of_pose (shifted 0 0 0) = (qid, V3 0 0 0)) by (unfold of_pose, shifted; cbn [lin tra]; rewrite Prop_Offset.quat_id3; reflexivity).
  rewrite OP. replace (Z.to_nat max_iter) with (S (S (Z.to_nat (max_iter - 2)))) by lia. replace (max_iter <? 0)%Z with false by (symmetry; apply Z.ltb_ge; lia).
  pose proof Prop_Offset.dbl_max_1024 as DB. cbn [opt_loop]. rewrite shifted_make.
  assert (E0 : spread (shifted 0 0 0) = Ok (jacs, off 1 1)) by (unfold spread; cbn [shifted tra vx]; destruct (Req_EM_T 0 0); [reflexivity|congruence]).
  rewrite E0. cbn [bind]. unfold off at 1. cbn [map].
  change [[1; 0; 0]; [1; 0; 0]; [1; 0; 0]; [1; 0; 0]; [1; 0; 0]; [1; 0; 0]; [1; 0; 0]; [1; 0; 0]] with (off 1 1).
  rewrite eight_measured by lra. cbn [bind]. rewrite eight_sum.
  change (d_ltb exact dbl_max (6 * (1 * 1) + 2 * (1 * 1))) with (Rltb dbl_max (6 * (1 * 1) + 2 * (1 * 1))). rewrite lt_false by lra.
  change (d_ltb exact dbl_max (b_robust * 0)) with (Rltb dbl_max (b_robust * 0)). rewrite lt_false by lra.
  cbn [map compute_weights]. set (w := huber_derivative exact _ _). assert (W : 0 < w) by apply huber_pos.
  rewrite eight_step by exact W. cbn [bind]. replace (- ((6 * w * 1 + 2 * w * 1) / (6 * w + 2 * w))) with (-1) by (field; lra).
  assert (EC : check_convergence qid (V3 (-1) 0 0) = false).
  { unfold check_convergence. apply andb_false_intro2. apply lt_false. unfold vnorm, vdot. cbn [vx vy vz].
    replace (-1 * -1 + 0 * 0 + 0 * 0) with (1 * 1) by ring. rewrite sqrt_square by lra. lra. }
  rewrite EC, qmul_id. replace (vadd (V3 0 0 0) (V3 (-1) 0 0)) with (V3 (-1) 0 0) by (apply vec_ext; vcbn; ring). rewrite shifted_make.
  assert (E1 : spread (shifted (-1) 0 0) = Ok (jacs, [[0; 0; 0]; [0; 0; 0]; [0; 0; 0]; [0; 0; 0]; [/ 2; 0; 0]; [/ 2; 0; 0]; [/ 2; 0; 0]; [/ 2; 0; 0]]))
    by (unfold spread; cbn [shifted tra vx]; destruct (Req_EM_T (-1) 0); [lra|reflexivity]).
  rewrite E1. cbn [bind].
  assert (CE : compute_errors exact (list R) rdot [[0; 0; 0]; [0; 0; 0]; [0; 0; 0]; [0; 0; 0]; [/ 2; 0; 0]; [/ 2; 0; 0]; [/ 2; 0; 0]; [/ 2; 0; 0]] = [0; 0; 0; 0; / 4; / 4; / 4; / 4]).
  { assert (E : forall x, rdot [x; 0; 0] = x * x) by (intros x; unfold rdot; cbn [map fold_right]; ring).
    unfold compute_errors. cbn [map]. rewrite !E. replace (0 * 0) with 0 by ring. replace (/ 2 * / 2) with (/ 4) by field. reflexivity. }
  rewrite CE. unfold normalize_error_scale. rewrite scale_defined by (auto; discriminate).
  assert (MD : madv [0; 0; 0; 0; / 4; / 4; / 4; / 4] = / 8).
  { assert (M : med [0; 0; 0; 0; / 4; / 4; / 4; / 4] = / 8).
    { rewrite (med_eq _ [0; 0; 0; 0; / 4; / 4; / 4; / 4]); [|discriminate|apply Permutation_refl|repeat first [apply SSorted_cons|apply SSorted_nil|apply Forall_cons|apply Forall_nil]; lra]. cbv [length Nat.odd Nat.even negb Nat.div Nat.divmod fst nth Nat.sub]. lra. }
    unfold madv. rewrite M. cbn [map]. replace (Rabs (0 - / 8)) with (/ 8) by (rewrite Rabs_left; lra). replace (Rabs (/ 4 - / 8)) with (/ 8) by (rewrite Rabs_pos_eq; lra).
    rewrite (med_eq _ [/ 8; / 8; / 8; / 8; / 8; / 8; / 8; / 8]); [|discriminate|apply Permutation_refl|repeat first [apply SSorted_cons|apply SSorted_nil|apply Forall_cons|apply Forall_nil]; lra]. cbv [length Nat.odd Nat.even negb Nat.div Nat.divmod fst nth Nat.sub]. lra. }
  rewrite MD. cbn [bind].
  assert (SE : sum_errors exact [0; 0; 0; 0; / 4; / 4; / 4; / 4] = 1) by (unfold sum_errors; cbn [fold_left]; cbn [exact d_add d_of_Z]; change (D exact) with R in *; field).
  rewrite SE. change (d_ltb exact (6 * (1 * 1) + 2 * (1 * 1)) 1) with (Rltb (6 * (1 * 1) + 2 * (1 * 1)) 1). rewrite lt_false by lra.
  match goal with |- context [d_ltb exact ?a ?b] => change (d_ltb exact a b) with (Rltb a b); rewrite (lt_true a b) by (unfold b_robust; cbn [exact d_mul]; lra) end.
  eexists. split; [reflexivity|]. split; reflexivity.
Qed.
End Eight.
Print Assumptions C40_alignment_refuted.

(** There are such eigenvalues, solvers and selections: the alignment meets the hypotheses
    of C40_returns_the_worse_refuted, the spreading errors those of C40_scale_stop_partial. *)
Example C40_case : is_rotation (lin (shifted 0 0 0)) /\ exists eig llt sel,
  (exists r, optimize eig llt sel (alignment_make (here, there)) 20 (shifted 0 0 0) = Ok r /\ r_message r = LargerErrorThanPrevious /\ (0 < r_iteration r)%Z) /\
  (exists r, optimize eig llt sel spread 20 (shifted 0 0 0) = Ok r /\ r_message r = LargerScaleThanPrevious).
Proof.
  split; [exact origin_rotation|]. destruct ex_C40 as [H1 [H2 H3]]. exists diag_eig, (fun n A b i => b i / A i i), sel_sort. split.
  - destruct (C40_alignment_refuted _ _ _ H1 H2 H3 20 ltac:(lia)) as (r & J0 & r0 & J1 & r1 & E & _ & M & I & _). exists r. rewrite I. split; [exact E|]. split; [exact M|lia].
  - destruct (spread_stops _ _ _ H1 H2 H3 20 ltac:(lia)) as (r & E & M & _). eauto.
Qed.
