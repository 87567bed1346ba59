(** One Gauss-Newton step on a problem with identity Jacobian, and steps on degenerate
    problems. *)
From Coq Require Import List ZArith Bool Lia Lra Reals.
From Verif Require Import Base Arith LibModel SpecLib LibProofs LocModel PoseModel OptModel SpecPose SpecOpt AngleProofs RotProofs OptProofs.
Import ListNotations.
Open Scope R_scope.

Lemma lt_true a b : a < b -> Rltb a b = true. Proof. apply Rltb_spec. Qed.
Lemma lt_false a b : b <= a -> Rltb a b = false.
Proof. intros. apply Bool.not_true_iff_false. rewrite Rltb_spec. lra. Qed.

Lemma aa_zero : angle_axis_to_quaternion (V3 0 0 0) = qid.
Proof.
  unfold angle_axis_to_quaternion. assert (E : vnorm (V3 0 0 0) = 0).
  { unfold vnorm, vdot. cbn [vx vy vz]. replace (0 * 0 + 0 * 0 + 0 * 0) with 0 by ring. apply sqrt_0. }
  rewrite E. rewrite lt_true; auto. lra.
Qed.
Lemma aa_unit theta : unit (angle_axis_to_quaternion theta).
Proof.
  unfold angle_axis_to_quaternion. destruct (Rltb (vnorm theta) (/ 100000000)) eqn:E.
  - unfold unit, qnorm2, qid. cbn [qw qx qy qz]. ring.
  - apply rltb_false in E. destruct theta as [a b c]. unfold unit, qnorm2, vscale. cbn [qw qx qy qz vx vy vz].
    set (k := vnorm (V3 a b c)) in *. assert (Hk : 0 < k) by lra.
    assert (Ek : k * k = a * a + b * b + c * c).
    { unfold k, vnorm. rewrite sqrt_sqrt; unfold vdot; cbn [vx vy vz]; [auto|nra]. }
    pose proof (sin2_cos2 (k / 2)) as S. unfold Rsqr in S.
    replace (cos (k / 2) * cos (k / 2) + sin (k / 2) * (/ k * a) * (sin (k / 2) * (/ k * a)) +
      sin (k / 2) * (/ k * b) * (sin (k / 2) * (/ k * b)) + sin (k / 2) * (/ k * c) * (sin (k / 2) * (/ k * c)))
      with (cos (k / 2) * cos (k / 2) + sin (k / 2) * sin (k / 2) * ((a * a + b * b + c * c) / (k * k))) by (field; lra).
    rewrite <- Ek. replace (k * k / (k * k)) with 1 by (field; lra). lra.
Qed.
Lemma qmul_id q : qmul q qid = q.
Proof. destruct q. apply quat_ext; unfold qid; vcbn; ring. Qed.
Lemma vadd_zero t : vadd t (V3 0 0 0) = t.
Proof. destruct t. apply vec_ext; vcbn; ring. Qed.
Lemma make_of_pose p : is_rotation (lin p) -> make_pose (fst (of_pose p)) (snd (of_pose p)) = p.
Proof. intros H. unfold make_pose, of_pose. cbn [fst snd]. rewrite (proj2 (quat_of_ok _ H)). destruct p; auto. Qed.
Lemma converged_zero : check_convergence qid (V3 0 0 0) = true.
Proof.
  unfold check_convergence. assert (E : vnorm (V3 0 0 0) = 0).
  { unfold vnorm, vdot. cbn [vx vy vz]. replace (0 * 0 + 0 * 0 + 0 * 0) with 0 by ring. apply sqrt_0. }
  assert (E2 : qvec qid = V3 0 0 0) by reflexivity. rewrite E2, E. rewrite lt_true by lra. reflexivity.
Qed.

Lemma scale_defined sel v : valid_nth exact sel -> v <> [] -> scale exact sel b_robust v = Ok (b_robust * madv v).
Proof. intros H Hv. unfold scale. rewrite (mad_ok sel v H Hv). reflexivity. Qed.

Lemma well_shaped_checks (Js : list mat) rs : well_shaped Js rs -> length Js = length rs /\
  forallb (fun J => forallb (fun row => Nat.eqb (length row) 7) J) Js = true /\
  forallb (fun Jr => Nat.eqb (length (fst Jr)) (length (snd Jr))) (combine Js rs) = true.
Proof.
  induction 1 as [|J r Js rs [H1 H2] H [IH1 [IH2 IH3]]]; [auto|]. simpl. rewrite IH2, IH3, H1, Nat.eqb_refl. split; [auto|]. split; auto.
  rewrite andb_true_r. apply forallb_forall. intros row Hr. rewrite Forall_forall in H2. apply Nat.eqb_eq. auto.
Qed.

Section Steps.
Variable eigenvalues : nat -> (nat -> nat -> R) -> list R.
Variable llt_solve : nat -> (nat -> nat -> R) -> (nat -> R) -> (nat -> R).

Lemma degenerate_step q w (Js : list mat) rs : well_shaped Js rs -> length w = length rs ->
  (exists e, In e (eigenvalues 7%nat (normal_matrix Js)) /\ Rabs e < / 10) ->
  calc_update eigenvalues llt_solve q w Js rs = Ok (qid, V3 0 0 0).
Proof.
  intros HW Hl [e [He1 He2]]. destruct (well_shaped_checks _ _ HW) as [H1 [H2 H3]].
  unfold calc_update, weighted_update. rewrite Hl, H1, Nat.eqb_refl, H2, H3. cbn [assert_].
  assert (HD : is_degenerate eigenvalues 7 (fun i j => fold_right Rplus 0 (map (fun J => jtj J i j) Js)) = true).
  { unfold is_degenerate. apply existsb_exists. exists e. split; [exact He1|]. apply lt_true. auto. }
  rewrite HD. cbn [bind]. rewrite aa_zero. reflexivity.
Qed.


Lemma jtj_eye i j : (i < 7)%nat -> (j < 7)%nat -> jtj eye7 i j = if Nat.eqb i j then 1 else 0.
Proof.
  intros Hi Hj. unfold jtj, eye7.
  do 7 (destruct i as [|i]; [do 7 (destruct j as [|j]; [cbn; ring|]); lia|]). lia.
Qed.
Lemma jtr_eye a i : (i < 7)%nat -> jtr eye7 (along a) i = if Nat.eqb i 4 then a else 0.
Proof.
  intros Hi. unfold jtr, eye7, along. do 7 (destruct i as [|i]; [cbn; ring|]). lia.
Qed.

Hypothesis HE : correct_eigenvalues eigenvalues.
Hypothesis HS : correct_solver llt_solve.

Lemma eye_regular : is_degenerate eigenvalues 7 (fun i j => fold_right Rplus 0 (map (fun J => jtj J i j) [eye7])) = false.
Proof.
  assert (ED : forall i j, (i < 7)%nat -> (j < 7)%nat ->
    fold_right Rplus 0 (map (fun J => jtj J i j) [eye7]) = if Nat.eqb i j then 1 else 0).
  { intros i j Hi Hj. cbn [map fold_right]. rewrite jtj_eye; auto. ring. }
  unfold is_degenerate. apply Bool.not_true_iff_false. intros H. apply existsb_exists in H. destruct H as [e [He1 He2]].
  apply Rltb_spec in He2.
  assert (Dg : diagonal 7 (fun i j => fold_right Rplus 0 (map (fun J => jtj J i j) [eye7]))).
  { split.
    - intros i j Hi Hj Hn. rewrite ED by auto. apply Nat.eqb_neq in Hn. rewrite Hn. reflexivity.
    - intros i Hi. rewrite ED by auto. rewrite Nat.eqb_refl. lra. }
  destruct (HE 7%nat _ Dg e He1) as [i [Hi Ei]]. rewrite ED in Ei by auto. rewrite Nat.eqb_refl in Ei. subst e.
  rewrite Rabs_R1 in He2. lra.
Qed.

Lemma eye_step q w a : unit q -> 0 < w ->
  calc_update eigenvalues llt_solve q [w] [eye7] [along a] = Ok (qid, V3 (- a) 0 0).
Proof.
  intros U Hw. unfold calc_update, weighted_update.
  change (Nat.eqb (length [w]) (length [eye7])) with true. change (Nat.eqb (length [w]) (length [along a])) with true.
  change (forallb (fun J => forallb (fun row => Nat.eqb (length row) 7) J) [eye7]) with true.
  change (forallb (fun Jr : list (list R) * list R => Nat.eqb (length (fst Jr)) (length (snd Jr))) (combine [eye7] [along a])) with true.
  cbn [assert_]. rewrite eye_regular. cbv zeta. cbn [bind].
  set (B := fun k l : nat => sum_n 7 _). set (c := fun k : nat => sum_n 7 _).
  assert (EB : forall k l, (k < 6)%nat -> (l < 6)%nat -> B k l = w * (if Nat.eqb k l then if (k <? 3)%nat then / 4 else 1 else 0)).
  { intros k l Hk Hl. unfold B, sum_n. cbn [seq map fold_right combine fst snd].
    rewrite !jtj_eye by lia. cbn [Nat.eqb]. destruct q as [qa qb qc qd]. unfold unit, qnorm2 in U. cbn [qw qx qy qz] in U.
    assert (Hq : qa * qa = 1 - qb * qb - qc * qc - qd * qd) by lra.
    do 6 (destruct k as [|k]; [do 6 (destruct l as [|l]; [unfold make_m; cbn [left_mul_matrix nth Nat.add Nat.ltb Nat.leb Nat.eqb Nat.sub]; field [Hq]|]); lia|]). lia. }
  assert (Ec : forall k, (k < 6)%nat -> c k = if Nat.eqb k 3 then w * a else 0).
  { intros k Hk. unfold c, sum_n. cbn [seq map fold_right combine fst snd]. rewrite !jtr_eye by lia. cbn [Nat.eqb].
    do 6 (destruct k as [|k]; [unfold make_m; cbn [Nat.add Nat.ltb Nat.leb Nat.eqb Nat.sub]; ring|]). lia. }
  assert (PD : diagonal 6 B).
  { split.
    - intros i j Hi Hj Hn. rewrite EB by auto. apply Nat.eqb_neq in Hn. rewrite Hn. ring.
    - intros i Hi. rewrite EB by auto. rewrite Nat.eqb_refl. destruct (i <? 3)%nat; lra. }
  pose proof (HS 6%nat B c PD) as Hx. set (x := llt_solve 6%nat B c) in *. clearbody x.
  assert (X : forall i, (i < 6)%nat -> x i = if Nat.eqb i 3 then a else 0).
  { intros i Hi. specialize (Hx i Hi). rewrite (Ec i Hi), (EB i i) in Hx by lia.
    apply Rmult_eq_reg_l with w; [|lra].
    do 6 (destruct i as [|i]; [cbn [Nat.eqb Nat.ltb Nat.leb] in *; lra|]). lia. }
  rewrite !X by lia. cbn [Nat.eqb]. rewrite Ropp_0, aa_zero. reflexivity.
Qed.
End Steps.

Lemma med1 a : med [a] = a. Proof. reflexivity. Qed.
Lemma scale1 sel a : valid_nth exact sel -> scale exact sel b_robust [a] = Ok 0.
Proof.
  intros H. rewrite scale_defined by (auto; discriminate). f_equal. unfold madv. cbn [map]. rewrite !med1.
  replace (a - a) with 0 by ring. rewrite Rabs_R0. ring.
Qed.
Lemma dbl_max_big : 8 <= dbl_max.
Proof.
  unfold dbl_max. assert (H1 : 1 <= 2 ^ 52) by (apply pow_R1_Rle; lra).
  assert (H2 : / 2 ^ 52 <= 1) by (rewrite <- Rinv_1; apply Rinv_le_contravar; lra).
  assert (H3 : 1 <= 2 ^ 1020) by (apply pow_R1_Rle; lra).
  replace 1023%nat with (3 + 1020)%nat by reflexivity. rewrite pow_add.
  replace (2 ^ 3) with 8 by ring. nra.
Qed.
Lemma huber_pos e : 0 < huber_derivative exact e k_robust.
Proof.
  unfold huber_derivative. change (0 < (if Rltb e (k_robust * k_robust) then IZR 1 else k_robust / sqrt e)).
  destruct (Rltb e (k_robust * k_robust)) eqn:E; [lra|]. apply rltb_false in E. unfold k_robust in *.
  apply Rdiv_lt_0_compat; [lra|]. apply sqrt_lt_R0. lra.
Qed.
