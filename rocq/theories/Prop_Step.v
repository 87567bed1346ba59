(** C87: what one step of the optimiser achieves. *)
From Coq Require Import List ZArith Bool Reals Lra Lia.
From Verif Require Import Base Arith LibModel LocModel PoseModel OptModel SpecPose SpecOpt SpecStep
  StepProofs SolverProofs Prop_Lib.
Import ListNotations.
Open Scope R_scope.

(** ** C87 For positive weights and a problem that is not degenerate, the increment is the
    one that minimises the weighted squared length of r + J x over all the directions x in
    which a pose can move. *)
Theorem C87_step_minimises eig llt q w Js rs :
  solves_positive_definite llt ->
  unit q -> well_shaped Js rs -> length w = length Js -> Forall (fun c => 0 < c) w ->
  eigenvalues_of 7 (normal_matrix Js) (eig 7%nat (normal_matrix Js)) ->
  (forall e, In e (eig 7%nat (normal_matrix Js)) -> / 10 <= Rabs e) ->
  exists x,
    calc_update eig llt q w Js rs =
      Ok (angle_axis_to_quaternion (V3 (x 0%nat) (x 1%nat) (x 2%nat)), V3 (x 3%nat) (x 4%nat) (x 5%nat)) /\
    forall y, linear_error w Js rs (tangent q x) <= linear_error w Js rs (tangent q y).
Proof. exact (fun HL Uq HS Hlen Hw HE Hnd => step_minimises eig llt HL q Uq w Js rs HS Hlen Hw HE Hnd). Qed.
Print Assumptions C87_step_minimises.

(** The weights of a run are the slopes of Huber's loss (for the constant k of the code) at
    the squared errors divided by their scale, and they are positive, so every step of a
    run is such a minimiser. *)
Theorem C87_run_steps_minimise eig llt q Js rs sc dq dt :
  solves_positive_definite llt ->
  unit q -> well_shaped Js rs ->
  eigenvalues_of 7 (normal_matrix Js) (eig 7%nat (normal_matrix Js)) ->
  (forall e, In e (eig 7%nat (normal_matrix Js)) -> / 10 <= Rabs e) ->
  SpecOpt.step exact quat vec mat (list R) rdot (calc_update eig llt) k_robust tiny_robust q Js rs sc dq dt ->
  exists w x,
    length w = length rs /\
    (forall i r c, nth_error rs i = Some r -> nth_error w i = Some c ->
       0 < c <= 1 /\
       let e := total_error [r] / (sc + tiny_robust) in
       0 < e -> derivable_pt_lim (fun a => huber exact a k_robust) e c) /\
    dq = angle_axis_to_quaternion (V3 (x 0%nat) (x 1%nat) (x 2%nat)) /\
    dt = V3 (x 3%nat) (x 4%nat) (x 5%nat) /\
    forall y, linear_error w Js rs (tangent q x) <= linear_error w Js rs (tangent q y).
Proof.
  intros HL Uq HS HE Hnd H. unfold SpecOpt.step in H.
  set (w := map (fun e => huber_derivative exact (d_div exact e (d_add exact sc tiny_robust)) k_robust) (map rdot rs)) in H.
  assert (Hk : 0 < k_robust) by (unfold k_robust; lra).
  assert (Lw : length w = length rs) by (unfold w; rewrite !map_length; reflexivity).
  assert (HW : forall i r c, nth_error rs i = Some r -> nth_error w i = Some c ->
    c = huber_derivative exact (total_error [r] / (sc + tiny_robust)) k_robust).
  { intros i r c Hr Hc. unfold w in Hc. rewrite map_map, nth_error_map, Hr in Hc. cbn [option_map] in Hc.
    injection Hc as <-. f_equal. change (rdot r / (sc + tiny_robust) = total_error [r] / (sc + tiny_robust)).
    f_equal. unfold total_error, rdot. cbn [map fold_right]. ring. }
  assert (HP : Forall (fun c => 0 < c) w).
  { apply Forall_forall. intros c Hc. apply In_nth_error in Hc. destruct Hc as [i Hc].
    destruct (nth_error rs i) as [r|] eqn:Er.
    - rewrite (HW i r c Er Hc). apply (C42_weight_bounds _ _ _ Hk (Rle_refl _)).
    - apply nth_error_None in Er. assert (i < length w)%nat; [|lia].
      apply nth_error_Some. intros N. pose proof (eq_trans (eq_sym N) Hc). discriminate. }
  assert (LJ : length w = length Js) by (rewrite Lw; clear - HS; induction HS; cbn [length]; auto).
  destruct (C87_step_minimises eig llt q w Js rs HL Uq HS LJ HP HE Hnd) as [x [Ex Hx]].
  pose proof (eq_trans (eq_sym Ex) H) as H2. injection H2 as <- <-. clear H.
  exists w, x. split; auto. split; [|auto].
  intros i r c Hr Hc. rewrite (HW i r c Hr Hc). split.
  - destruct (C42_weight_bounds (total_error [r] / (sc + tiny_robust)) _ k_robust Hk (Rle_refl _)) as [[A1 A2] _]. auto.
  - intros e He. apply (C42_huber_derivative e k_robust Hk He).
Qed.
Print Assumptions C87_run_steps_minimise.

(** Non-vacuity: a problem with the identity as Jacobian and residual (0,0,0,0,3,0,0), for
    which the step is -3 along x; solvers meeting the hypotheses exist. *)
Definition list_eig (n : nat) (A : nat -> nat -> R) : list R := map (fun i => A i i) (seq 0 n).
Lemma eye_normal i j : (i < 7)%nat -> (j < 7)%nat -> normal_matrix [eye7] i j = if Nat.eqb i j then 1 else 0.
Proof.
  intros Hi Hj.
  do 7 (destruct i as [|i]; [do 7 (destruct j as [|j]; [unfold normal_matrix, eye7; cbn; ring|]); lia|]). lia.
Qed.
Example ex_C87 : exists llt dq dt,
  solves_positive_definite llt /\ unit qid /\ well_shaped [eye7] [along 3] /\
  eigenvalues_of 7 (normal_matrix [eye7]) (list_eig 7 (normal_matrix [eye7])) /\
  (forall e, In e (list_eig 7 (normal_matrix [eye7])) -> / 10 <= Rabs e) /\
  SpecOpt.step exact quat vec mat (list R) rdot (calc_update list_eig llt) k_robust tiny_robust qid
    [eye7] [along 3] 1 dq dt /\ linear_error [1] [eye7] [along 3] (tangent qid (fun k => match k with 3%nat => -3 | _ => 0 end)) = 0.
Proof.
  destruct solver_exists as [llt HL]. exists llt.
  assert (U : unit qid) by (unfold unit, qnorm2, qid; cbn; ring).
  assert (S : well_shaped [eye7] [along 3]).
  { constructor; [|constructor]. split; [reflexivity|]. unfold eye7. repeat constructor. }
  assert (EL : forall e, In e (list_eig 7 (normal_matrix [eye7])) -> e = 1).
  { intros e He. unfold list_eig in He. apply in_map_iff in He. destruct He as [i [<- Hi]]. apply in_seq in Hi.
    rewrite eye_normal by lia. rewrite Nat.eqb_refl. reflexivity. }
  assert (App : forall x i, (i < 7)%nat -> total 7 (fun j => normal_matrix [eye7] i j * x j) = x i).
  { intros x i Hi. rewrite (total_ext 7 _ (fun j => (if Nat.eqb i j then 1 else 0) * x j))
      by (intros j Hj; rewrite eye_normal by auto; reflexivity).
    unfold total. do 7 (destruct i as [|i]; [cbn; ring|]). lia. }
  assert (EV : eigenvalues_of 7 (normal_matrix [eye7]) (list_eig 7 (normal_matrix [eye7]))).
  { split.
    - intros e He. rewrite (EL e He). exists (fun _ => 1). split; [exists 0%nat; split; [lia|lra]|].
      intros i Hi. rewrite (App (fun _ => 1)) by auto. ring.
    - intros x. exists 1. split.
      + unfold list_eig. cbn [seq map]. left. rewrite eye_normal by lia. reflexivity.
      + right. unfold quad. rewrite Rmult_1_l. apply total_ext. intros i Hi.
        rewrite (total_ext 7 _ (fun j => x i * (normal_matrix [eye7] i j * x j))) by (intros; ring).
        rewrite total_scal, App by auto. ring. }
  assert (ND : forall e, In e (list_eig 7 (normal_matrix [eye7])) -> / 10 <= Rabs e).
  { intros e He. rewrite (EL e He). rewrite Rabs_R1. lra. }
  set (w := map (fun e => huber_derivative exact (d_div exact e (d_add exact 1 tiny_robust)) k_robust) (map rdot [along 3])).
  destruct (C87_step_minimises list_eig llt qid w [eye7] [along 3] HL U S eq_refl) as [x [E _]]; auto.
  { unfold w. cbn [map]. constructor; [|constructor].
    apply (C42_weight_bounds _ _ k_robust ltac:(unfold k_robust; lra) (Rle_refl _)). }
  eexists. eexists. split; [exact HL|]. split; [exact U|]. split; [exact S|]. split; [exact EV|]. split; [exact ND|].
  split; [exact E|].
  unfold linear_error, along, eye7, tangent, coords, hamilton, row_dot, qid, vdot, vadd, vscale, vcross, qvec. cbn. field.
Qed.
