(** Runs of the optimiser. *)
From Coq Require Import List ZArith Bool Lia.
From Verif Require Import Base Arith LibModel LocModel SpecOpt.
Import ListNotations.

Section Runs.
Variable A : arith.
Variable Quat Vec Pose Jac Res : Type.
Variable make : Pose -> outcome (list Jac * list Res).
Variable of_pose : Pose -> Quat * Vec.
Variable make_pose : Quat -> Vec -> Pose.
Variable dot : Res -> D A.
Variable calc_update : Quat -> list (D A) -> list Jac -> list Res -> outcome (Quat * Vec).
Variable qmul : Quat -> Quat -> Quat.
Variable vadd : Vec -> Vec -> Vec.
Variable converged : Quat -> Vec -> bool.
Variable sel : selector A.
Variable b_scale k_huber tiny dmax : D A.

Notation loop := (opt_loop A Quat Vec Pose Jac Res make make_pose dot calc_update qmul vadd converged sel b_scale k_huber tiny).
Notation run := (opt_run A Quat Vec Pose Jac Res make of_pose make_pose dot calc_update qmul vadd converged sel b_scale k_huber tiny dmax).
Notation measured := (measured A Quat Vec Pose Jac Res make make_pose dot sel b_scale).
Notation step := (step A Quat Vec Jac Res dot calc_update k_huber tiny).
Notation iterations := (iterations A Quat Vec Pose Jac Res make make_pose dot calc_update qmul vadd converged sel b_scale k_huber tiny).

(** The verdict at the end of the iterations. *)
Definition verdict (left iter : nat) (l : list (D A * D A)) q t e s (r : opt_result A Pose) : Prop :=
  (r_iteration r = Z.of_nat iter + Z.of_nat (length l))%Z /\
  match r_message r with
  | EmptyInput => (length l < left)%nat /\ r_pose r = make_pose q t /\ r_success r = false /\
      r_error r = d_of_Z A 0 /\ r_error_scale r = d_of_Z A 0 /\
      exists J, make (make_pose q t) = Ok (J, [])
  | LargerErrorThanPrevious => (length l < left)%nat /\ r_pose r = make_pose q t /\ r_success r = true /\
      d_ltb A e (r_error r) = true /\ exists J res, measured q t J res (r_error r) (r_error_scale r)
  | LargerScaleThanPrevious => (length l < left)%nat /\ r_pose r = make_pose q t /\ r_success r = true /\
      d_ltb A e (r_error r) = false /\ d_ltb A s (r_error_scale r) = true /\
      exists J res, measured q t J res (r_error r) (r_error_scale r)
  | SuccessfullyConverged => (length l < left)%nat /\ r_success r = true /\
      d_ltb A e (r_error r) = false /\ d_ltb A s (r_error_scale r) = false /\
      exists J res dq dt, measured q t J res (r_error r) (r_error_scale r) /\
        step q J res (r_error_scale r) dq dt /\ converged dq dt = true /\
        r_pose r = make_pose (qmul q dq) (vadd t dt)
  | ReachedMaximumIteration => length l = left /\ r_pose r = make_pose q t /\ r_success r = false /\
      r_error r = e /\ r_error_scale r = s
  end.

Lemma loop_trace left iter q t e s r : loop left (Z.of_nat iter) q t e s = Ok r ->
  exists l q' t' e' s', iterations q t e s l q' t' e' s' /\ verdict left iter l q' t' e' s' r.
Proof.
  revert iter q t e s. induction left as [|left IH]; intros iter q t e s H.
  - simpl in H. inversion H; subst r. exists [], q, t, e, s. split; [constructor|].
    unfold verdict, reached_maximum. cbn. split; [lia|auto].
  - cbn [opt_loop] in H. destruct (make (make_pose q t)) as [[J rs]| | | | |] eqn:EM; try discriminate. cbn [bind] in H.
    destruct rs as [|x rs].
    { inversion H; subst r. exists [], q, t, e, s. split; [constructor|]. unfold verdict, empty_input. cbn.
      split; [lia|]. repeat split; auto; [lia|]. eauto. }
    set (R := x :: rs) in *. destruct (normalize_error_scale A sel b_scale tiny (compute_errors A Res dot R)) as [[nm sc]| | | | |] eqn:EN; try discriminate.
    cbn [bind] in H. unfold normalize_error_scale in EN.
    destruct (scale A sel b_scale (compute_errors A Res dot R)) as [sc'| | | | |] eqn:ES; try discriminate. cbn [bind] in EN.
    injection EN as EN1 EN2. subst sc'.
    set (er := sum_errors A (compute_errors A Res dot R)) in *.
    assert (HM : measured q t J R er sc).
    { split; auto. split; [discriminate|]. split; [reflexivity|exact ES]. }
    destruct (d_ltb A e er) eqn:E1.
    { inversion H; subst r. exists [], q, t, e, s. split; [constructor|]. unfold verdict, larger_error. cbn.
      split; [lia|]. split; [lia|]. split; auto. split; auto. split; auto. eauto. }
    destruct (d_ltb A s sc) eqn:E2.
    { inversion H; subst r. exists [], q, t, e, s. split; [constructor|]. unfold verdict, larger_scale. cbn.
      split; [lia|]. split; [lia|]. split; auto. split; auto. split; auto. split; auto. eauto. }
    destruct (calc_update q (compute_weights A k_huber nm) J R) as [[dq dt]| | | | |] eqn:EU; try discriminate. cbn [bind] in H.
    assert (HS : step q J R sc dq dt).
    { unfold SpecOpt.step. rewrite <- EU. f_equal. unfold compute_weights. rewrite <- EN1. unfold compute_errors, R. cbn [map]. f_equal. rewrite !map_map. reflexivity. }
    destruct (converged dq dt) eqn:EC.
    { inversion H; subst r. exists [], q, t, e, s. split; [constructor|]. unfold verdict, successfully_converged. cbn.
      split; [lia|]. split; [lia|]. split; auto. split; auto. split; auto. exists J, R, dq, dt. auto. }
    replace (Z.of_nat iter + 1)%Z with (Z.of_nat (S iter)) in H by lia.
    destruct (IH (S iter) _ _ _ _ H) as [l [q' [t' [e' [s' [I V]]]]]].
    exists ((er, sc) :: l), q', t', e', s'. split.
    + eapply it_more; eauto.
    + destruct V as [V1 V2]. split; [cbn [length]; lia|]. cbn [length].
      destruct (r_message r); destruct V2 as [V2 V3]; split; auto; lia.
Qed.

(** The run, for non-negative max_iter; for a negative one see the model. *)
Lemma run_trace max_iter p r : (0 <= max_iter)%Z -> run max_iter p = Ok r ->
  exists l q' t' e' s', iterations (fst (of_pose p)) (snd (of_pose p)) dmax dmax l q' t' e' s' /\
    verdict (Z.to_nat max_iter) 0 l q' t' e' s' r.
Proof.
  intros Hm H. unfold opt_run in H. destruct (of_pose p) as [q t]. cbn [fst snd].
  destruct (loop (Z.to_nat max_iter) 0%Z q t dmax dmax) as [r'| | | | |] eqn:E; try discriminate. cbn [bind] in H.
  replace (max_iter <? 0)%Z with false in H by (symmetry; apply Z.ltb_ge; lia). inversion H; subst r'.
  apply (loop_trace _ 0 _ _ _ _ _ E).
Qed.

Lemma iterations_decrease q t e s l q' t' e' s' : iterations q t e s l q' t' e' s' ->
  never_increases (d_ltb A) (e :: map fst l) /\ never_increases (d_ltb A) (s :: map snd l).
Proof.
  induction 1 as [|q t e0 s0 J r e s dq dt l q' t' e' s' HM H1 H2 HS HC HI [IH1 IH2]]; [split; exact I|].
  cbn [map fst snd]. split; cbn [never_increases]; split; auto.
Qed.

(** An invariant of the orientation, kept by the steps, holds of every result. *)
Lemma iterations_inv (Inv : Quat -> Prop) q t e s l q' t' e' s' :
  (forall q w J r dq dt, Inv q -> calc_update q w J r = Ok (dq, dt) -> Inv (qmul q dq)) ->
  iterations q t e s l q' t' e' s' -> Inv q -> Inv q'.
Proof.
  intros Hk H. induction H as [|q t e0 s0 J r e s dq dt l q' t' e' s' HM H1 H2 HS HC HI IH]; auto.
  intros Hq. apply IH. apply (Hk q _ J r dq dt Hq HS).
Qed.
Lemma run_inv (Inv : Quat -> Prop) max_iter p r :
  (forall q w J r dq dt, Inv q -> calc_update q w J r = Ok (dq, dt) -> Inv (qmul q dq)) ->
  Inv (fst (of_pose p)) -> run max_iter p = Ok r ->
  exists q t, r_pose r = make_pose q t /\ Inv q.
Proof.
  intros Hk H0 H. destruct (Z_lt_le_dec max_iter 0) as [Hm|Hm].
  - unfold opt_run in H. destruct (of_pose p) as [q t]. replace (Z.to_nat max_iter) with 0%nat in H by lia. cbn [opt_loop bind] in H.
    replace (max_iter <? 0)%Z with true in H by (symmetry; apply Z.ltb_lt; lia). inversion H. cbn. eauto.
  - destruct (run_trace max_iter p r Hm H) as [l [q' [t' [e' [s' [I V]]]]]].
    pose proof (iterations_inv Inv _ _ _ _ _ _ _ _ _ Hk I H0) as Hq.
    destruct V as [_ V]. destruct (r_message r); try (destruct V as [_ [V _]]; eauto; fail).
    destruct V as [_ [_ [_ [_ [J [res [dq [dt [_ [V1 [_ V2]]]]]]]]]]]. exists (qmul q' dq), (vadd t' dt). split; auto.
    apply (Hk q' _ J res dq dt Hq V1).
Qed.

(** Definedness. *)
Lemma loop_defined left iter q t e s :
  (forall p, exists J r, make p = Ok (J, r)) ->
  (forall v, v <> [] -> exists x, scale A sel b_scale v = Ok x) ->
  (forall q t J r w, make (make_pose q t) = Ok (J, r) -> length w = length r -> exists dq dt, calc_update q w J r = Ok (dq, dt)) ->
  exists r, loop left iter q t e s = Ok r.
Proof.
  intros HM HSc HU. revert iter q t e s. induction left as [|left IH]; intros iter q t e s; cbn [opt_loop]; [eauto|].
  destruct (HM (make_pose q t)) as [J [rs EM]]. rewrite EM. cbn [bind]. destruct rs as [|x rs]; [eauto|].
  unfold normalize_error_scale. destruct (HSc (compute_errors A Res dot (x :: rs))) as [sc ES]; [discriminate|]. rewrite ES. cbn [bind].
  destruct (d_ltb A e _); [eauto|]. destruct (d_ltb A s sc); [eauto|].
  match goal with |- context [calc_update q ?w J (x :: rs)] => destruct (HU q t J (x :: rs) w EM) as [dq [dt EU]] end.
  { unfold compute_weights, compute_errors. rewrite !map_length. reflexivity. }
  rewrite EU. cbn [bind]. destruct (converged dq dt); eauto.
Qed.
End Runs.
