(** Proofs about height, roll and pitch in the EKF localizer, over the real numbers. *)
From Coq Require Import List ZArith Bool Lia Lra Reals Psatz.
From Verif Require Import Base Arith AngleProofs EkfModel SpecHeight EkfNodeProofs QueueProofs HeightProofs.
Import ListNotations.
Local Open Scope R_scope.

Section Filter.
Variable q : R.
(** The filter holds the estimate s. *)
Definition holds (f : filter1d exact) (s : dated) : Prop :=
  f_init _ f = true /\ f_proc _ f = q /\ 0 < f_stddev _ f /\ s = (f_x _ f, f_stddev _ f * f_stddev _ f, f_time _ f).
Lemma update_fuses f s z v t : holds f s -> 0 < v -> holds (f1_update exact f z (sqrt v) t) (fuse q s (z, v, t)).
Proof.
  intros (I & P & DV & ->) V. unfold f1_update. rewrite I. cbv zeta. unfold holds. cbn [f_init f_proc f_stddev f_x f_time].
  split; [reflexivity|]. split; [exact P|]. cbn [d_mul d_add d_sub d_div d_sqrt d_of_Z exact]. unfold fuse. cbv zeta.
  unfold seconds. cbn [d_div d_of_Z exact]. rewrite P.
  set (dt := IZR (t - f_time exact f) / 1000000000). set (sd := f_stddev exact f) in *. change (D exact) with R in *.
  replace ((q * dt) ^ 2) with (q * dt * (q * dt)) by ring. set (p' := sd * sd + q * dt * (q * dt)).
  assert (Pp : 0 < p') by (unfold p'; assert (0 <= q * dt * (q * dt)) by apply Rle_0_sqr; nra).
  rewrite !sqrt_sqrt by lra. set (g := p' / (p' + v)).
  assert (G : 0 < g < 1).
  { unfold g. split; [apply Rdiv_lt_0_compat; lra|]. apply Rmult_lt_reg_r with (p' + v); [lra|]. unfold Rdiv. rewrite Rmult_assoc, Rinv_l by lra. lra. }
  assert (0 < sqrt (1 - g)) by (apply sqrt_lt_R0; lra). assert (0 < sqrt p') by (apply sqrt_lt_R0; lra).
  split; [apply Rmult_lt_0_compat; assumption|].
  replace (sqrt (1 - g) * sqrt p' * (sqrt (1 - g) * sqrt p')) with ((sqrt (1 - g) * sqrt (1 - g)) * (sqrt p' * sqrt p')) by ring.
  rewrite !sqrt_sqrt by lra. reflexivity.
Qed.
Lemma init_holds (f : filter1d exact) z v t : f_init _ f = false -> f_proc _ f = q -> 0 < v -> holds (f1_update exact f z (sqrt v) t) (z, v, t).
Proof.
  intros I P V. unfold f1_update. rewrite I. unfold holds. cbn. split; [reflexivity|]. split; [exact P|]. split; [apply sqrt_lt_R0; exact V|].
  change (D exact) with R. rewrite sqrt_sqrt by lra. reflexivity.
Qed.
(** The share of a measurement lies strictly between zero and one. *)
Lemma fuse_between s z v t : 0 < snd (fst s) -> 0 < v -> exists w, 0 < w < 1 /\ mean (fuse q s (z, v, t)) = mean s + w * (z - mean s) /\ 0 < snd (fst (fuse q s (z, v, t))).
Proof.
  destruct s as [[x p] t0]. cbn [fst snd]. intros P V. unfold fuse, mean. cbn [fst snd].
  set (p' := p + (q * (IZR (t - t0) / 1000000000)) ^ 2). assert (0 < p') by (unfold p'; assert (0 <= (q * (IZR (t - t0) / 1000000000)) ^ 2) by apply pow2_ge_0; lra).
  exists (p' / (p' + v)). assert (G : 0 < p' / (p' + v) < 1).
  { split; [apply Rdiv_lt_0_compat; lra|]. apply Rmult_lt_reg_r with (p' + v); [lra|]. unfold Rdiv. rewrite Rmult_assoc, Rinv_l by lra. lra. }
  split; [exact G|]. split; [reflexivity|]. apply Rmult_lt_0_compat; lra.
Qed.
End Filter.

Section Node.
Variable roundf : R -> option Z.
Variable sin cos : R -> R.
Variable atan2 : R -> R -> R.
Variable neg : R -> R.
Variable Orient : Type.
Variable get_yaw get_roll get_pitch : Orient -> R.
Variable K : kalman exact.
Variable prm : params exact.
Notation step := (node_step exact roundf sin cos atan2 neg Orient get_yaw get_roll get_pitch K prm).
Notation run := (node_run exact roundf sin cos atan2 neg Orient get_yaw get_roll get_pitch K prm).
Notation given := (given exact Orient get_roll get_pitch).
Notation variance := (variance exact Orient).
Notation measured := (measured Orient get_roll get_pitch).
Notation uncertain := (uncertain Orient).
Notation poses_of := (poses_of exact Orient).
Notation filter_of := (filter_of exact Orient K).
Notation feed := (feed exact Orient get_roll get_pitch).

Lemma feeds_fuse k l : (2 <= k <= 4)%nat -> forall f s, holds (drift k) f s -> Forall uncertain l ->
  holds (drift k) (fold_left (feed k) l f) (fold_left (fuse (drift k)) (map (measured k) l) s).
Proof.
  intros Hk. induction l as [|m l IH]; intros f s H F; [exact H|]. inversion F as [|? ? Hm Fl]; subst. cbn [fold_left map]. apply IH; [|exact Fl].
  apply update_fuses; [exact H|exact (Hm k Hk)].
Qed.
Lemma fresh_filter k : (2 <= k <= 4)%nat -> f_init _ (filter_of k (node_new _ _ _)) = false /\ f_proc _ (filter_of k (node_new _ _ _)) = drift k.
Proof. intros Hk. destruct k as [|[|[|[|[|k]]]]]; try lia; split; reflexivity. Qed.
(** What the filters hold after a history. *)
Lemma run_holds k h n : (2 <= k <= 4)%nat -> Forall uncertain (poses_of h) -> run h = Ok n ->
  match poses_of h with [] => filter_of k n = filter_of k (node_new _ _ _) | m :: l => holds (drift k) (filter_of k n) (fold_left (fuse (drift k)) (map (measured k) l) (measured k m)) end.
Proof.
  intros Hk F E. rewrite (feed_all _ _ _ _ _ _ _ _ _ _ _ _ k h Hk _ _ E). destruct (poses_of h) as [|m l]; [reflexivity|].
  inversion F as [|? ? Hm Fl]; subst. cbn [fold_left]. apply feeds_fuse; auto. destruct (fresh_filter k Hk) as [I P]. apply init_holds; auto.
Qed.
Lemma run_snoc h e n' : run (h ++ [e]) = Ok n' -> exists n, run h = Ok n /\ step n e = Ok n'.
Proof.
  unfold node_run. generalize (node_new exact Orient K). induction h as [|a h IH]; intros n0; cbn [app foldM].
  - destruct (step n0 e) as [n1| | | | |] eqn:E; try discriminate. cbn [bind]. intros H. injection H as <-. eauto.
  - destruct (step n0 a) as [n1| | | | |] eqn:E; try discriminate. cbn [bind]. apply IH.
Qed.
Lemma poses_initial h : poses_of h = [] -> Forall (fun e => ~ is_initial exact Orient e) h.
Proof.
  induction h as [|e h IH]; intros P; [constructor|]. unfold SpecHeight.poses_of in *. cbn [flat_map] in P. apply app_eq_nil in P. destruct P as [P1 P2].
  constructor; [|apply IH; exact P2]. destruct e; cbn in *; try tauto; discriminate.
Qed.
(** A tick before the first pose publishes nothing. *)
Lemma silent h n t1 t2 t3 t4 t5 n' : poses_of h = [] -> run h = Ok n -> step n (EvTimer _ _ t1 t2 t3 t4 t5) = Ok n' -> n_out _ _ _ n' = n_out _ _ _ n.
Proof.
  intros P E S. assert (B : Forall (fun e => ~ is_initial exact Orient e) h).
  { clear E S. induction h as [|e h IH]; [constructor|]. unfold SpecHeight.poses_of in *. cbn [flat_map] in P. apply app_eq_nil in P. destruct P as [P1 P2].
    constructor; [|apply IH; exact P2]. destruct e; cbn in *; try tauto; discriminate. }
  destruct (before_initial _ _ _ _ _ _ _ _ _ _ _ _ h n B E) as [N _]. cbn [node_step] in S. unfold timer_callback in S. rewrite N in S. injection S as <-. reflexivity.
Qed.
End Node.
