(** Curvature in exact arithmetic. *)
From Coq Require Import List ZArith Reals Bool Lia Lra.
From Verif Require Import Base Arith ExtractModel Spec SpecReal ConvProofs.
Import ListNotations.
Open Scope R_scope.

Arguments rsum : simpl never.

Lemma fold_sum (f : nat -> R) l : forall s, fold_left (fun a k => a + f k) l s = s + rsum f l.
Proof.
  induction l as [|k l IH]; intros s; simpl; [unfold rsum; simpl; lra|]. rewrite IH. change (rsum f (k :: l)) with (f k + rsum f l). lra.
Qed.
Lemma rsum_cons f k l : rsum f (k :: l) = f k + rsum f l.
Proof. reflexivity. Qed.
Lemma rsum_app f l1 l2 : rsum f (l1 ++ l2) = rsum f l1 + rsum f l2.
Proof. induction l1 as [|k l1 IH]; simpl; [unfold rsum; simpl; lra|]. rewrite !rsum_cons, IH. lra. Qed.
Lemma rsum_ext f g l : (forall k, In k l -> f k = g k) -> rsum f l = rsum g l.
Proof.
  intros H. induction l as [|k l IH]; auto. rewrite !rsum_cons, IH, H; auto; intros; try apply H; simpl; auto.
Qed.
Lemma rsum_plus f g l : rsum (fun k => f k + g k) l = rsum f l + rsum g l.
Proof. induction l as [|k l IH]; [unfold rsum; simpl; lra|]. rewrite !rsum_cons, IH. lra. Qed.
Lemma rsum_scale c f l : rsum (fun k => c * f k) l = c * rsum f l.
Proof. induction l as [|k l IH]; [unfold rsum; simpl; lra|]. rewrite !rsum_cons, IH. lra. Qed.
Lemma rsum_const c l : rsum (fun _ => c) l = INR (length l) * c.
Proof. induction l as [|k l IH]; [unfold rsum; simpl; lra|]. rewrite rsum_cons, IH. simpl length. rewrite S_INR. lra. Qed.
Lemma rsum_map (h : nat -> nat) f l : rsum f (map h l) = rsum (fun k => f (h k)) l.
Proof. induction l as [|k l IH]; auto. simpl. rewrite !rsum_cons, IH. auto. Qed.
Lemma rsum_rev f l : rsum f (rev l) = rsum f l.
Proof.
  induction l as [|k l IH]; auto. simpl. rewrite rsum_app, IH. rewrite (rsum_cons f k l).
  unfold rsum at 2. simpl. lra.
Qed.
(** counting down *)
Lemma rev_seq n : forall s, rev (seq s n) = map (fun k => (2 * s + n - 1 - k)%nat) (seq s n).
Proof.
  induction n as [|n IH]; intros s; auto.
  rewrite seq_S at 1. rewrite rev_app_distr. simpl rev at 1. simpl app.
  simpl seq. simpl map. f_equal; [lia|]. rewrite IH.
  rewrite <- seq_shift, map_map. apply map_ext_in. intros k Hk. apply in_seq in Hk. lia.
Qed.

Notation rn r k := (nth k r 0).

(** the window sum is the sum of second differences about the centre *)
Lemma curv_sum_exact p (r : list R) i :
  curv_sum exact p r i = second_diff (fun k => rn r k) p (i + p).
Proof.
  unfold curv_sum, second_diff. cbn [exact d_add d_mul d_of_Z D].
  rewrite (fold_sum (fun k => rn r (i + k) * weight_at exact p k)), Rplus_0_l.
  replace (2 * p + 1)%nat with (p + (1 + p))%nat by lia. rewrite seq_app, rsum_app. simpl seq.
  rewrite rsum_cons.
  assert (Hc : weight_at exact p p = - (2 * INR p)).
  { unfold weight_at. rewrite Nat.eqb_refl. cbn [exact d_mul d_of_Z]. rewrite <- INR_IZR_INZ. lra. }
  rewrite Hc.
  rewrite (rsum_ext (fun k => rn r (i + k) * weight_at exact p k) (fun k => rn r (i + k)) (seq 0 p)).
  2:{ intros k Hk. apply in_seq in Hk. unfold weight_at. destruct (k =? p)%nat eqn:E; [apply Nat.eqb_eq in E; lia|].
      cbn [exact d_of_Z]. lra. }
  rewrite (rsum_ext (fun k => rn r (i + k) * weight_at exact p k) (fun k => rn r (i + k)) (seq (S p) p)).
  2:{ intros k Hk. apply in_seq in Hk. unfold weight_at. destruct (k =? p)%nat eqn:E; [apply Nat.eqb_eq in E; lia|].
      cbn [exact d_of_Z]. lra. }
  rewrite (rsum_ext (fun k => rn r (i + p - k) - 2 * rn r (i + p) + rn r (i + p + k))
             (fun k => (rn r (i + p - k) + rn r (i + p + k)) + (- 2 * rn r (i + p)))) by (intros; lra).
  rewrite rsum_plus, rsum_plus, rsum_const, seq_length.
  assert (E1 : rsum (fun k => rn r (i + k)) (seq 0 p) = rsum (fun k => rn r (i + p - k)) (seq 1 p)).
  { rewrite <- (rsum_rev _ (seq 1 p)), rev_seq, rsum_map, <- seq_shift, rsum_map.
    apply rsum_ext. intros k Hk. apply in_seq in Hk. f_equal. lia. }
  assert (E2 : rsum (fun k => rn r (i + k)) (seq (S p) p) = rsum (fun k => rn r (i + p + k)) (seq 1 p)).
  { replace (seq (S p) p) with (map (fun k => (p + k)%nat) (seq 1 p)).
    - rewrite rsum_map. apply rsum_ext. intros k _. f_equal. lia.
    - assert (G : forall n t, map (fun k => (p + k)%nat) (seq t n) = seq (p + t) n).
      { induction n as [|n IH]; intros t; simpl; auto. rewrite IH. f_equal. f_equal. lia. }
      rewrite G. f_equal. lia. }
  rewrite E1, E2. cbn. lra.
Qed.

(** the whole result *)
Lemma curvature_exact p (r : list R) curv :
  calc_curvature exact r (Z.of_nat p) = Ok curv -> (1 <= p)%nat ->
  (2 * p + 1 <= length r)%nat /\ length curv = length r /\
  forall j, (j < length r)%nat ->
    nth_error curv j =
      Some (if ((p <=? j) && (j <? length r - p))%nat
            then Rsqr (second_diff (fun k => rn r k) p j) else 0).
Proof.
  intros H Hp. destruct (Nat.lt_ge_cases (length r) (2 * p + 1)) as [Hl|Hl].
  { rewrite curvature_short in H by auto. discriminate. }
  split; auto. split; [apply (curvature_length exact p r); auto|].
  rewrite curvature_ok in H by auto. inversion H; subst; clear H.
  intros j Hj. rewrite nth_error_map. cbn [exact d_of_Z d_mul D].
  destruct (p <=? j)%nat eqn:E1; cbn [andb].
  - apply Nat.leb_le in E1. rewrite nth_error_app2 by (rewrite repeat_length; auto). rewrite repeat_length.
    destruct (j <? length r - p)%nat eqn:E2.
    + apply Nat.ltb_lt in E2. rewrite nth_error_app1 by (rewrite map_length, seq_length; lia).
      rewrite nth_error_map, (nth_error_nth' _ O) by (rewrite seq_length; lia).
      rewrite seq_nth by lia. cbn [option_map]. f_equal. unfold Rsqr.
      rewrite curv_sum_exact. replace (0 + (j - p) + p)%nat with j by lia. reflexivity.
    + apply Nat.ltb_ge in E2. rewrite nth_error_app2 by (rewrite map_length, seq_length; lia).
      rewrite nth_error_repeat by (rewrite map_length, seq_length; lia). cbn. f_equal. ring.
  - apply Nat.leb_gt in E1. rewrite nth_error_app1 by (rewrite repeat_length; auto).
    rewrite nth_error_repeat by auto. cbn. f_equal. ring.
Qed.

(** equality of two results given the equality of their entries *)
Lemma curvature_transfer p (r s : list R) (g : list R -> list R) :
  (1 <= p)%nat -> length s = length r -> (forall l, length (g l) = length l) ->
  (forall curv c', (2 * p + 1 <= length r)%nat ->
     length curv = length r -> length c' = length r ->
     (forall j, (j < length r)%nat -> nth_error curv j = Some (if ((p <=? j) && (j <? length r - p))%nat
            then Rsqr (second_diff (fun k => rn r k) p j) else 0)) ->
     (forall j, (j < length r)%nat -> nth_error c' j = Some (if ((p <=? j) && (j <? length r - p))%nat
            then Rsqr (second_diff (fun k => rn s k) p j) else 0)) ->
     forall j, (j < length r)%nat -> nth_error c' j = nth_error (g curv) j) ->
  calc_curvature exact s (Z.of_nat p) =
  (c <- calc_curvature exact r (Z.of_nat p) ;; Ok (g c)).
Proof.
  intros Hp Hl Hg H. destruct (Nat.lt_ge_cases (length r) (2 * p + 1)) as [Hs|Hs].
  { rewrite (curvature_short exact p r Hp Hs).
    rewrite (curvature_short exact p s Hp (eq_ind_r (fun n => (n < _)%nat) Hs Hl)). auto. }
  pose proof (curvature_ok exact p r Hp Hs) as H1.
  pose proof (curvature_ok exact p s Hp (eq_ind_r (fun n => (_ <= n)%nat) Hs Hl)) as H2.
  rewrite H1, H2. cbn [bind]. f_equal.
  apply curvature_exact in H1, H2; auto. destruct H1 as [_ [L1 E1]], H2 as [_ [L2 E2]].
  revert L1 E1 L2 E2.
  match goal with |- length ?c = _ -> _ -> length ?d = _ -> _ -> _ => generalize c d end.
  cbn [exact D]. intros c c' L1 E1 L2 E2. rewrite Hl in *.
  apply nth_ext with (d := 0) (d' := 0); [rewrite Hg; congruence|].
  intros j Hj. rewrite L2 in Hj. pose proof (H c c' Hs L1 L2 E1 E2 j Hj) as G.
  destruct (nth_error c' j) as [x|] eqn:Ex; [|apply nth_error_None in Ex; lia].
  erewrite (nth_error_nth c' j); eauto. symmetry in G. erewrite nth_error_nth; eauto.
Qed.

Lemma second_diff_ext f g p j : (forall k, (j - p <= k <= j + p)%nat -> f k = g k) ->
  second_diff f p j = second_diff g p j.
Proof.
  intros H. unfold second_diff. apply rsum_ext. intros k Hk. apply in_seq in Hk.
  rewrite (H (j - k)%nat), (H j), (H (j + k)%nat) by lia. auto.
Qed.

Lemma curvature_shift p (r : list R) c : (1 <= p)%nat ->
  calc_curvature exact (map (fun x => x + c) r) (Z.of_nat p) = calc_curvature exact r (Z.of_nat p).
Proof.
  intros Hp. rewrite (curvature_transfer p r (map (fun x => x + c) r) (fun l => l)); auto.
  - destruct (calc_curvature exact r (Z.of_nat p)); auto.
  - apply map_length.
  - intros curv c' Hs L1 L2 E1 E2 j Hj. rewrite E1, E2 by auto.
    destruct ((p <=? j) && (j <? length r - p))%nat eqn:E; auto.
    apply andb_true_iff in E. destruct E as [Ea Eb]. apply Nat.leb_le in Ea. apply Nat.ltb_lt in Eb.
    f_equal. f_equal. rewrite (second_diff_ext _ (fun k => rn r k + c)).
    + unfold second_diff. apply rsum_ext. intros. lra.
    + intros k Hk. rewrite nth_indep with (d' := 0 + c) by (rewrite map_length; lia).
      apply (map_nth (fun x => x + c)).
Qed.

Lemma curvature_scale p (r : list R) c : (1 <= p)%nat ->
  calc_curvature exact (map (fun x => c * x) r) (Z.of_nat p) =
  (k <- calc_curvature exact r (Z.of_nat p) ;; Ok (map (fun v => c * c * v) k)).
Proof.
  intros Hp. apply (curvature_transfer p r (map (fun x => c * x) r)); auto.
  - apply map_length.
  - intros; apply map_length.
  - intros curv c' Hs L1 L2 E1 E2 j Hj. rewrite nth_error_map, E1, E2 by auto. cbn [option_map]. f_equal.
    destruct ((p <=? j) && (j <? length r - p))%nat eqn:E; [|ring].
    apply andb_true_iff in E. destruct E as [Ea Eb]. apply Nat.leb_le in Ea. apply Nat.ltb_lt in Eb.
    replace (second_diff (fun k => rn (map (fun x => c * x) r) k) p j)
      with (c * second_diff (fun k => rn r k) p j); [unfold Rsqr; ring|].
    rewrite (second_diff_ext (fun k => rn (map (fun x => c * x) r) k) (fun k => c * rn r k)).
    + unfold second_diff. rewrite <- rsum_scale. apply rsum_ext. intros. ring.
    + intros k Hk. rewrite nth_indep with (d' := c * 0) by (rewrite map_length; lia).
      apply (map_nth (fun x => c * x)).
Qed.

Lemma nth_error_rev {T} (l : list T) j : (j < length l)%nat ->
  nth_error (rev l) j = nth_error l (length l - 1 - j).
Proof.
  intros H. destruct (nth_error l (length l - 1 - j)) as [x|] eqn:E.
  - rewrite (nth_error_nth' _ x) by (rewrite rev_length; auto). rewrite rev_nth by auto.
    replace (length l - S j)%nat with (length l - 1 - j)%nat by lia. rewrite (nth_error_nth _ _ _ E). auto.
  - apply nth_error_None in E. lia.
Qed.

Lemma curvature_rev p (r : list R) : (1 <= p)%nat ->
  calc_curvature exact (rev r) (Z.of_nat p) = (k <- calc_curvature exact r (Z.of_nat p) ;; Ok (rev k)).
Proof.
  intros Hp. apply (curvature_transfer p r (rev r) (@rev _)); auto.
  - apply rev_length.
  - intros; apply rev_length.
  - intros curv c' Hs L1 L2 E1 E2 j Hj. rewrite nth_error_rev by lia. rewrite L1, E1, E2 by lia. f_equal.
    replace ((p <=? length r - 1 - j) && (length r - 1 - j <? length r - p))%nat
      with ((p <=? j) && (j <? length r - p))%nat.
    2:{ apply Bool.eq_true_iff_eq. rewrite !andb_true_iff, !Nat.leb_le, !Nat.ltb_lt. lia. }
    destruct ((p <=? j) && (j <? length r - p))%nat eqn:E; auto.
    apply andb_true_iff in E. destruct E as [Ea Eb]. apply Nat.leb_le in Ea. apply Nat.ltb_lt in Eb.
    f_equal. unfold second_diff. apply rsum_ext. intros k Hk. apply in_seq in Hk.
    rewrite !rev_nth by lia.
    replace (length r - S (j - k))%nat with (length r - 1 - j + k)%nat by lia.
    replace (length r - S (j + k))%nat with (length r - 1 - j - k)%nat by lia.
    replace (length r - S j)%nat with (length r - 1 - j)%nat by lia. ring.
Qed.

Lemma curvature_progression p (r : list R) a d curv : (1 <= p)%nat ->
  (forall i, (i < length r)%nat -> nth_error r i = Some (a + d * INR i)) ->
  calc_curvature exact r (Z.of_nat p) = Ok curv -> Forall (fun v : R => v = 0) curv.
Proof.
  intros Hp Hr H. apply curvature_exact in H; auto. destruct H as [Hs [L E]].
  apply Forall_forall. intros x Hx. apply In_nth_error in Hx. destruct Hx as [j Hx].
  assert (Hj : (j < length curv)%nat) by (apply nth_error_Some; intros HN; pose proof (eq_trans (eq_sym Hx) HN); discriminate).
  rewrite E in Hx by lia. inversion Hx; subst; clear Hx.
  destruct ((p <=? j) && (j <? length r - p))%nat eqn:Eb; auto.
  apply andb_true_iff in Eb. destruct Eb as [Ea Eb]. apply Nat.leb_le in Ea. apply Nat.ltb_lt in Eb.
  replace (second_diff (fun k => rn r k) p j) with 0; [unfold Rsqr; ring|].
  unfold second_diff. rewrite (rsum_ext _ (fun _ => 0)); [rewrite rsum_const; ring|].
  intros k Hk. apply in_seq in Hk.
  erewrite (nth_error_nth r j) by (apply Hr; lia).
  erewrite (nth_error_nth r (j - k)) by (apply Hr; lia).
  erewrite (nth_error_nth r (j + k)) by (apply Hr; lia).
  rewrite minus_INR, plus_INR by lia. ring.
Qed.

Lemma curvature_nonneg p (r : list R) curv : (1 <= p)%nat ->
  calc_curvature exact r (Z.of_nat p) = Ok curv -> Forall (fun v : R => 0 <= v) curv.
Proof.
  intros Hp H. apply curvature_exact in H; auto. destruct H as [Hs [L E]].
  apply Forall_forall. intros x Hx. apply In_nth_error in Hx. destruct Hx as [j Hx].
  assert (Hj : (j < length curv)%nat) by (apply nth_error_Some; intros HN; pose proof (eq_trans (eq_sym Hx) HN); discriminate).
  rewrite E in Hx by lia. inversion Hx; subst; clear Hx.
  destruct ((p <=? j) && (j <? length r - p))%nat; [apply Rle_0_sqr|lra].
Qed.

Lemma window_sum_exact (input w : list R) i :
  window_sum exact input w i = rsum (fun k => nth (i + k) input 0 * nth k w 0) (seq 0 (length w)).
Proof.
  unfold window_sum. cbn [exact d_add d_mul d_of_Z D].
  rewrite (fold_sum (fun k => nth (i + k) input 0 * nth k w 0)). lra.
Qed.
