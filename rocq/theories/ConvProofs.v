(** Proofs about Convolution1D and CalcCurvature (extraction/src/convolution.cpp,
    curvature.cpp). *)
From Coq Require Import List ZArith Bool Lia Arith.
From Verif Require Import Base Arith ExtractModel Spec FillProofs LabelProofs OcclusionProofs
  NeighborProofs.
Import ListNotations.
Open Scope Z_scope.

Lemma fold_left_map {X Y S} (f : S -> Y -> S) (g : X -> Y) l : forall s,
  fold_left f (map g l) s = fold_left (fun s x => f s (g x)) l s.
Proof. induction l as [|x l IH]; intros s; simpl; auto. Qed.

Section Conv.
Variable A : arith.
Notation d0 := (d_of_Z A 0).

Lemma inner_product_spec w : forall a s, (length a = length w)%nat ->
  inner_product A s a w =
  Ok (fold_left (fun s k => d_add A s (d_mul A (nth k a d0) (nth k w d0))) (seq 0 (length w)) s).
Proof.
  intros a. revert w. induction a as [|x a IH]; intros [|y w] s H; simpl in *; try discriminate; auto.
  rewrite IH by lia. f_equal. rewrite <- seq_shift, fold_left_map. auto.
Qed.

Lemma fold_left_ext {X Y} (f g : Y -> X -> Y) l : (forall s x, In x l -> f s x = g s x) ->
  forall s, fold_left f l s = fold_left g l s.
Proof.
  induction l as [|x l IH]; intros H s; simpl; auto. rewrite H by (simpl; auto). apply IH.
  intros; apply H; simpl; auto.
Qed.

Lemma nth_skipn {T} (l : list T) i k d : nth k (skipn i l) d = nth (i + k) l d.
Proof. revert l; induction i; intros [|x l]; simpl; auto. destruct k; auto. Qed.

Lemma nth_firstn {T} (l : list T) n k d : (k < n)%nat -> nth k (firstn n l) d = nth k l d.
Proof. revert l k; induction n; intros [|x l] k H; simpl; auto; try lia. destruct k; auto. apply IHn. lia. Qed.

Lemma window_product input w i : (i + length w <= length input)%nat ->
  inner_product A d0 (firstn (length w) (skipn i input)) w = Ok (window_sum A input w i).
Proof.
  intros H. rewrite inner_product_spec by (rewrite firstn_length, skipn_length; lia).
  f_equal. unfold window_sum. apply fold_left_ext. intros s k Hk. apply in_seq in Hk.
  rewrite nth_firstn by lia. rewrite nth_skipn. auto.
Qed.

Lemma mapM_pure {X Y} (f : X -> outcome Y) (g : X -> Y) l :
  (forall x, In x l -> f x = Ok (g x)) -> mapM f l = Ok (map g l).
Proof.
  induction l as [|x l IH]; intros H; simpl; auto. rewrite H by (simpl; auto). simpl.
  rewrite IH by (intros; apply H; simpl; auto). auto.
Qed.

Lemma convolution_ok input w p : length w = (2 * p + 1)%nat -> (length w <= length input)%nat ->
  convolution1d A input w =
  Ok (repeat d0 p ++ map (window_sum A input w) (seq 0 (length input - 2 * p)) ++ repeat d0 p).
Proof.
  intros Hw Hi. unfold convolution1d. destruct (length input <? length w)%nat eqn:E.
  { apply Nat.ltb_lt in E. lia. }
  assert (Hodd : Nat.odd (length w) = true).
  { apply Nat.odd_spec. exists p. auto. }
  rewrite Hodd. cbn [assert_].
  assert (Hpad : ((length w - 1) / 2 = p)%nat).
  { rewrite Hw. replace (2 * p + 1 - 1)%nat with (p * 2)%nat by lia. apply Nat.div_mul. lia. }
  rewrite Hpad. replace (p * 2)%nat with (2 * p)%nat by lia.
  rewrite (mapM_pure _ (window_sum A input w)); auto.
  intros i Hin. apply in_seq in Hin. apply window_product. lia.
Qed.

Lemma convolution_spec input w : Nat.odd (length w) = true ->
  ((length input < length w)%nat /\ convolution1d A input w = ThrowInvalid) \/
  (exists out p, length w = (2 * p + 1)%nat /\ convolution1d A input w = Ok out /\
     length out = length input /\
     (forall i, (i < p \/ length input - p <= i < length input)%nat -> nth_error out i = Some d0) /\
     (forall i, (i + 2 * p < length input)%nat ->
        nth_error out (p + i) = Some (window_sum A input w i))).
Proof.
  intros Ho. destruct (Nat.lt_ge_cases (length input) (length w)) as [H|H].
  - left. split; auto. unfold convolution1d. apply Nat.ltb_lt in H. rewrite H. auto.
  - right. apply Nat.odd_spec in Ho. destruct Ho as [p Hp].
    eexists. exists p. split; auto. split; [exact (convolution_ok input w p Hp H)|].
    split; [rewrite !app_length, !repeat_length, map_length, seq_length; lia|].
    split.
    + intros i Hi. destruct Hi as [Hi|Hi].
      * rewrite nth_error_app1 by (rewrite repeat_length; auto). apply nth_error_repeat. auto.
      * rewrite nth_error_app2 by (rewrite repeat_length; lia). rewrite repeat_length.
        rewrite nth_error_app2 by (rewrite map_length, seq_length; lia).
        rewrite map_length, seq_length. apply nth_error_repeat. lia.
    + intros i Hi. rewrite nth_error_app2 by (rewrite repeat_length; lia). rewrite repeat_length.
      rewrite nth_error_app1 by (rewrite map_length, seq_length; lia).
      replace (p + i - p)%nat with i by lia. rewrite nth_error_map.
      rewrite nth_error_nth' with (d := O) by (rewrite seq_length; lia).
      rewrite seq_nth by lia. auto.
Qed.

(** the weight: ones with -2p in the middle *)
Definition weight_at (p k : nat) : D A :=
  if (k =? p)%nat then d_mul A (d_of_Z A (-2)) (d_of_Z A (Z.of_nat p)) else d_of_Z A 1.

Lemma list_upd_nth {T} (l : list T) n v : forall k d, (n < length l)%nat ->
  nth k (list_upd l n v) d = if (k =? n)%nat then v else nth k l d.
Proof.
  revert n. induction l as [|x l IH]; intros n k d H; simpl in *; [lia|].
  destruct n as [|n]; destruct k as [|k]; simpl; auto. apply IH. lia.
Qed.

Lemma list_upd_length {T} (l : list T) n v : length (list_upd l n v) = length l.
Proof. revert n. induction l as [|x l IH]; intros [|n]; simpl; auto. Qed.

Lemma make_weight_spec p : (1 <= p)%nat -> exists w,
  make_weight A (Z.of_nat p) = Ok w /\ length w = (2 * p + 1)%nat /\
  forall k d, (k < 2 * p + 1)%nat -> nth k w d = weight_at p k.
Proof.
  intros Hp. unfold make_weight. destruct (0 <? Z.of_nat p) eqn:E; [|apply Z.ltb_ge in E; lia].
  cbn [assert_]. unfold vset. unfold zlen. rewrite repeat_length.
  destruct ((Z.of_nat p <? 0) || _) eqn:E2.
  { apply orb_true_iff in E2. destruct E2 as [E2|E2]; [apply Z.ltb_lt in E2|apply Z.leb_le in E2]; lia. }
  eexists. split; [reflexivity|]. split.
  - rewrite list_upd_length, repeat_length. lia.
  - intros k d Hk. rewrite list_upd_nth by (rewrite repeat_length; lia).
    rewrite Nat2Z.id. unfold weight_at. destruct (k =? p)%nat; auto.
    rewrite nth_indep with (d' := d_of_Z A 1) by (rewrite repeat_length; lia).
    apply nth_repeat.
Qed.

(** curvature of an interior point: square of the weighted window sum *)
Definition curv_sum (p : nat) (ranges : list (D A)) (i : nat) : D A :=
  fold_left (fun s k => d_add A s (d_mul A (nth (i + k) ranges d0) (weight_at p k)))
            (seq 0 (2 * p + 1)) d0.

Lemma curvature_ok p ranges : (1 <= p)%nat -> (2 * p + 1 <= length ranges)%nat ->
  calc_curvature A ranges (Z.of_nat p) =
  Ok (map (fun v => d_mul A v v)
        (repeat d0 p ++ map (curv_sum p ranges) (seq 0 (length ranges - 2 * p)) ++ repeat d0 p)).
Proof.
  intros Hp Hl. unfold calc_curvature. destruct (make_weight_spec p Hp) as [w [-> [Hw Hn]]].
  cbn [bind]. rewrite (convolution_ok ranges w p) by (auto; lia). cbn [bind]. f_equal. f_equal. f_equal. f_equal.
  apply map_ext. intros i. unfold window_sum, curv_sum. rewrite Hw. apply fold_left_ext.
  intros s k Hk. apply in_seq in Hk. rewrite Hn by lia. auto.
Qed.

Lemma curvature_short p ranges : (1 <= p)%nat -> (length ranges < 2 * p + 1)%nat ->
  calc_curvature A ranges (Z.of_nat p) = ThrowInvalid.
Proof.
  intros Hp Hl. unfold calc_curvature. destruct (make_weight_spec p Hp) as [w [-> [Hw Hn]]].
  cbn [bind]. unfold convolution1d. rewrite Hw. apply Nat.ltb_lt in Hl. rewrite Hl. auto.
Qed.

Lemma curvature_length p ranges curv : (1 <= p)%nat ->
  calc_curvature A ranges (Z.of_nat p) = Ok curv -> length curv = length ranges.
Proof.
  intros Hp H. destruct (Nat.lt_ge_cases (length ranges) (2 * p + 1)) as [Hl|Hl].
  - rewrite curvature_short in H by auto. discriminate.
  - rewrite curvature_ok in H by auto. inversion H; subst.
    rewrite map_length, !app_length, !repeat_length, map_length, seq_length. lia.
Qed.

End Conv.
