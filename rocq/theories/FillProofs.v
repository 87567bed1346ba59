(** Proofs about the fill functions of x/fill.hpp. *)
From Coq Require Import List ZArith Bool Lia Permutation.
From Verif Require Import Base Arith ExtractModel Spec.
Import ListNotations.
Open Scope Z_scope.

Lemma bind_ok {A B} (m : outcome A) (f : A -> outcome B) b :
  bind m f = Ok b -> exists a, m = Ok a /\ f a = Ok b.
Proof. destruct m; simpl; intros H; try discriminate; eauto. Qed.

Lemma assert_ok {B} b (k : outcome B) r : assert_ b k = Ok r -> b = true /\ k = Ok r.
Proof. destruct b; simpl; intros H; try discriminate; auto. Qed.

Ltac inv_bind H :=
  let a := fresh "v" in let H1 := fresh "E" in let H2 := fresh "K" in
  apply bind_ok in H; destruct H as [a [H1 H2]].

Lemma zlen_nonneg {A} (l : list A) : 0 <= zlen l.
Proof. unfold zlen; lia. Qed.

Lemma list_upd_length {A} (l : list A) n v : length (list_upd l n v) = length l.
Proof. revert n; induction l; intros [|n]; simpl; auto. Qed.

Lemma list_upd_nth {A} (l : list A) n v k :
  nth_error (list_upd l n v) k =
  if (k =? n)%nat then (if (n <? length l)%nat then Some v else None) else nth_error l k.
Proof.
  revert n k; induction l as [|x l IH]; intros n k; simpl.
  - destruct k, n; simpl; try destruct (_ =? _)%nat; auto.
  - destruct n as [|n], k as [|k]; simpl; auto.
    rewrite IH. destruct (k =? n)%nat eqn:E; auto.
Qed.

Lemma get_bounds {A} (l : list A) i v : get l i = Some v -> 0 <= i < zlen l.
Proof.
  unfold get, zlen. destruct (i <? 0) eqn:E; [discriminate|].
  intros H. apply Z.ltb_ge in E. assert (nth_error l (Z.to_nat i) <> None) by congruence.
  apply nth_error_Some in H0. lia.
Qed.

Lemma get_some {A} (l : list A) i : 0 <= i < zlen l -> exists v, get l i = Some v.
Proof.
  unfold get, zlen. intros H. destruct (i <? 0) eqn:E; [apply Z.ltb_lt in E; lia|].
  destruct (nth_error l (Z.to_nat i)) eqn:E2; eauto.
  apply nth_error_None in E2. lia.
Qed.

Lemma get_none {A} (l : list A) i : ~ (0 <= i < zlen l) -> get l i = None.
Proof.
  intros H. destruct (get l i) eqn:E; auto. apply get_bounds in E. tauto.
Qed.

Lemma vat_get {A} (l : list A) i v : vat l i = Ok v <-> get l i = Some v.
Proof.
  unfold vat, get. destruct (i <? 0); [split; discriminate|].
  destruct (nth_error _ _); split; intros H; inversion H; auto.
Qed.

Lemma vat_total {A} (l : list A) i : 0 <= i < zlen l -> exists v, vat l i = Ok v /\ get l i = Some v.
Proof. intros H. destruct (get_some l i H) as [v Hv]. exists v; split; auto. apply vat_get; auto. Qed.

Lemma vat_out {A} (l : list A) i : ~ (0 <= i < zlen l) -> vat l i = ThrowRange.
Proof.
  intros H. unfold vat. destruct (i <? 0) eqn:E; auto.
  destruct (nth_error l (Z.to_nat i)) eqn:E2; auto.
  exfalso; apply H. apply Z.ltb_ge in E.
  assert (nth_error l (Z.to_nat i) <> None) by congruence.
  apply nth_error_Some in H0. unfold zlen; lia.
Qed.

Lemma vset_spec {A} (l : list A) i v l' :
  vset l i v = Ok l' ->
  0 <= i < zlen l /\ zlen l' = zlen l /\
  forall k, get l' k = if k =? i then Some v else get l k.
Proof.
  unfold vset. destruct (i <? 0) eqn:E1; [discriminate|].
  destruct (zlen l <=? i) eqn:E2; [discriminate|]. simpl. intros H; inversion H; subst; clear H.
  apply Z.ltb_ge in E1. apply Z.leb_gt in E2.
  split; [lia|]. split; [unfold zlen; rewrite list_upd_length; auto|].
  intros k. unfold get. destruct (k <? 0) eqn:E3.
  - apply Z.ltb_lt in E3. destruct (k =? i) eqn:E4; auto. apply Z.eqb_eq in E4; lia.
  - apply Z.ltb_ge in E3. rewrite list_upd_nth.
    destruct (k =? i) eqn:E4.
    + apply Z.eqb_eq in E4; subst. rewrite Nat.eqb_refl.
      unfold zlen in E2. replace (Z.to_nat i <? length l)%nat with true; auto.
      symmetry. apply Nat.ltb_lt. lia.
    + apply Z.eqb_neq in E4. destruct (Nat.eqb_spec (Z.to_nat k) (Z.to_nat i)); auto. lia.
Qed.

Lemma vset_total {A} (l : list A) i v : 0 <= i < zlen l -> exists l', vset l i v = Ok l'.
Proof.
  intros H. unfold vset. destruct (i <? 0) eqn:E1; [apply Z.ltb_lt in E1; lia|].
  destruct (zlen l <=? i) eqn:E2; [apply Z.leb_le in E2; lia|]. simpl; eauto.
Qed.

Lemma vset_out {A} (l : list A) i v : ~ (0 <= i < zlen l) -> vset l i v = ThrowRange.
Proof.
  intros H. unfold vset. destruct (i <? 0) eqn:E1; auto. simpl.
  destruct (zlen l <=? i) eqn:E2; auto. apply Z.ltb_ge in E1. apply Z.leb_gt in E2. lia.
Qed.

Lemma get_ext {A} (l l' : list A) : (forall k, get l k = get l' k) -> l = l'.
Proof.
  revert l'; induction l as [|x l IH]; intros [|y l'] H; auto.
  - specialize (H 0). discriminate.
  - specialize (H 0). discriminate.
  - f_equal.
    + specialize (H 0). unfold get in H. simpl in H. congruence.
    + apply IH. intros k. unfold get. destruct (k <? 0) eqn:E; auto. apply Z.ltb_ge in E.
      specialize (H (Z.succ k)). unfold get in H.
      destruct (Z.succ k <? 0) eqn:E2; [apply Z.ltb_lt in E2; lia|].
      replace (Z.to_nat (Z.succ k)) with (S (Z.to_nat k)) in H by lia. exact H.
Qed.

(** ** Exact effect of FillFromLeft *)

(** positions written by the loop starting at b with e as end *)
Definition left_set (c : nbcheck) (b e k : Z) : Prop := b <= k < e /\ run c b k.

Lemma fill_left_loop_spec c lab e n : forall i ls ls',
  n = Z.to_nat (e - 1 - i) -> i <= e - 1 ->
  fill_left_loop c lab e n i ls = Ok ls' ->
  zlen ls' = zlen ls /\
  (forall k, left_set c i e k -> get ls' k = Some lab) /\
  (forall k, ~ left_set c i e k -> get ls' k = get ls k).
Proof.
  induction n as [|n IH]; intros i ls ls' Hn Hi H; cbn [fill_left_loop] in H.
  - assert (i = e - 1) by lia. subst i.
    apply vset_spec in H. destruct H as [Hb [Hl Hg]].
    split; [auto|]. split; intros k Hk; rewrite Hg.
    + destruct Hk as [Hk _]. replace (k =? e - 1) with true; auto. symmetry; apply Z.eqb_eq; lia.
    + destruct (k =? e - 1) eqn:E; auto. apply Z.eqb_eq in E. exfalso; apply Hk.
      subst k; split; [lia|]. intros j Hj. lia.
  - inv_bind H. inv_bind K. apply vset_spec in E. destruct E as [Hb [Hl Hg]].
    destruct v0.
    + apply IH in K0; [|lia|lia]. destruct K0 as [Hl' [H1 H2]].
      split; [lia|]. split; intros k Hk.
      * destruct Hk as [Hk Hr]. destruct (Z.eq_dec k i).
        -- subst k. rewrite H2, Hg, Z.eqb_refl; auto. unfold left_set; lia.
        -- apply H1. split; [lia|]. intros j Hj. apply Hr. lia.
      * assert (k <> i). { intros ->. apply Hk. split; [lia|]. intros j Hj; lia. }
        rewrite H2, Hg.
        -- destruct (k =? i) eqn:E; auto. apply Z.eqb_eq in E; lia.
        -- intros [Hk1 Hk2]. apply Hk. split; [lia|]. intros j Hj.
           destruct (Z.eq_dec j i); [subst; auto|]. apply Hk2; lia.
    + inversion K0; subst. split; [auto|]. split; intros k Hk; rewrite Hg.
      * destruct Hk as [Hk Hr]. destruct (Z.eq_dec k i); [subst; rewrite Z.eqb_refl; auto|].
        exfalso. assert (nb c i (i + 1) = Ok true) by (apply Hr; lia). congruence.
      * destruct (k =? i) eqn:E; auto. apply Z.eqb_eq in E. exfalso. apply Hk. subst.
        split; [lia|]. intros j Hj; lia.
Qed.

Lemma fill_from_left_spec c b e lab ls ls' :
  b < e -> fill_from_left c b e lab ls = Ok ls' ->
  0 <= b /\ e <= zlen ls /\ zlen ls' = zlen ls /\
  (forall k, left_set c b e k -> get ls' k = Some lab) /\
  (forall k, ~ left_set c b e k -> get ls' k = get ls k).
Proof.
  intros Hbe H. unfold fill_from_left in H. apply assert_ok in H. destruct H as [_ H].
  destruct (zlen ls <? e) eqn:E1; [discriminate|]. destruct (b <? 0) eqn:E2; [discriminate|].
  apply Z.ltb_ge in E1. apply Z.ltb_ge in E2.
  apply fill_left_loop_spec in H; [|lia|lia]. tauto.
Qed.

Lemma fill_left_loop_total c lab e n : forall i ls,
  n = Z.to_nat (e - 1 - i) -> i <= e - 1 -> 0 <= i -> e <= zlen ls ->
  (forall k, i <= k < e - 1 -> exists b, nb c k (k + 1) = Ok b) ->
  exists ls', fill_left_loop c lab e n i ls = Ok ls'.
Proof.
  induction n as [|n IH]; intros i ls Hn Hi H0 He Ht; cbn [fill_left_loop].
  - apply vset_total. lia.
  - destruct (vset_total ls i lab) as [l1 H1]; [lia|]. rewrite H1. simpl.
    destruct (Ht i) as [b Hb]; [lia|]. rewrite Hb. simpl. destruct b; eauto.
    apply vset_spec in H1. apply IH; try lia. intros k Hk. apply Ht. lia.
Qed.

Lemma fill_from_left_total c b e lab ls :
  nb_size c = zlen ls -> 0 <= b -> b < e -> e <= zlen ls ->
  nb_total c (zlen ls) ->
  exists ls', fill_from_left c b e lab ls = Ok ls'.
Proof.
  intros Hs Hb Hbe He Ht. unfold fill_from_left. rewrite Hs, Z.eqb_refl. simpl.
  destruct (zlen ls <? e) eqn:E1; [apply Z.ltb_lt in E1; lia|].
  destruct (b <? 0) eqn:E2; [apply Z.ltb_lt in E2; lia|].
  apply fill_left_loop_total; try lia. intros k Hk. apply Ht; lia.
Qed.

(** ** Exact effect of FillFromRight *)

Definition right_set (c : nbcheck) (b e k : Z) : Prop := b < k <= e /\ run_left c k e.

Lemma fill_right_loop_spec c lab b n : forall i ls ls',
  n = Z.to_nat (i - (b + 1)) -> b + 1 <= i ->
  fill_right_loop c lab b n i ls = Ok ls' ->
  zlen ls' = zlen ls /\
  (forall k, right_set c b i k -> get ls' k = Some lab) /\
  (forall k, ~ right_set c b i k -> get ls' k = get ls k).
Proof.
  induction n as [|n IH]; intros i ls ls' Hn Hi H; cbn [fill_right_loop] in H.
  - assert (i = b + 1) by lia. subst i.
    apply vset_spec in H. destruct H as [Hb [Hl Hg]].
    split; [auto|]. split; intros k Hk; rewrite Hg.
    + destruct Hk as [Hk _]. replace (k =? b + 1) with true; auto. symmetry; apply Z.eqb_eq; lia.
    + destruct (k =? b + 1) eqn:E; auto. apply Z.eqb_eq in E. exfalso; apply Hk.
      subst k; split; [lia|]. intros j Hj. lia.
  - inv_bind H. inv_bind K. apply vset_spec in E. destruct E as [Hb [Hl Hg]].
    destruct v0.
    + apply IH in K0; [|lia|lia]. destruct K0 as [Hl' [H1 H2]].
      split; [lia|]. split; intros k Hk.
      * destruct Hk as [Hk Hr]. destruct (Z.eq_dec k i).
        -- subst k. rewrite H2, Hg, Z.eqb_refl; auto. unfold right_set; lia.
        -- apply H1. split; [lia|]. intros j Hj. apply Hr. lia.
      * assert (k <> i). { intros ->. apply Hk. split; [lia|]. intros j Hj; lia. }
        rewrite H2, Hg.
        -- destruct (k =? i) eqn:E; auto. apply Z.eqb_eq in E; lia.
        -- intros [Hk1 Hk2]. apply Hk. split; [lia|]. intros j Hj.
           destruct (Z.eq_dec j i); [subst; auto|]. apply Hk2; lia.
    + inversion K0; subst. split; [auto|]. split; intros k Hk; rewrite Hg.
      * destruct Hk as [Hk Hr]. destruct (Z.eq_dec k i); [subst; rewrite Z.eqb_refl; auto|].
        exfalso. assert (nb c i (i - 1) = Ok true) by (apply Hr; lia). congruence.
      * destruct (k =? i) eqn:E; auto. apply Z.eqb_eq in E. exfalso. apply Hk. subst.
        split; [lia|]. intros j Hj; lia.
Qed.

Lemma fill_from_right_spec c b e lab ls ls' :
  b < e -> fill_from_right c b e lab ls = Ok ls' ->
  -1 <= b /\ e < zlen ls /\ zlen ls' = zlen ls /\
  (forall k, right_set c b e k -> get ls' k = Some lab) /\
  (forall k, ~ right_set c b e k -> get ls' k = get ls k).
Proof.
  intros Hbe H. unfold fill_from_right in H. apply assert_ok in H. destruct H as [_ H].
  destruct (zlen ls <=? e) eqn:E1; [discriminate|]. destruct (b <? -1) eqn:E2; [discriminate|].
  apply Z.leb_gt in E1. apply Z.ltb_ge in E2.
  apply fill_right_loop_spec in H; [|lia|lia]. tauto.
Qed.

Lemma fill_right_loop_total c lab b n : forall i ls,
  n = Z.to_nat (i - (b + 1)) -> b + 1 <= i -> -1 <= b -> i < zlen ls ->
  (forall k, b + 1 < k <= i -> exists t, nb c k (k - 1) = Ok t) ->
  exists ls', fill_right_loop c lab b n i ls = Ok ls'.
Proof.
  induction n as [|n IH]; intros i ls Hn Hi H0 He Ht; cbn [fill_right_loop].
  - apply vset_total. lia.
  - destruct (vset_total ls i lab) as [l1 H1]; [lia|]. rewrite H1. simpl.
    destruct (Ht i) as [t Hb]; [lia|]. rewrite Hb. simpl. destruct t; eauto.
    apply vset_spec in H1. apply IH; try lia. intros k Hk. apply Ht. lia.
Qed.

Lemma fill_from_right_total c b e lab ls :
  nb_size c = zlen ls -> -1 <= b -> b < e -> e < zlen ls ->
  nb_total c (zlen ls) ->
  exists ls', fill_from_right c b e lab ls = Ok ls'.
Proof.
  intros Hs Hb Hbe He Ht. unfold fill_from_right. rewrite Hs, Z.eqb_refl. simpl.
  destruct (zlen ls <=? e) eqn:E1; [apply Z.leb_le in E1; lia|].
  destruct (b <? -1) eqn:E2; [apply Z.ltb_lt in E2; lia|].
  apply fill_right_loop_total; try lia. intros k Hk. apply Ht; lia.
Qed.

(** ** FillNeighbors *)

(** [k] is within padding of [i], along the directions in which the code asks. *)
Definition near (c : nbcheck) (p i k : Z) : Prop :=
  (i - p <= k <= i /\ run_left c k i) \/ (i <= k <= i + p /\ run c i k).

Lemma dec_run c i j : run c i j \/ ~ run c i j.
Proof.
  destruct (Z_lt_le_dec i j) as [H|H].
  - remember (Z.to_nat (j - i)) as n eqn:Hn. revert i H Hn.
    induction n as [|n IH]; intros i H Hn; [lia|].
    assert (Hd : nb c i (i + 1) = Ok true \/ nb c i (i + 1) <> Ok true).
    { destruct (nb c i (i + 1)) as [[]| | | | |]; auto; right; congruence. }
    destruct Hd as [Hd|Hd].
    + destruct (Z.eq_dec (i + 1) j).
      * left. intros k Hk. replace k with i by lia. auto.
      * destruct (IH (i + 1)) as [Hr|Hr]; try lia.
        -- left. intros k Hk. destruct (Z.eq_dec k i); [subst; auto|]. apply Hr; lia.
        -- right. intros Hq. apply Hr. intros k Hk. apply Hq; lia.
    + right. intros Hq. apply Hd. apply Hq. lia.
  - left. intros k Hk; lia.
Qed.

Lemma dec_run_left c i j : run_left c i j \/ ~ run_left c i j.
Proof.
  set (c' := {| nb_size := nb_size c; nb := fun a b => nb c b a |}).
  destruct (dec_run c' i j) as [H|H].
  - left. intros k Hk. specialize (H (k - 1)). simpl in H.
    replace (k - 1 + 1) with k in H by lia. apply H. lia.
  - right. intros Hq. apply H. intros k Hk. simpl.
    specialize (Hq (k + 1)). replace (k + 1 - 1) with k in Hq by lia. apply Hq. lia.
Qed.

Lemma fill_neighbors_spec c i p lab ls ls' :
  0 <= p -> 0 <= i < zlen ls ->
  fill_neighbors c i p lab ls = Ok ls' ->
  zlen ls' = zlen ls /\
  (forall k, 0 <= k < zlen ls -> near c p i k -> get ls' k = Some lab) /\
  (forall k, ~ near c p i k -> get ls' k = get ls k).
Proof.
  intros Hp Hi H. unfold fill_neighbors in H. apply assert_ok in H. destruct H as [_ H].
  inv_bind H. apply fill_from_right_spec in E; [|lia].
  destruct E as [_ [_ [Hl1 [Hr1 Hr2]]]].
  apply fill_from_left_spec in K; [|lia].
  destruct K as [_ [_ [Hl2 [Hs1 Hs2]]]].
  split; [lia|].
  assert (Hdec : forall k, left_set c i (Z.min (i + 1 + p) (zlen ls)) k \/
                  ~ left_set c i (Z.min (i + 1 + p) (zlen ls)) k).
  { intros k. unfold left_set. destruct (dec_run c i k); [|tauto].
    destruct (Z_le_gt_dec i k); [|right; lia].
    destruct (Z_lt_le_dec k (Z.min (i + 1 + p) (zlen ls))); [left; auto|right; lia]. }
  split; intros k Hk.
  - intros [[Ha Hb]|[Ha Hb]].
    + destruct (Hdec k) as [Hd|Hd]; [auto|].
      rewrite Hs2; auto. apply Hr1. split; [lia|auto].
    + apply Hs1. split; [lia|auto].
  - rewrite Hs2, Hr2; auto.
    + intros [Ha Hb]. apply Hk. left. split; [lia|auto].
    + intros [Ha Hb]. apply Hk. right. split; [lia|auto].
Qed.

Lemma fill_neighbors_total c i p lab ls :
  0 <= p -> 0 <= i < zlen ls -> nb_size c = zlen ls -> nb_total c (zlen ls) ->
  exists ls', fill_neighbors c i p lab ls = Ok ls'.
Proof.
  intros Hp Hi Hs Ht. unfold fill_neighbors. rewrite Hs, Z.eqb_refl. cbn [assert_].
  destruct (fill_from_right_total c (Z.max (-1) (i - p - 1)) i lab ls) as [l1 H1]; auto; try lia.
  rewrite H1. cbn [bind]. pose proof H1 as H1'. apply fill_from_right_spec in H1'; [|lia].
  destruct H1' as [_ [_ [Hl _]]].
  apply fill_from_left_total; try rewrite Hl; auto; lia.
Qed.

Lemma near_within c p i k : nb_symmetric c -> near c p i k <-> within c p i k.
Proof.
  intros Hs. unfold near, within. split.
  - intros [[Ha Hb]|[Ha Hb]]; (split; [lia|]).
    + rewrite Z.min_r, Z.max_l by lia. intros j Hj. rewrite Hs.
      specialize (Hb (j + 1)). replace (j + 1 - 1) with j in Hb by lia. apply Hb. lia.
    + rewrite Z.min_l, Z.max_r by lia. auto.
  - intros [Ha Hb]. destruct (Z_le_gt_dec i k).
    + right. rewrite Z.min_l, Z.max_r in Hb by lia. split; [lia|auto].
    + left. rewrite Z.min_r, Z.max_l in Hb by lia. split; [lia|].
      intros j Hj. rewrite Hs. specialize (Hb (j - 1)).
      replace (j - 1 + 1) with j in Hb by lia. apply Hb. lia.
Qed.

Lemma within_sym c p i k : within c p i k <-> within c p k i.
Proof.
  unfold within. rewrite (Z.min_comm i k), (Z.max_comm i k).
  replace (Z.abs (i - k)) with (Z.abs (k - i)) by lia. tauto.
Qed.

Lemma dec_within c p i k : within c p i k \/ ~ within c p i k.
Proof.
  unfold within. destruct (Z_le_gt_dec (Z.abs (i - k)) p); [|right; lia].
  destruct (dec_run c (Z.min i k) (Z.max i k)); tauto.
Qed.

Lemma dec_near c p i k : near c p i k \/ ~ near c p i k.
Proof.
  unfold near.
  assert (H1 : (i - p <= k <= i) \/ ~ (i - p <= k <= i)).
  { destruct (Z_le_gt_dec (i - p) k); [|right; lia]. destruct (Z_le_gt_dec k i); [left|right]; lia. }
  assert (H2 : (i <= k <= i + p) \/ ~ (i <= k <= i + p)).
  { destruct (Z_le_gt_dec i k); [|right; lia]. destruct (Z_le_gt_dec k (i + p)); [left|right]; lia. }
  destruct (dec_run c i k), (dec_run_left c k i); tauto.
Qed.

(** ** Statements used by Prop_Labels.v *)

Lemma fill_left_exact c b e lab ls ls' :
  b < e -> fill_from_left c b e lab ls = Ok ls' ->
  0 <= b /\ e <= zlen ls /\ zlen ls' = zlen ls /\
  (forall k, b <= k < e -> (forall m, b <= m < k -> nb c m (m + 1) = Ok true) ->
     get ls' k = Some lab) /\
  (forall k, ~ (b <= k < e /\ forall m, b <= m < k -> nb c m (m + 1) = Ok true) ->
     get ls' k = get ls k).
Proof.
  intros Hb H. apply fill_from_left_spec in H; auto. destruct H as [H1 [H2 [H3 [H4 H5]]]].
  repeat split; auto. intros k Hk Hr. apply H4. split; auto.
Qed.

Lemma fill_right_exact c b e lab ls ls' :
  b < e -> fill_from_right c b e lab ls = Ok ls' ->
  -1 <= b /\ e < zlen ls /\ zlen ls' = zlen ls /\
  (forall k, b < k <= e -> (forall m, k < m <= e -> nb c m (m - 1) = Ok true) ->
     get ls' k = Some lab) /\
  (forall k, ~ (b < k <= e /\ forall m, k < m <= e -> nb c m (m - 1) = Ok true) ->
     get ls' k = get ls k).
Proof.
  intros Hb H. apply fill_from_right_spec in H; auto. destruct H as [H1 [H2 [H3 [H4 H5]]]].
  repeat split; auto. intros k Hk Hr. apply H4. split; auto.
Qed.

Lemma fill_neighbors_exact c i p lab ls ls' :
  nb_symmetric c -> 0 <= p -> 0 <= i < zlen ls ->
  fill_neighbors c i p lab ls = Ok ls' ->
  zlen ls' = zlen ls /\
  (forall k, 0 <= k < zlen ls -> within c p i k -> get ls' k = Some lab) /\
  (forall k, ~ within c p i k -> get ls' k = get ls k).
Proof.
  intros Hs Hp Hi H. apply fill_neighbors_spec in H; auto. destruct H as [H1 [H2 H3]].
  split; [auto|]. split; intros k Hk.
  - intros Hw. apply H2; auto. apply near_within; auto.
  - apply H3. rewrite near_within; auto.
Qed.

Lemma fill_errors c b e lab ls :
  nb_size c = zlen ls ->
  (zlen ls < e \/ b < 0 -> fill_from_left c b e lab ls = ThrowInvalid) /\
  (zlen ls <= e \/ b < -1 -> fill_from_right c b e lab ls = ThrowInvalid) /\
  (nb_total c (zlen ls) -> 0 <= b -> b < e -> e <= zlen ls ->
     exists ls', fill_from_left c b e lab ls = Ok ls') /\
  (nb_total c (zlen ls) -> -1 <= b -> b < e -> e < zlen ls ->
     exists ls', fill_from_right c b e lab ls = Ok ls').
Proof.
  intros Hs. repeat split.
  - intros H. unfold fill_from_left. rewrite Hs, Z.eqb_refl. simpl.
    destruct (zlen ls <? e) eqn:E1; auto. destruct (b <? 0) eqn:E2; auto. lia.
  - intros H. unfold fill_from_right. rewrite Hs, Z.eqb_refl. simpl.
    destruct (zlen ls <=? e) eqn:E1; auto. destruct (b <? -1) eqn:E2; auto. lia.
  - intros. apply fill_from_left_total; auto.
  - intros. apply fill_from_right_total; auto.
Qed.
