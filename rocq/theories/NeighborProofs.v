(** Proofs about the neighbour relation (x/neighbor.hpp, extraction/src/math.cpp). *)
From Coq Require Import List ZArith Bool Lia Reals Lra.
From Flocq Require Import Core.
From Flocq Require Import IEEE754.BinarySingleNaN.
From Verif Require Import Base Arith ExtractModel Spec FillProofs.
Import ListNotations.
Open Scope Z_scope.

(** commutativity of the double product, NaN and infinities included *)
Lemma Bmult_comm prec emax (p0 : FLX.Prec_gt_0 prec) (p1 : Prec_lt_emax prec emax) m
  (x y : binary_float prec emax) :
  Bmult (prec_gt_0_ := p0) (prec_lt_emax_ := p1) m x y = Bmult m y x.
Proof.
  destruct x as [sx|sx| |sx mx ex Hx], y as [sy|sy| |sy my ey Hy]; simpl; auto;
    try (rewrite xorb_comm; reflexivity).
  apply B2SF_inj. rewrite !B2SF_SF2B. rewrite xorb_comm, Pos.mul_comm, Z.add_comm. auto.
Qed.

Lemma mul64_comm x y : mul64 x y = mul64 y x.
Proof. apply Bmult_comm. Qed.

Definition mul_comm_arith (A : arith) : Prop := forall x y, d_mul A x y = d_mul A y x.

Lemma ieee_mul_comm acosf : mul_comm_arith (ieee acosf).
Proof. intros x y. apply mul64_comm. Qed.

Lemma exact_mul_comm : mul_comm_arith exact.
Proof. intros x y. apply Rmult_comm. Qed.

Lemma calc_radian_sym A x1 y1 x2 y2 :
  mul_comm_arith A -> calc_radian A x1 y1 x2 y2 = calc_radian A x2 y2 x1 y1.
Proof.
  intros H. unfold calc_radian.
  rewrite (H x2 x1), (H y2 y1), (H (xy_norm A x2 y2)), andb_comm. auto.
Qed.

Lemma vat_cases {T} (l : list T) i : (exists v, vat l i = Ok v) \/ vat l i = ThrowRange.
Proof. unfold vat. destruct (i <? 0); auto. destruct (nth_error _ _); eauto. Qed.

Lemma m_at_cases A (m : mapped A) i : (exists v, m_at A m i = Ok v) \/ m_at A m i = ThrowRange.
Proof.
  unfold m_at. destruct (vat_cases (m_indices A m) i) as [[k ->]| ->]; simpl; auto.
  apply vat_cases.
Qed.

Lemma nb_xy_symmetric A m thr : mul_comm_arith A -> nb_symmetric (nb_xy A m thr).
Proof.
  intros H i j. simpl. unfold check_index.
  destruct (i <? 0) eqn:E1, (j <? 0) eqn:E2; simpl; auto.
  - destruct (m_size A m <=? j); auto.
  - destruct (m_size A m <=? i); auto.
  - destruct (m_size A m <=? i), (m_size A m <=? j); simpl; auto.
    destruct (m_at_cases A m i) as [[p ->]| ->], (m_at_cases A m j) as [[q ->]| ->]; simpl; auto.
    unfold is_neighbor_xy. rewrite calc_radian_sym by auto. auto.
Qed.

(** the neighbour relation of a slice is the relation of the ring, shifted *)
Lemma get_firstn {T} (l : list T) n k : 0 <= k < Z.of_nat n -> get (firstn n l) k = get l k.
Proof.
  intros H. unfold get. destruct (k <? 0) eqn:E; auto.
  assert (Hk : (Z.to_nat k < n)%nat) by lia. revert Hk. generalize (Z.to_nat k) as j.
  clear. revert l. induction n as [|n IH]; intros l j Hj; [lia|].
  destruct l; simpl; auto. destruct j; simpl; auto. apply IH. lia.
Qed.

Lemma nth_error_skipn {T} (l : list T) n k : nth_error (skipn n l) k = nth_error l (n + k).
Proof.
  revert l; induction n as [|n IH]; intros l; simpl; auto. destruct l; simpl; auto.
  destruct k; auto.
Qed.

Lemma get_skipn {T} (l : list T) n k : 0 <= k -> get (skipn n l) k = get l (Z.of_nat n + k).
Proof.
  intros H. unfold get. destruct (k <? 0) eqn:E; [apply Z.ltb_lt in E; lia|].
  destruct (Z.of_nat n + k <? 0) eqn:E2; [apply Z.ltb_lt in E2; lia|].
  rewrite nth_error_skipn. f_equal. lia.
Qed.

Lemma vslice_spec {T} (l : list T) b e l' :
  vslice l b e = Ok l' ->
  0 <= b /\ b <= e /\ e <= zlen l /\ zlen l' = e - b /\
  (forall k, 0 <= k < e - b -> get l' k = get l (b + k)).
Proof.
  unfold vslice. destruct ((0 <=? b) && (b <=? e) && (e <=? zlen l)) eqn:E; [|discriminate].
  apply andb_true_iff in E. destruct E as [E E3]. apply andb_true_iff in E. destruct E as [E1 E2].
  apply Z.leb_le in E1, E2, E3. intros H; inversion H; subst; clear H.
  repeat split; auto.
  - unfold zlen in *. rewrite firstn_length, skipn_length. lia.
  - intros k Hk. rewrite get_firstn by lia. rewrite get_skipn by lia. f_equal. lia.
Qed.

Lemma get_app {T} (l1 l2 : list T) i :
  get (l1 ++ l2) i = if i <? zlen l1 then get l1 i else get l2 (i - zlen l1).
Proof.
  unfold get, zlen. destruct (i <? 0) eqn:E0.
  - destruct (i <? Z.of_nat (length l1)) eqn:E1; auto.
    apply Z.ltb_lt in E0. apply Z.ltb_ge in E1. lia.
  - apply Z.ltb_ge in E0. destruct (i <? Z.of_nat (length l1)) eqn:E1.
    + apply Z.ltb_lt in E1. apply nth_error_app1. lia.
    + apply Z.ltb_ge in E1. destruct (i - Z.of_nat (length l1) <? 0) eqn:E2; [apply Z.ltb_lt in E2; lia|].
      rewrite nth_error_app2 by lia. f_equal. lia.
Qed.

Lemma vunslice_spec {T} (l s : list T) b :
  0 <= b -> b + zlen s <= zlen l ->
  zlen (vunslice l s b) = zlen l /\
  forall i, get (vunslice l s b) i =
            if (b <=? i) && (i <? b + zlen s) then get s (i - b) else get l i.
Proof.
  intros Hb Hs. unfold vunslice.
  assert (Hf : zlen (firstn (Z.to_nat b) l) = b).
  { unfold zlen in *. rewrite firstn_length. lia. }
  split.
  - unfold zlen in *. rewrite !app_length, firstn_length, skipn_length. lia.
  - intros i. rewrite get_app, Hf. destruct (i <? b) eqn:E1.
    + apply Z.ltb_lt in E1. destruct (b <=? i) eqn:E2; [apply Z.leb_le in E2; lia|]. simpl.
      destruct (Z_lt_le_dec i 0).
      * rewrite !get_none; auto; try lia.
      * apply get_firstn. lia.
    + apply Z.ltb_ge in E1. destruct (b <=? i) eqn:E2; [|apply Z.leb_gt in E2; lia]. simpl.
      rewrite get_app. destruct (i - b <? zlen s) eqn:E3.
      * apply Z.ltb_lt in E3. destruct (i <? b + zlen s) eqn:E4; auto. apply Z.ltb_ge in E4. lia.
      * apply Z.ltb_ge in E3. destruct (i <? b + zlen s) eqn:E4; [apply Z.ltb_lt in E4; lia|].
        rewrite get_skipn by lia. f_equal. unfold zlen. lia.
Qed.

Lemma nb_xy_slice A (m sm : mapped A) thr b e i j :
  m_slice A m b e = Ok sm -> 0 <= i < e - b -> 0 <= j < e - b ->
  nb (nb_xy A sm thr) i j = nb (nb_xy A m thr) (b + i) (b + j).
Proof.
  intros H Hi Hj. unfold m_slice in H. apply bind_ok in H. destruct H as [ix [Hix H]].
  inversion H; subst; clear H. apply vslice_spec in Hix. destruct Hix as [H0 [H1 [H2 [H3 H4]]]].
  simpl. unfold m_size. simpl. rewrite H3.
  assert (Hc : forall n k, 0 <= k < n -> check_index n k = Ok tt).
  { intros n k Hk. unfold check_index. destruct (k <? 0) eqn:E; [apply Z.ltb_lt in E; lia|].
    destruct (n <=? k) eqn:E'; [apply Z.leb_le in E'; lia|]. auto. }
  rewrite !Hc by lia. simpl. unfold m_at. simpl.
  assert (Hv : forall k, 0 <= k < e - b -> vat ix k = vat (m_indices A m) (b + k)).
  { intros k Hk. specialize (H4 k Hk). destruct (get_some ix k) as [v Hv]; [lia|].
    rewrite Hv in H4. symmetry in H4. apply vat_get in Hv, H4. congruence. }
  rewrite !Hv by lia. auto.
Qed.
