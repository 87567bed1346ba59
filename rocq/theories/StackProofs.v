(** Entry-wise facts about the time-delay Kalman filter's stacked vectors and matrices. *)
From Coq Require Import Reals Lra Lia PeanoNat List Bool ZArith ZifyBool.
From Verif Require Import Base Arith EkfModel KalmanModel SpecKalman.
Import ListNotations.
Local Open Scope nat_scope.

Ltac tests := repeat match goal with
  | |- context [?x <=? ?y] => first [replace (x <=? y) with true by lia | replace (x <=? y) with false by lia]
  | |- context [?x <? ?y] => first [replace (x <? y) with true by lia | replace (x <? y) with false by lia]
  end; cbn [andb].

(** ** Sums *)
Lemma total_ext n f g : (forall i, i < n -> f i = g i) -> total n f = total n g.
Proof. induction n as [|n IH]; intros H; cbn; [reflexivity|]. rewrite IH by (intros; apply H; lia). f_equal. apply H. lia. Qed.
Lemma total_zero n f : (forall i, i < n -> f i = 0%R) -> total n f = 0%R.
Proof. induction n as [|n IH]; intros H; cbn; [reflexivity|]. rewrite IH by (intros; apply H; lia). rewrite H by lia. lra. Qed.
Lemma total_split a b f : total (a + b) f = (total a f + total b (fun i => f (a + i)%nat))%R.
Proof.
  induction b as [|b IH]; cbn.
  - rewrite Nat.add_0_r. lra.
  - rewrite Nat.add_succ_r. cbn. rewrite IH. lra.
Qed.
Lemma total_head a b f : b <= a -> (forall i, b <= i < a -> f i = 0%R) -> total a f = total b f.
Proof.
  intros H H0. replace a with (b + (a - b)) by lia. rewrite total_split.
  rewrite (total_zero (a - b)); [lra|]. intros i Hi. apply H0. lia.
Qed.
Lemma total_single a k f : k < a -> (forall i, i < a -> i <> k -> f i = 0%R) -> total a f = f k.
Proof.
  intros H H0. replace a with (k + (1 + (a - k - 1))) by lia. rewrite total_split, total_split. cbn.
  rewrite (total_zero k), (total_zero (a - k - 1)).
  - rewrite Nat.add_0_r. lra.
  - intros i Hi. apply H0; lia.
  - intros i Hi. apply H0; lia.
Qed.
Lemma total_le n f g : (forall i, i < n -> (f i <= g i)%R) -> (total n f <= total n g)%R.
Proof.
  induction n as [|n IH]; intros H; cbn; [lra|].
  assert (A := IH (fun i Hi => H i (Nat.lt_lt_succ_r _ _ Hi))). assert (B := H n (Nat.lt_succ_diag_r n)). lra.
Qed.
Lemma total_plus n f g : total n (fun i => f i + g i)%R = (total n f + total n g)%R.
Proof. induction n as [|n IH]; cbn; [lra|]. rewrite IH. lra. Qed.
Lemma total_scal n c f : total n (fun i => c * f i)%R = (c * total n f)%R.
Proof. induction n as [|n IH]; cbn; [lra|]. rewrite IH. lra. Qed.

(** ** Entries, any arithmetic *)
Section Entries.
Variable A : arith.
Variable junk : nat -> nat -> D A.

Lemma update_x_entry a b x xn i : b <= a -> i < a ->
  update_x A junk a b x xn i = if i <? b then xn i else x (i - b).
Proof.
  intros H Hi. unfold update_x, set_seq. destruct (Nat.ltb_spec i b) as [L|L].
  - tests. rewrite Nat.sub_0_r. reflexivity.
  - tests. reflexivity.
Qed.
Lemma update_p_entry a b P F Q i j : b <= a -> i < a -> j < a ->
  update_p A junk a b P F Q i j =
  if i <? b then
    if j <? b then d_add A (mmul A b (mmul A b F P) (mtr A F) i j) (Q i j) else mmul A b F P i (j - b)
  else if j <? b then mmul A b P (mtr A F) (i - b) j else P (i - b) (j - b).
Proof.
  intros H Hi Hj. unfold update_p, set_block, madd.
  destruct (Nat.ltb_spec i b) as [L|L]; destruct (Nat.ltb_spec j b) as [L2|L2].
  all: tests; rewrite ?Nat.sub_0_r; reflexivity.
Qed.

Lemma init_x_entry d x0 n i : i < n * d -> init_x A junk d x0 n i = x0 (i mod d).
Proof.
  intros H. assert (d0 : d <> 0) by (intros ->; lia).
  enough (E : forall m, fold_left (fun x i => set_seq A (i * d) d x0 x) (seq 0 m) (junk 0) i =
    if i <? m * d then x0 (i mod d) else junk 0 i).
  { unfold init_x. rewrite E. replace (i <? n * d) with true by lia. reflexivity. }
  induction m as [|m IH].
  - cbn. reflexivity.
  - rewrite seq_S, fold_left_app. cbn [fold_left]. unfold set_seq at 1. rewrite Nat.add_0_l, IH.
    destruct (Nat.leb_spec (m * d) i) as [L|L]; cbn [andb].
    + replace (S m * d) with (m * d + d) by lia. destruct (Nat.ltb_spec i (m * d + d)) as [L2|L2].
      * f_equal. replace i with ((i - m * d) + m * d) at 2 by lia. rewrite Nat.mod_add by lia. rewrite Nat.mod_small; lia.
      * replace (i <? m * d) with false by lia. reflexivity.
    + replace (S m * d) with (m * d + d) by lia. tests. reflexivity.
Qed.
Lemma init_p_entry d P0 n i j : i < n * d -> j < n * d ->
  init_p A d P0 n i j = if Nat.eqb (i / d) (j / d) then P0 (i mod d) (j mod d) else d_of_Z A 0.
Proof.
  intros H Hj. assert (d0 : d <> 0) by (intros ->; lia).
  enough (E : forall m, fold_left (fun P k => set_block A (k * d) (k * d) d d P0 P) (seq 0 m) (mzero A) i j =
    if (i <? m * d) && Nat.eqb (i / d) (j / d) then P0 (i mod d) (j mod d) else d_of_Z A 0).
  { unfold init_p. rewrite E. replace (i <? n * d) with true by lia. reflexivity. }
  assert (X : forall k m, (m * d <=? k) && (k <? m * d + d) = Nat.eqb (k / d) m).
  { intros k m. assert (Y := Nat.div_mod k d d0). assert (Z := Nat.mod_upper_bound k d d0).
    destruct (Nat.eqb_spec (k / d) m) as [<-|N].
    - apply andb_true_intro. split; [apply Nat.leb_le|apply Nat.ltb_lt]; lia.
    - apply andb_false_iff. assert (k / d < m \/ m < k / d) as [L|L] by lia.
      + left. apply Nat.leb_gt. nia.
      + right. apply Nat.ltb_ge. nia. }
  assert (M : forall k m, k / d = m -> k - m * d = k mod d).
  { intros k m <-. assert (Y := Nat.div_mod k d d0). lia. }
  induction m as [|m IH].
  - cbn. reflexivity.
  - rewrite seq_S, fold_left_app. cbn [fold_left]. unfold set_block at 1. rewrite Nat.add_0_l, IH, !X. clear IH.
    assert (Y := X i m). cbn [Nat.mul].
    destruct (Nat.eqb_spec (i / d) m) as [E1|E1]; destruct (Nat.eqb_spec (j / d) m) as [E2|E2]; cbn [andb].
    + rewrite (M i m), (M j m) by assumption. rewrite E1, E2, Nat.eqb_refl.
      replace (i <? d + m * d) with true by lia. reflexivity.
    + replace (i / d =? j / d) with false by lia. rewrite !andb_false_r. reflexivity.
    + replace (i / d =? j / d) with false by lia. rewrite !andb_false_r. reflexivity.
    + replace (i <? d + m * d) with (i <? m * d); [reflexivity|].
      apply andb_false_iff in Y. destruct Y; lia.
Qed.

(** ** The buffer of states *)
Lemma td_size_predict f x F Q : td_size A (td_predict A junk f x F Q) = td_size A f.
Proof. reflexivity. Qed.
Lemma td_block_bound f z : (0 <= z < td_max A f)%Z -> Z.to_nat z * td_dim A f + td_dim A f <= td_size A f.
Proof.
  intros H. unfold td_size. assert (Z.to_nat z + 1 <= Z.to_nat (td_max A f)) by lia. nia.
Qed.
Definition td_block (f : tdkf A) (k i : nat) : D A := td_x A f (k * td_dim A f + i).
Lemma td_get_x_block f z : (0 <= z < td_max A f)%Z ->
  exists v, td_get_x A f z = Ok v /\ forall i, v i = td_block f (Z.to_nat z) i.
Proof.
  intros H. unfold td_get_x. replace ((0 <=? z)%Z && (z <? td_max A f)%Z) with true by lia. eexists. split; [reflexivity|]. reflexivity.
Qed.
Lemma td_block_predict f x F Q k i : k < Z.to_nat (td_max A f) -> i < td_dim A f ->
  td_block (td_predict A junk f x F Q) k i = match k with 0 => x i | S k' => td_block f k' i end.
Proof.
  intros Hk Hi. unfold td_block, td_predict. cbn [td_x td_dim].
  assert (B := td_block_bound f (Z.of_nat k) ltac:(lia)). rewrite Nat2Z.id in B.
  rewrite update_x_entry by nia. destruct k as [|k].
  - rewrite Nat.mul_0_l, Nat.add_0_l. tests. reflexivity.
  - replace (S k * td_dim A f + i) with (td_dim A f + (k * td_dim A f + i)) by lia. tests. f_equal. lia.
Qed.
End Entries.

(** ** Stacked matrices over the reals *)
Lemma sum_total n f : KalmanModel.sum exact n f = total n f.
Proof. induction n as [|n IH]; cbn; [reflexivity|]. now rewrite IH. Qed.
Lemma mmul_times n X Y i j : mmul exact n X Y i j = times n X Y i j.
Proof. apply sum_total. Qed.

Lemma stacked_left d F a X i j : d <= a -> i < a ->
  times a (stacked_transition d F) X i j = if i <? d then times d F X i j else X (i - d) j.
Proof.
  intros Hd Hi. unfold times, stacked_transition. destruct (Nat.ltb_spec i d) as [L|L].
  - rewrite (total_head a d) by (lia || (intros l Hl; replace (l <? d) with false by lia; lra)).
    apply total_ext. intros l Hl. replace (l <? d) with true by lia. reflexivity.
  - rewrite (total_single a (i - d)).
    + replace (i =? i - d + d) with true by lia. lra.
    + lia.
    + intros l Hl N. replace (i =? l + d) with false by lia. lra.
Qed.
Lemma stacked_right d F a X i j : d <= a -> j < a ->
  times a X (flip (stacked_transition d F)) i j = if j <? d then times d X (flip F) i j else X i (j - d).
Proof.
  intros Hd Hj. unfold times, flip, stacked_transition. destruct (Nat.ltb_spec j d) as [L|L].
  - rewrite (total_head a d) by (lia || (intros l Hl; replace (l <? d) with false by lia; lra)).
    apply total_ext. intros l Hl. replace (l <? d) with true by lia. reflexivity.
  - rewrite (total_single a (j - d)).
    + replace (j =? j - d + d) with true by lia. lra.
    + lia.
    + intros l Hl N. replace (j =? l + d) with false by lia. lra.
Qed.
Lemma times_ext_l k X X' Y i j : (forall l, l < k -> X i l = X' i l) -> times k X Y i j = times k X' Y i j.
Proof. intros H. unfold times. apply total_ext. intros l Hl. rewrite H by assumption. reflexivity. Qed.

Lemma update_p_stacked junk a d P F Q : d <= a ->
  same_matrix a a (update_p exact junk a d P F Q)
    (plus (times a (times a (stacked_transition d F) P) (flip (stacked_transition d F))) (stacked_noise d Q)).
Proof.
  intros Hd i j Hi Hj. rewrite update_p_entry by assumption. unfold plus. rewrite stacked_right by assumption.
  unfold stacked_noise. destruct (Nat.ltb_spec i d) as [L|L]; destruct (Nat.ltb_spec j d) as [L2|L2]; cbn [andb].
  - rewrite mmul_times. cbn. f_equal. apply times_ext_l. intros l Hl. rewrite mmul_times, stacked_left by lia.
    replace (i <? d) with true by lia. reflexivity.
  - rewrite mmul_times, stacked_left by lia. replace (i <? d) with true by lia. lra.
  - rewrite mmul_times, Rplus_0_r. unfold times at 1. unfold times at 1. apply total_ext. intros l Hl.
    rewrite stacked_left by lia. replace (i <? d) with false by lia. reflexivity.
  - rewrite stacked_left by lia. replace (i <? d) with false by lia. lra.
Qed.
Lemma update_x_stacked junk a d x xn F : d <= a ->
  same_vector a (update_x exact junk a d x xn)
    (fun i => apply_to a (stacked_transition d F) x i + stacked_offset d (fun k => xn k - apply_to d F x k) i)%R.
Proof.
  intros Hd i Hi. rewrite update_x_entry by assumption. unfold stacked_offset.
  change (apply_to a (stacked_transition d F) x i) with (times a (stacked_transition d F) (fun l _ => x l) i 0).
  rewrite stacked_left by assumption. destruct (i <? d); [|lra].
  change (apply_to d F x i) with (times d F (fun l _ => x l) i 0). lra.
Qed.
Lemma measurement_stacked h d C n k : k < n -> 0 < d ->
  same_matrix h (n * d) (make_measurement_matrix exact h d C n k) (stacked_measurement d k C).
Proof.
  intros Hk Hd i j Hi Hj. unfold make_measurement_matrix, set_block, stacked_measurement, mzero. rewrite Nat.sub_0_r. cbn [Nat.leb Nat.add andb].
  replace (i <? h) with true by lia. cbn [andb].
  assert (Y := Nat.div_mod j d ltac:(lia)). assert (Z := Nat.mod_upper_bound j d ltac:(lia)).
  destruct (Nat.eqb_spec (j / d) k) as [E|E].
  - replace (d * k <=? j) with true by nia. replace (j <? d * k + d) with true by nia. cbn. f_equal. nia.
  - assert (j / d < k \/ k < j / d) as [L|L] by lia.
    + replace (d * k <=? j) with false by nia. reflexivity.
    + replace (j <? d * k + d) with false by nia. rewrite andb_false_r. reflexivity.
Qed.

(** The initial covariance is positive semidefinite. *)
Lemma variance_blocks d P0 v n : d <> 0 ->
  variance_along (n * d) (fun i j => if Nat.eqb (i / d) (j / d) then P0 (i mod d) (j mod d) else 0%R) v =
  total n (fun k => variance_along d P0 (fun i => v (k * d + i))).
Proof.
  intros d0. set (B := fun i j => if Nat.eqb (i / d) (j / d) then P0 (i mod d) (j mod d) else 0%R).
  induction n as [|n IH]; [reflexivity|]. cbn [total]. rewrite <- IH.
  replace (S n * d) with (n * d + d) by lia.
  assert (DM : forall i, i < d -> (n * d + i) / d = n /\ (n * d + i) mod d = i).
  { intros i Hi. rewrite Nat.add_comm, Nat.div_add, Nat.mod_add, Nat.div_small, Nat.mod_small by lia. lia. }
  assert (DL : forall i, i < n * d -> i / d < n) by (intros i Hi; apply Nat.div_lt_upper_bound; lia).
  unfold variance_along at 1. rewrite total_split. f_equal.
  - apply total_ext. intros i Hi. rewrite total_split, (total_zero d); [lra|].
    intros j Hj. unfold B. destruct (DM j Hj) as [-> _]. assert (D := DL i Hi). replace (i / d =? n) with false by lia. lra.
  - apply total_ext. intros i Hi. rewrite total_split, (total_zero (n * d)).
    + rewrite Rplus_0_l. apply total_ext. intros j Hj. unfold B. destruct (DM j Hj) as [-> ->]. destruct (DM i Hi) as [-> ->].
      rewrite Nat.eqb_refl. reflexivity.
    + intros j Hj. unfold B. destruct (DM i Hi) as [-> _]. assert (D := DL j Hj). replace (n =? j / d) with false by lia. lra.
Qed.
Lemma variance_ext n P Q v w : same_matrix n n P Q -> same_vector n v w -> variance_along n P v = variance_along n Q w.
Proof.
  intros H Hv. unfold variance_along. apply total_ext. intros i Hi. apply total_ext. intros j Hj.
  rewrite (H i j), (Hv i), (Hv j) by assumption. reflexivity.
Qed.
Lemma init_p_psd d P0 n : positive_semidefinite d P0 -> positive_semidefinite (n * d) (init_p exact d P0 n).
Proof.
  intros [Hs Hp]. split.
  - intros i j Hi Hj. rewrite !init_p_entry by assumption. rewrite (Nat.eqb_sym (j / d)).
    destruct (i / d =? j / d); [|reflexivity]. assert (d <> 0) by (intros ->; lia). apply Hs; apply Nat.mod_upper_bound; assumption.
  - intros v. destruct (Nat.eq_dec d 0) as [->|d0].
    + replace (n * 0) with 0 by lia. cbn. lra.
    + rewrite (variance_ext _ _ (fun i j => if Nat.eqb (i / d) (j / d) then P0 (i mod d) (j mod d) else 0%R) v v).
      * rewrite variance_blocks by assumption. rewrite <- (total_zero n (fun _ => 0%R)) by reflexivity. apply total_le. intros; apply Hp.
      * intros i j Hi Hj. exact (init_p_entry exact d P0 n i j Hi Hj).
      * intros i Hi. reflexivity.
Qed.
(** The covariance of the newest block is a part of that of the stack. *)
Lemma corner_psd n d P : d <= n -> positive_semidefinite n P -> positive_semidefinite d P.
Proof.
  intros H [Hs Hp]. split; [intros i j Hi Hj; apply Hs; lia|].
  intros v. specialize (Hp (fun i => if i <? d then v i else 0%R)). unfold variance_along in *.
  rewrite (total_head n d) in Hp; [|assumption|].
  - enough (E : total d (fun i => total d (fun j => v i * P i j * v j))%R =
      total d (fun i => total n (fun j => ((if (i <? d)%nat then v i else 0) * P i j * (if (j <? d)%nat then v j else 0))%R))) by (rewrite E; exact Hp).
    apply total_ext. intros i Hi. rewrite (total_head n d); [|assumption|].
    + apply total_ext. intros j Hj. replace (i <? d) with true by lia. replace (j <? d) with true by lia. reflexivity.
    + intros j Hj. replace (j <? d) with false by lia. lra.
  - intros i Hi. apply total_zero. intros j Hj. replace (i <? d) with false by lia. lra.
Qed.

(** ** Measurement of a delayed block and the transition *)
Lemma small_block d C k i l : l < d -> stacked_measurement d (S k) C i l = 0%R.
Proof. intros Hl. unfold stacked_measurement. rewrite Nat.div_small by assumption. reflexivity. Qed.
Lemma measurement_transition h d n C k F : 0 < d -> S k < n ->
  same_matrix h (n * d) (times (n * d) (stacked_measurement d (S k) C) (stacked_transition d F)) (stacked_measurement d k C).
Proof.
  intros d0 Hk i j Hi Hj. unfold times, stacked_transition.
  assert (Djd : (j + d) / d = S (j / d)).
  { replace (j + d) with (j + 1 * d) by lia. rewrite Nat.div_add by lia. lia. }
  assert (Mjd : (j + d) mod d = j mod d).
  { replace (j + d) with (j + 1 * d) by lia. apply Nat.mod_add. lia. }
  destruct (Nat.lt_ge_cases (j + d) (n * d)) as [L|L].
  - rewrite (total_single (n * d) (j + d)) by
      (assumption || (intros l Hl N; destruct (Nat.ltb_spec l d); [rewrite small_block by assumption; lra|replace (l =? j + d) with false by lia; lra])).
    replace (j + d <? d) with false by lia. rewrite Nat.eqb_refl. unfold stacked_measurement. rewrite Djd, Mjd. cbn. lra.
  - rewrite total_zero.
    + unfold stacked_measurement. replace (j / d =? k) with false; [reflexivity|].
      symmetry. apply Nat.eqb_neq. intros E. assert (H1 := Nat.div_mod j d ltac:(lia)). assert (H2 := Nat.mod_upper_bound j d ltac:(lia)). nia.
    + intros l Hl. destruct (Nat.ltb_spec l d); [rewrite small_block by assumption; lra|]. replace (l =? j + d) with false by lia. lra.
Qed.
Lemma measurement_noise d a C k Q i j : times a (stacked_measurement d (S k) C) (stacked_noise d Q) i j = 0%R.
Proof.
  apply total_zero. intros l Hl. unfold stacked_noise. destruct (Nat.ltb_spec l d); cbn [andb]; [rewrite small_block by assumption|]; lra.
Qed.
Lemma noise_measurement d a C k Q i j : times a (stacked_noise d Q) (flip (stacked_measurement d (S k) C)) i j = 0%R.
Proof.
  apply total_zero. intros l Hl. unfold stacked_noise, flip. destruct (Nat.ltb_spec l d); [rewrite small_block by assumption|rewrite andb_false_r]; lra.
Qed.
Lemma measurement_offset d a C k b i : apply_to a (stacked_measurement d (S k) C) (stacked_offset d b) i = 0%R.
Proof.
  apply total_zero. intros l Hl. unfold stacked_offset. destruct (Nat.ltb_spec l d); [rewrite small_block by assumption|]; lra.
Qed.
Lemma stacked_noise_entry_psd a d Q : d <= a -> positive_semidefinite d Q -> positive_semidefinite a (stacked_noise d Q).
Proof.
  intros Hd [Hs Hp]. split.
  - intros i j Hi Hj. unfold stacked_noise. rewrite andb_comm. destruct (Nat.ltb_spec j d); destruct (Nat.ltb_spec i d); cbn; auto.
  - intros v. enough (E : variance_along a (stacked_noise d Q) v = variance_along d Q v) by (rewrite E; apply Hp).
    unfold variance_along, stacked_noise. rewrite (total_head a d); [|assumption|].
    + apply total_ext. intros i Hi. rewrite (total_head a d); [|assumption|].
      * apply total_ext. intros j Hj. tests. reflexivity.
      * intros j Hj. replace (j <? d) with false by lia. rewrite andb_false_r. lra.
    + intros i Hi. apply total_zero. intros j Hj. replace (i <? d) with false by lia. cbn. lra.
Qed.
