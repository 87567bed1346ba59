(** Proofs about lib/: median, selection, sorting three values, covariance arrays. *)
From Coq Require Import List ZArith Bool Arith Lia Lra Permutation Reals Sorting.Sorted.
From Verif Require Import Base Arith Spec LibModel SpecLib LabelProofs AngleProofs.
Import ListNotations.

Lemma filter_perm {T} (f : T -> bool) l l' : Permutation l l' -> Permutation (filter f l) (filter f l').
Proof.
  induction 1; simpl; auto.
  - destruct (f x); auto.
  - destruct (f x), (f y); auto. apply perm_swap.
  - eapply Permutation_trans; eauto.
Qed.
Lemma count_perm {T} (f : T -> bool) l l' : Permutation l l' -> count f l = count f l'.
Proof. intros H. apply Permutation_length, filter_perm, H. Qed.
Lemma count_app {T} (f : T -> bool) l l' : count f (l ++ l') = (count f l + count f l')%nat.
Proof. unfold count. rewrite filter_app, app_length. auto. Qed.
Lemma count_le {T} (f : T -> bool) l : (count f l <= length l)%nat.
Proof. unfold count. induction l; simpl; auto. destruct (f a); simpl; lia. Qed.
Lemma count_all {T} (f : T -> bool) l : (forall x, In x l -> f x = true) -> count f l = length l.
Proof.
  unfold count. induction l as [|a l IH]; intros H; simpl; auto. rewrite H by (left; auto). simpl.
  f_equal. apply IH. intros; apply H; right; auto.
Qed.
Lemma count_none {T} (f : T -> bool) l : (forall x, In x l -> f x = false) -> count f l = O.
Proof.
  unfold count. induction l as [|a l IH]; intros H; simpl; auto. rewrite H by (left; auto).
  apply IH. intros; apply H; right; auto.
Qed.
Lemma count_mono {T} (f g : T -> bool) l : (forall x, In x l -> f x = true -> g x = true) -> (count f l <= count g l)%nat.
Proof.
  unfold count. induction l as [|a l IH]; intros H; simpl; auto.
  assert (IH' : (length (filter f l) <= length (filter g l))%nat) by (apply IH; intros; apply H; auto; right; auto).
  destruct (f a) eqn:E.
  - rewrite H by (simpl; auto). simpl. lia.
  - destruct (g a); simpl; lia.
Qed.

Lemma In_firstn_nth {T} (l : list T) n x : In x (firstn n l) -> exists i, (i < n)%nat /\ nth_error l i = Some x.
Proof.
  revert n. induction l as [|a l IH]; intros [|n] H; simpl in *; try contradiction.
  destruct H as [<-|H]; [exists O; split; [lia|auto]|].
  destruct (IH n H) as [i [H1 H2]]. exists (S i). split; [lia|auto].
Qed.
Lemma In_skipn_nth {T} (l : list T) n x : In x (skipn n l) -> exists i, (n <= i)%nat /\ nth_error l i = Some x.
Proof.
  revert n. induction l as [|a l IH]; intros [|n] H; simpl in *; try contradiction.
  - destruct H as [<-|H]; [exists O; auto|]. apply In_nth_error in H. destruct H as [i Hi].
    exists (S i). split; [lia|auto].
  - destruct (IH n H) as [i [H1 H2]]. exists (S i). split; [lia|auto].
Qed.
Lemma split_at {T} (l : list T) n x : nth_error l n = Some x -> l = firstn n l ++ x :: skipn (S n) l.
Proof.
  revert n. induction l as [|a l IH]; intros [|n] H; simpl in *; try discriminate.
  - inversion H; auto.
  - f_equal. apply IH, H.
Qed.

Section Med.
Variable A : arith.
Variable sel : selector A.
Hypothesis Hsel : valid_nth A sel.

Lemma selected v n : (n < length v)%nat -> strict_weak_order (d_ltb A) v ->
  exists x, nth_element A sel v n = Ok (sel v n) /\ at_unchecked A (sel v n) n = Ok x /\
    In x v /\ Permutation v (sel v n) /\
    (count (fun y => d_ltb A y x) v <= n)%nat /\
    (count (fun y => d_ltb A x y) v <= length v - n - 1)%nat.
Proof.
  intros Hn Hs. destruct (Hsel v n Hn Hs) as [HP Hx].
  pose proof (Permutation_length HP) as HL.
  destruct (nth_error (sel v n) n) as [x|] eqn:E; [|apply nth_error_None in E; lia].
  specialize (Hx x eq_refl). destruct Hx as [Hlo Hhi].
  exists x. unfold nth_element, at_unchecked. rewrite (proj2 (swo_on_spec _ _) Hs), E.
  split; auto. split; auto. split.
  { apply Permutation_in with (l := sel v n); [apply Permutation_sym; auto|]. eapply nth_error_In; eauto. }
  split; auto. rewrite !(count_perm _ _ _ HP). pose proof (split_at _ _ _ E) as Hsp.
  assert (Hirr : d_ltb A x x = false).
  { apply (proj1 Hs). apply Permutation_in with (l := sel v n); [apply Permutation_sym; auto|]. eapply nth_error_In; eauto. }
  rewrite Hsp. rewrite !count_app. split.
  - change (x :: skipn (S n) (sel v n)) with ([x] ++ skipn (S n) (sel v n)). rewrite count_app.
    rewrite (count_none _ [x]), (count_none _ (skipn (S n) (sel v n))).
    + pose proof (count_le (fun y => d_ltb A y x) (firstn n (sel v n))) as G.
      rewrite firstn_length in G. lia.
    + intros y Hy. apply In_skipn_nth in Hy. destruct Hy as [i [H1 H2]]. apply (Hhi i y); auto.
    + intros y [<-|[]]. auto.
  - change (x :: skipn (S n) (sel v n)) with ([x] ++ skipn (S n) (sel v n)). rewrite count_app.
    rewrite (count_none _ [x]), (count_none _ (firstn n (sel v n))).
    + pose proof (count_le (fun y => d_ltb A x y) (skipn (S n) (sel v n))) as G.
      rewrite skipn_length in G. lia.
    + intros y Hy. apply In_firstn_nth in Hy. destruct Hy as [i [H1 H2]]. apply (Hlo i y); auto.
    + intros y [<-|[]]. auto.
Qed.

Lemma swo_perm v v' : Permutation v v' -> strict_weak_order (d_ltb A) v -> strict_weak_order (d_ltb A) v'.
Proof.
  intros HP [H1 [H2 H3]].
  assert (Hin : forall x, In x v' -> In x v) by (intros; eapply Permutation_in; [apply Permutation_sym; eauto|auto]).
  split; [|split]; intros; eauto 8.
Qed.

(** shape of the result, any arithmetic *)
Lemma median_cases v : strict_weak_order (d_ltb A) v ->
  (v = [] /\ median A sel v = ThrowInvalid) \/
  (exists n x, length v = (2 * n + 1)%nat /\ median A sel v = Ok x /\ In x v /\
     (count (fun y => d_ltb A y x) v <= n)%nat /\ (count (fun y => d_ltb A x y) v <= n)%nat) \/
  (exists n e0 e1, length v = (2 * n)%nat /\ (1 <= n)%nat /\
     median A sel v = Ok (d_div A (d_add A e0 e1) (d_of_Z A 2)) /\ In e0 v /\ In e1 v /\
     (count (fun y => d_ltb A y e0) v <= n)%nat /\ (count (fun y => d_ltb A e0 y) v <= n - 1)%nat /\
     (count (fun y => d_ltb A y e1) v <= n - 1)%nat /\ (count (fun y => d_ltb A e1 y) v <= n)%nat).
Proof.
  intros Hs. unfold median. destruct (length v =? 0)%nat eqn:E0.
  { apply Nat.eqb_eq in E0. left. split; auto. destruct v; auto. discriminate. }
  apply Nat.eqb_neq in E0. right. destruct (length v mod 2 =? 1)%nat eqn:E1.
  - left. apply Nat.eqb_eq in E1.
    assert (Hn : length v = (2 * ((length v - 1) / 2) + 1)%nat).
    { pose proof (Nat.div_mod (length v) 2 ltac:(lia)) as D. rewrite E1 in D.
      replace (length v - 1)%nat with (length v / 2 * 2)%nat by lia. rewrite Nat.div_mul by lia. lia. }
    set (n := ((length v - 1) / 2)%nat) in *.
    destruct (selected v n ltac:(lia) Hs) as [x [H1 [H2 [H3 [_ [H4 H5]]]]]].
    exists n, x. rewrite H1. cbn [bind]. rewrite H2. repeat split; auto. lia.
  - right. apply Nat.eqb_neq in E1.
    assert (Hm : (length v mod 2 = 0)%nat) by (pose proof (Nat.mod_upper_bound (length v) 2); lia).
    assert (Hn : length v = (2 * (length v / 2))%nat).
    { pose proof (Nat.div_mod (length v) 2 ltac:(lia)) as D. lia. }
    set (n := (length v / 2)%nat) in *.
    destruct (selected v n ltac:(lia) Hs) as [x [H1 [H2 [H3 [HP [H4 H5]]]]]].
    pose proof (Permutation_length HP) as HL.
    destruct (selected (sel v n) (n - 1) ltac:(lia) (swo_perm _ _ HP Hs)) as [y [G1 [G2 [G3 [_ [G4 G5]]]]]].
    exists n, x, y. rewrite H1. cbn [bind]. rewrite H2. cbn [bind]. rewrite G1. cbn [bind]. rewrite G2. cbn [bind].
    split; [lia|]. split; [lia|]. split; auto. split; auto.
    split; [eapply Permutation_in; [apply Permutation_sym; eauto|auto]|].
    rewrite <- (count_perm _ _ _ HP) in G4. rewrite <- (count_perm _ _ _ HP) in G5. repeat split; lia.
Qed.

End Med.

(** ** reals *)
Open Scope R_scope.

Lemma swo_R l : strict_weak_order Rltb l.
Proof.
  assert (F : forall a b, Rltb a b = false <-> b <= a).
  { intros a b. split; [apply rltb_false|]. intros H. destruct (Rltb a b) eqn:E; auto. apply Rltb_spec in E. lra. }
  split; [|split].
  - intros a _. apply F. lra.
  - intros a b c _ _ _ H1 H2. apply Rltb_spec in H1, H2. apply Rltb_spec. lra.
  - intros a b c _ _ _ H1 H2 H3 H4. apply F in H1, H2, H3, H4. split; apply F; lra.
Qed.

(** an element with few smaller and few greater elements is the one at that position of
    the sorted data *)
Lemma rank_unique (v s : list R) n x : Permutation v s -> StronglySorted Rle s ->
  (n < length v)%nat ->
  (count (fun y => Rltb y x) v <= n)%nat -> (count (fun y => Rltb x y) v <= length v - n - 1)%nat ->
  nth_error s n = Some x.
Proof.
  intros HP HS Hn Hlo Hhi. rewrite (count_perm _ _ _ HP) in Hlo. rewrite (count_perm _ _ _ HP) in Hhi.
  rewrite (Permutation_length HP) in Hn. rewrite (Permutation_length HP) in Hhi.
  destruct (nth_error s n) as [y|] eqn:E; [|apply nth_error_None in E; lia]. f_equal.
  pose proof (split_at _ _ _ E) as Hsp.
  assert (Hbefore : forall z, In z (firstn n s) -> z <= y).
  { intros z Hz. rewrite Hsp in HS. clear - HS Hz.
    revert HS. generalize (skipn (S n) s). intros t. induction (firstn n s) as [|a l IH]; [contradiction|].
    intros HS. simpl in HS. inversion HS; subst. destruct Hz as [<-|Hz]; auto.
    rewrite Forall_forall in H2. apply H2. apply in_or_app. right. left. auto. }
  assert (Hafter : forall z, In z (skipn (S n) s) -> y <= z).
  { intros z Hz. rewrite Hsp in HS. clear - HS Hz.
    induction (firstn n s) as [|a l IH]; simpl in HS; inversion HS; subst; auto.
    rewrite Forall_forall in H2. auto. }
  destruct (Rtotal_order y x) as [H|[H|H]]; auto; exfalso.
  - rewrite Hsp in Hlo. rewrite count_app in Hlo.
    rewrite (count_all _ (firstn n s)) in Hlo.
    + rewrite firstn_length in Hlo. change (y :: skipn (S n) s) with ([y] ++ skipn (S n) s) in Hlo.
      rewrite count_app, (count_all _ [y]) in Hlo; [simpl in Hlo; lia|].
      intros z [<-|[]]. apply Rltb_spec. lra.
    + intros z Hz. apply Rltb_spec. specialize (Hbefore z Hz). lra.
  - remember (length s) as L eqn:EL. rewrite Hsp in Hhi. rewrite count_app in Hhi.
    change (y :: skipn (S n) s) with ([y] ++ skipn (S n) s) in Hhi.
    rewrite count_app, (count_all _ [y]), (count_all _ (skipn (S n) s)) in Hhi.
    + rewrite skipn_length in Hhi. simpl in Hhi. lia.
    + intros z Hz. apply Rltb_spec. specialize (Hafter z Hz). lra.
    + intros z [<-|[]]. apply Rltb_spec. lra.
Qed.

(** the median is read off the sorted data *)
Lemma median_sorted (sel : selector exact) (v s : list R) : valid_nth exact sel ->
  Permutation v s -> StronglySorted Rle s ->
  median exact sel v =
    if (length v =? 0)%nat then ThrowInvalid
    else if Nat.odd (length v) then Ok (nth (length v / 2) s 0)
    else Ok ((nth (length v / 2 - 1) s 0 + nth (length v / 2) s 0) / 2).
Proof.
  intros Hsel HP HS. destruct (median_cases exact sel Hsel v (swo_R v)) as
    [[-> ->]|[[n [x [HL [-> [_ [H1 H2]]]]]]|[n [e0 [e1 [HL [Hn [-> [_ [_ [H1 [H2 [H3 H4]]]]]]]]]]]]]; auto;
    cbn [exact D] in *; rewrite HL.
  - replace (2 * n + 1 =? 0)%nat with false by (symmetry; apply Nat.eqb_neq; lia).
    replace (Nat.odd (2 * n + 1)) with true by (symmetry; apply Nat.odd_spec; exists n; lia).
    replace ((2 * n + 1) / 2)%nat with n by (apply (Nat.div_unique _ 2 n 1); lia).
    f_equal. symmetry. apply nth_error_nth. apply (rank_unique v); auto; try lia.
    eapply Nat.le_trans; [exact H2|lia].
  - replace (2 * n =? 0)%nat with false by (symmetry; apply Nat.eqb_neq; lia).
    replace (Nat.odd (2 * n)) with false.
    2:{ symmetry. rewrite <- Nat.negb_even. apply negb_false_iff. apply Nat.even_spec. exists n. auto. }
    replace (2 * n / 2)%nat with n by (apply (Nat.div_unique _ 2 n 0); lia).
    f_equal. cbn [exact d_div d_add d_of_Z].
    rewrite (nth_error_nth s n 0 (x := e0)).
    + rewrite (nth_error_nth s (n - 1) 0 (x := e1)); [lra|].
      apply (rank_unique v); auto; try lia. eapply Nat.le_trans; [exact H4|lia].
    + apply (rank_unique v); auto; try lia. eapply Nat.le_trans; [exact H2|lia].
Qed.

(** a sorted rearrangement exists *)
Fixpoint rinsert (x : R) (l : list R) : list R :=
  match l with [] => [x] | y :: t => if Rltb y x then y :: rinsert x t else x :: l end.
Definition rsort (l : list R) : list R := fold_right rinsert [] l.
Lemma rinsert_perm x l : Permutation (x :: l) (rinsert x l).
Proof. induction l as [|y l IH]; simpl; auto. destruct (Rltb y x); auto. rewrite perm_swap. constructor; auto. Qed.
Lemma rsort_perm l : Permutation l (rsort l).
Proof. induction l as [|x l IH]; simpl; auto. rewrite <- rinsert_perm. auto. Qed.
Lemma rinsert_sorted x l : StronglySorted Rle l -> StronglySorted Rle (rinsert x l).
Proof.
  induction 1 as [|y l HS IH HF]; simpl; [repeat constructor|].
  destruct (Rltb y x) eqn:E.
  - apply Rltb_spec in E. constructor; auto. rewrite Forall_forall in *.
    intros z Hz. apply Permutation_in with (l' := x :: l) in Hz; [|apply Permutation_sym, rinsert_perm].
    destruct Hz as [<-|Hz]; [lra|auto].
  - apply rltb_false in E. constructor; [constructor; auto|]. constructor; auto.
    rewrite Forall_forall in *. intros z Hz. specialize (HF z Hz). lra.
Qed.
Lemma rsort_sorted l : StronglySorted Rle (rsort l).
Proof. induction l; simpl; [constructor|]. apply rinsert_sorted; auto. Qed.

(** the nth_element obtained by sorting conforms *)
Lemma StronglySorted_nth {T} (Q : T -> T -> Prop) l i j x y : StronglySorted Q l -> (i < j)%nat ->
  nth_error l i = Some x -> nth_error l j = Some y -> Q x y.
Proof.
  intros HS. revert i j. induction HS as [|a l HS IH HF]; intros [|i] [|j] Hij Hi Hj; simpl in *; try discriminate; try lia.
  - inversion Hi; subst. rewrite Forall_forall in HF. apply HF. eapply nth_error_In; eauto.
  - apply (IH i j); auto. lia.
Qed.
Definition sel_sort : selector exact := fun v _ => rsort v.
Lemma sel_sort_valid : valid_nth exact sel_sort.
Proof.
  intros v n Hn _. unfold sel_sort. cbn [exact D d_ltb] in *. split; [apply rsort_perm|].
  intros x Hx. split; intros i y Hi Hy.
  - pose proof (StronglySorted_nth _ _ _ _ _ _ (rsort_sorted v) Hi Hy Hx) as G.
    destruct (Rltb x y) eqn:E; auto. apply Rltb_spec in E. lra.
  - pose proof (StronglySorted_nth _ _ _ _ _ _ (rsort_sorted v) Hi Hx Hy) as G.
    destruct (Rltb y x) eqn:E; auto. apply Rltb_spec in E. lra.
Qed.

(** the median of a non-empty vector, as a function of the data *)
Definition med (v : list R) : R :=
  let s := rsort v in
  if Nat.odd (length v) then nth (length v / 2) s 0
  else (nth (length v / 2 - 1) s 0 + nth (length v / 2) s 0) / 2.
Lemma median_med sel v : valid_nth exact sel -> v <> [] -> median exact sel v = Ok (med v).
Proof.
  intros H Hv. rewrite (median_sorted sel v (rsort v) H (rsort_perm v) (rsort_sorted v)). unfold med.
  destruct v; [congruence|]. destruct (Nat.odd _); auto.
Qed.
Lemma nth_cases {T} (l l' : list T) i d : length l = length l' -> l <> [] ->
  (i < length l)%nat -> exists x y, nth_error l i = Some x /\ nth_error l' i = Some y /\ nth i l d = x /\ nth i l' d = y.
Proof.
  intros HL _ Hi. destruct (nth_error l i) as [x|] eqn:E; [|apply nth_error_None in E; lia].
  destruct (nth_error l' i) as [y|] eqn:E'; [|apply nth_error_None in E'; lia].
  exists x, y. repeat split; auto; apply nth_error_nth; auto.
Qed.

Lemma med_eq v s : v <> [] -> Permutation v s -> StronglySorted Rle s ->
  med v = if Nat.odd (length v) then nth (length v / 2) s 0
    else (nth (length v / 2 - 1) s 0 + nth (length v / 2) s 0) / 2.
Proof.
  intros Hv HP HS. pose proof (median_sorted sel_sort v s sel_sort_valid HP HS) as H.
  rewrite (median_med _ _ sel_sort_valid Hv) in H. destruct v; [congruence|]. simpl (_ =? 0)%nat in H.
  destruct (Nat.odd _); congruence.
Qed.
Lemma half_lt n : (n <> 0)%nat -> (n / 2 < n)%nat.
Proof. intros. apply Nat.div_lt; lia. Qed.

Lemma sorted_map (f : R -> R) (P : R -> R -> Prop) l : (forall a b, a <= b -> P (f a) (f b)) ->
  StronglySorted Rle l -> StronglySorted P (map f l).
Proof.
  intros Hf. induction 1 as [|a l HS IH HF]; simpl; constructor; auto.
  rewrite Forall_forall in *. intros y Hy. apply in_map_iff in Hy. destruct Hy as [z [<- Hz]]. auto.
Qed.
Lemma sorted_rev l : StronglySorted Rge l -> StronglySorted Rle (rev l).
Proof.
  induction 1 as [|a l HS IH HF]; simpl; [constructor|].
  revert IH. rewrite Forall_forall in HF. assert (HF' : forall x, In x (rev l) -> a <= x -> False \/ True) by auto.
  assert (HG : forall x, In x (rev l) -> x <= a) by (intros x Hx; apply in_rev in Hx; specialize (HF x Hx); lra).
  clear - HG. induction (rev l) as [|b m IH]; intros H; simpl; [repeat constructor|].
  inversion H; subst. constructor.
  - apply IH; auto. intros; apply HG; right; auto.
  - rewrite Forall_forall in *. intros x Hx. apply in_app_or in Hx. destruct Hx as [Hx|[<-|[]]]; auto.
    apply HG. left; auto.
Qed.

(** increasing affine maps *)
Lemma med_affine v a b : v <> [] -> 0 <= a -> med (map (fun x => a * x + b) v) = a * med v + b.
Proof.
  intros Hv Ha. assert (Hv' : map (fun x => a * x + b) v <> []) by (destruct v; simpl; congruence).
  rewrite (med_eq _ (map (fun x => a * x + b) (rsort v)) Hv').
  2:{ apply Permutation_map, rsort_perm. }
  2:{ apply sorted_map with (P := Rle); [intros; nra|apply rsort_sorted]. }
  unfold med. rewrite map_length. pose proof (Permutation_length (rsort_perm v)) as HL.
  assert (HN : (length v <> 0)%nat) by (destruct v; simpl; congruence).
  assert (G : forall i, (i < length v)%nat -> nth i (map (fun x => a * x + b) (rsort v)) 0 = a * nth i (rsort v) 0 + b).
  { intros i Hi. rewrite nth_indep with (d' := (fun x => a * x + b) 0) by (rewrite map_length; lia).
    rewrite (map_nth (fun x => a * x + b)). auto. }
  pose proof (half_lt _ HN). destruct (Nat.odd (length v)); rewrite !G by lia; lra.
Qed.
Lemma med_opp v : v <> [] -> med (map Ropp v) = - med v.
Proof.
  intros Hv. assert (Hv' : map Ropp v <> []) by (destruct v; simpl; congruence).
  rewrite (med_eq _ (rev (map Ropp (rsort v))) Hv').
  2:{ rewrite <- Permutation_rev. apply Permutation_map, rsort_perm. }
  2:{ apply sorted_rev. apply sorted_map with (P := Rge); [intros; lra|apply rsort_sorted]. }
  unfold med. rewrite map_length. pose proof (Permutation_length (rsort_perm v)) as HL.
  assert (HN : (length v <> 0)%nat) by (destruct v; simpl; congruence).
  assert (G : forall i, (i < length v)%nat -> nth i (rev (map Ropp (rsort v))) 0 = - nth (length v - S i) (rsort v) 0).
  { intros i Hi. rewrite rev_nth by (rewrite map_length; lia). rewrite map_length, <- HL.
    rewrite nth_indep with (d' := Ropp 0) by (rewrite map_length; lia). rewrite (map_nth Ropp). auto. }
  pose proof (half_lt _ HN). destruct (Nat.odd (length v)) eqn:E; rewrite !G by lia.
  - apply Nat.odd_spec in E. destruct E as [n Hn]. rewrite Hn.
    replace ((2 * n + 1) / 2)%nat with n by (apply (Nat.div_unique _ 2 n 1); lia).
    replace (2 * n + 1 - S n)%nat with n by lia. auto.
  - assert (E' : Nat.even (length v) = true) by (rewrite <- Nat.negb_odd, E; auto).
    apply Nat.even_spec in E'. destruct E' as [n Hn]. rewrite Hn.
    replace (2 * n / 2)%nat with n by (apply (Nat.div_unique _ 2 n 0); lia).
    replace (2 * n - S (n - 1))%nat with n by lia. replace (2 * n - S n)%nat with (n - 1)%nat by lia. lra.
Qed.

Definition madv (v : list R) : R := med (map (fun x => Rabs (x - med v)) v).
Lemma mad_ok sel v : valid_nth exact sel -> v <> [] -> mad exact sel v = Ok (madv v).
Proof.
  intros H Hv. unfold mad. rewrite (median_med sel v H Hv). cbn [bind exact d_abs d_sub].
  rewrite (median_med sel _ H); auto. destruct v; simpl; congruence.
Qed.
Lemma mad_empty sel : mad exact sel [] = ThrowInvalid.
Proof. reflexivity. Qed.

Lemma mad_affine v a b : v <> [] -> madv (map (fun x => a * x + b) v) = Rabs a * madv v.
Proof.
  intros Hv. unfold madv.
  assert (Hm : med (map (fun x => a * x + b) v) = a * med v + b).
  { destruct (Rle_dec 0 a) as [H|H]; [apply med_affine; auto|].
    rewrite (map_ext _ (fun x => - ((- a) * x + - b))) by (intros; lra).
    rewrite <- (map_map (fun x => (- a) * x + - b) Ropp). rewrite med_opp by (destruct v; simpl; congruence).
    rewrite med_affine by (auto; lra). lra. }
  rewrite Hm, map_map.
  rewrite (map_ext _ (fun x => Rabs a * Rabs (x - med v) + 0)).
  2:{ intros x. replace (a * x + b - (a * med v + b)) with (a * (x - med v)) by ring. rewrite Rabs_mult. ring. }
  rewrite <- (map_map (fun x => Rabs (x - med v)) (fun y => Rabs a * y + 0)).
  rewrite med_affine; [ring| |apply Rabs_pos]. destruct v; simpl; congruence.
Qed.

Lemma med_nonneg v : v <> [] -> Forall (fun x => 0 <= x) v -> 0 <= med v.
Proof.
  intros Hv HF. unfold med. pose proof (Permutation_length (rsort_perm v)) as HL.
  assert (HN : (length v <> 0)%nat) by (destruct v; simpl; congruence).
  assert (G : forall i, 0 <= nth i (rsort v) 0).
  { intros i. destruct (Nat.lt_ge_cases i (length (rsort v))) as [Hi|Hi].
    - rewrite Forall_forall in HF. apply HF. eapply Permutation_in; [apply Permutation_sym, rsort_perm|].
      apply nth_In; auto.
    - rewrite nth_overflow by auto. lra. }
  pose proof (G (length v / 2)%nat). pose proof (G (length v / 2 - 1)%nat).
  destruct (Nat.odd _); lra.
Qed.
Lemma madv_nonneg v : v <> [] -> 0 <= madv v.
Proof.
  intros Hv. apply med_nonneg; [destruct v; simpl; congruence|].
  rewrite Forall_forall. intros x Hx. apply in_map_iff in Hx. destruct Hx as [y [<- _]]. apply Rabs_pos.
Qed.

(** counting form: at most half below, at most half above *)
Lemma med_counts v : v <> [] ->
  (2 * count (fun y => Rltb y (med v)) v <= length v)%nat /\ (2 * count (fun y => Rltb (med v) y) v <= length v)%nat.
Proof.
  intros Hv. pose proof (median_med sel_sort v sel_sort_valid Hv) as Hm.
  destruct (median_cases exact sel_sort sel_sort_valid v (swo_R v)) as
    [[-> _]|[[n [x [HL [E [_ [H1 H2]]]]]]|[n [e0 [e1 [HL [Hn [E [_ [_ [H1 [H2 [H3 H4]]]]]]]]]]]]]; [exfalso; apply Hv; reflexivity| |];
    rewrite Hm in E; injection E as ->; cbn [exact D d_ltb d_div d_add d_of_Z] in *.
  - split; lia.
  - set (m := (e0 + e1) / 2).
    assert (Hcase : (e1 <= m <= e0) \/ (e0 <= m <= e1)) by (unfold m; lra).
    destruct Hcase as [Hc|Hc].
    + assert (C1 : (count (fun y => Rltb y m) v <= count (fun y => Rltb y e0) v)%nat).
      { apply count_mono. intros y _ Hy. apply Rltb_spec in Hy. apply Rltb_spec. lra. }
      assert (C2 : (count (fun y => Rltb m y) v <= count (fun y => Rltb e1 y) v)%nat).
      { apply count_mono. intros y _ Hy. apply Rltb_spec in Hy. apply Rltb_spec. lra. }
      lia.
    + assert (C1 : (count (fun y => Rltb y m) v <= count (fun y => Rltb y e1) v)%nat).
      { apply count_mono. intros y _ Hy. apply Rltb_spec in Hy. apply Rltb_spec. lra. }
      assert (C2 : (count (fun y => Rltb m y) v <= count (fun y => Rltb e0 y) v)%nat).
      { apply count_mono. intros y _ Hy. apply Rltb_spec in Hy. apply Rltb_spec. lra. }
      lia.
Qed.

Close Scope R_scope.

(** ** selection *)
Lemma indices_from_spec {T} (eqb : T -> T -> bool) labels x : forall i,
  indices_by_value_from eqb i labels x =
  filter (fun j => match nth_error labels (j - i) with Some y => eqb y x | None => false end) (seq i (length labels)).
Proof.
  induction labels as [|y t IH]; intros i; simpl; auto. rewrite Nat.sub_diag. simpl.
  rewrite IH. rewrite (filter_ext_in (fun j => match nth_error (y :: t) (j - i) with Some y0 => eqb y0 x | None => false end)
    (fun j => match nth_error t (j - S i) with Some y0 => eqb y0 x | None => false end)); auto.
  intros j Hj. apply in_seq in Hj. replace (j - i)%nat with (S (j - S i)) by lia. auto.
Qed.
Lemma StronglySorted_seq i n : StronglySorted lt (seq i n).
Proof.
  revert i. induction n; intros i; simpl; constructor; auto. rewrite Forall_forall. intros x Hx. apply in_seq in Hx. lia.
Qed.
Lemma StronglySorted_filter {T} (Q : T -> T -> Prop) f l : StronglySorted Q l -> StronglySorted Q (filter f l).
Proof.
  induction 1 as [|a l HS IH HF]; simpl; [constructor|]. destruct (f a); auto. constructor; auto.
  rewrite Forall_forall in *. intros x Hx. apply filter_In in Hx. apply HF. tauto.
Qed.
Lemma indices_spec {T} (eqb : T -> T -> bool) labels x :
  StronglySorted lt (get_indices_by_value eqb labels x) /\ forall i, In i (get_indices_by_value eqb labels x) <-> exists y, nth_error labels i = Some y /\ eqb y x = true.
Proof.
  unfold get_indices_by_value. rewrite indices_from_spec. split.
  - apply StronglySorted_filter, StronglySorted_seq.
  - intros i. rewrite filter_In, in_seq, Nat.sub_0_r. split.
    + intros [_ H]. destruct (nth_error labels i) as [y|]; [eauto|discriminate].
    + intros [y [H1 H2]]. rewrite H1. split; auto. split; [lia|]. simpl. apply nth_error_Some. congruence.
Qed.

Lemma vat_spec {T} (l : list T) i : vat l (Z.of_nat i) =
  match nth_error l i with Some x => Ok x | None => ThrowRange end.
Proof.
  unfold vat. replace (Z.of_nat i <? 0)%Z with false by (symmetry; apply Z.ltb_ge; lia). rewrite Nat2Z.id. auto.
Qed.
Lemma get_by_indices_ok {T} (l : list T) is xs : get_by_indices is l = Ok xs <->
  length xs = length is /\ forall k i, nth_error is k = Some i -> exists x, nth_error xs k = Some x /\ nth_error l i = Some x.
Proof.
  unfold get_by_indices. revert xs. induction is as [|i is IH]; intros xs; simpl.
  - split; [intros H; inversion H; subst; split; auto; intros [|k] j Hj; discriminate|].
    intros [H _]. destruct xs; [auto|discriminate].
  - rewrite vat_spec. destruct (nth_error l i) as [x|] eqn:E; cbn [bind].
    + destruct (mapM _ is) as [ys| | | | |] eqn:EM; cbn [bind]; (split; [intros H|intros [HL H]]);
        try discriminate.
      * inversion H; subst. destruct (proj1 (IH ys) eq_refl) as [HL HI]. split; [simpl; lia|].
        intros [|k] j Hj; simpl in *; [inversion Hj; subst; eauto|eauto].
      * destruct xs as [|x0 xs]; [discriminate|]. destruct (H O i eq_refl) as [x1 [H1 H2]]. simpl in H1.
        inversion H1; subst. rewrite E in H2. inversion H2; subst. f_equal. f_equal.
        assert (G : Ok ys = Ok xs) by (apply IH; split; [simpl in HL; lia|]; intros k j Hj; apply (H (S k) j Hj)).
        inversion G; auto.
      * destruct xs as [|x0 xs]; [discriminate|]. exfalso.
        assert (G : ThrowInvalid = Ok xs) by (apply IH; split; [simpl in HL; lia|]; intros k j Hj; apply (H (S k) j Hj)). discriminate.
      * destruct xs as [|x0 xs]; [discriminate|]. exfalso.
        assert (G : ThrowRange = Ok xs) by (apply IH; split; [simpl in HL; lia|]; intros k j Hj; apply (H (S k) j Hj)). discriminate.
      * destruct xs as [|x0 xs]; [discriminate|]. exfalso.
        assert (G : ThrowOther = Ok xs) by (apply IH; split; [simpl in HL; lia|]; intros k j Hj; apply (H (S k) j Hj)). discriminate.
      * destruct xs as [|x0 xs]; [discriminate|]. exfalso.
        assert (G : AssertFail = Ok xs) by (apply IH; split; [simpl in HL; lia|]; intros k j Hj; apply (H (S k) j Hj)). discriminate.
      * destruct xs as [|x0 xs]; [discriminate|]. exfalso.
        assert (G : UB = Ok xs) by (apply IH; split; [simpl in HL; lia|]; intros k j Hj; apply (H (S k) j Hj)). discriminate.
    + split; [discriminate|]. intros [HL H]. destruct (H O i eq_refl) as [x1 [_ H2]]. congruence.
Qed.
Lemma get_by_indices_range {T} (l : list T) is : get_by_indices is l = ThrowRange <->
  exists i, In i is /\ (length l <= i)%nat.
Proof.
  unfold get_by_indices. induction is as [|i is IH]; simpl.
  - split; [discriminate|intros [i [[] _]]].
  - rewrite vat_spec. destruct (nth_error l i) as [x|] eqn:E; cbn [bind].
    + assert (Hi : (i < length l)%nat) by (apply nth_error_Some; congruence).
      assert (Hb : forall m : outcome (list T), (ys <- m ;; Ok (x :: ys)) = ThrowRange <-> m = ThrowRange).
      { intros [ys| | | | |]; cbn [bind]; split; try discriminate; auto. }
      rewrite Hb, IH. split; intros [j [H1 H2]]; exists j; auto.
      destruct H1 as [<-|H1]; [lia|auto].
    + apply nth_error_None in E. split; auto. intros _. exists i. auto.
Qed.

(** ** three values *)
Lemma sort_three_perm {T} (ltb : T -> T -> bool) a b c :
  let '(x, y, z) := sort_three ltb (a, b, c) in Permutation [a; b; c] [x; y; z].
Proof.
  assert (S12 : forall x y z : T, Permutation [x; y; z] [y; x; z]) by (intros; apply perm_swap).
  assert (S23 : forall x y z : T, Permutation [x; y; z] [x; z; y]) by (intros; constructor; apply perm_swap).
  unfold sort_three. destruct (ltb b a).
  - destruct (ltb c a).
    + destruct (ltb c b); eapply Permutation_trans; try apply S12; eapply Permutation_trans; try apply S23; auto.
    + destruct (ltb a b); auto.
  - destruct (ltb c b).
    + destruct (ltb c a); eapply Permutation_trans; try apply S23; auto.
    + destruct (ltb b a); auto.
Qed.
Lemma sort_three_sorted {T} (ltb : T -> T -> bool) a b c : strict_weak_order ltb [a; b; c] ->
  let '(x, y, z) := sort_three ltb (a, b, c) in ltb y x = false /\ ltb z y = false /\ ltb z x = false.
Proof.
  intros [Hirr [Htr Hinc]].
  assert (Hin : In a [a; b; c] /\ In b [a; b; c] /\ In c [a; b; c]) by (simpl; tauto).
  destruct Hin as [Ia [Ib Ic]].
  assert (As : forall x y, In x [a; b; c] -> In y [a; b; c] -> ltb x y = true -> ltb y x = false).
  { intros x y Hx Hy H. destruct (ltb y x) eqn:E; auto.
    pose proof (Htr x y x Hx Hy Hx H E) as G. rewrite (Hirr x Hx) in G. discriminate. }
  assert (NT : forall x y z, In x [a; b; c] -> In y [a; b; c] -> In z [a; b; c] ->
     ltb y x = false -> ltb z y = false -> ltb z x = false).
  { intros x y z Hx Hy Hz H1 H2. destruct (ltb z x) eqn:E; auto. exfalso.
    destruct (ltb x y) eqn:Exy.
    - rewrite (Htr z x y Hz Hx Hy E Exy) in H2. discriminate.
    - destruct (ltb y z) eqn:Eyz.
      + rewrite (Htr y z x Hy Hz Hx Eyz E) in H1. discriminate.
      + destruct (Hinc x y z Hx Hy Hz Exy H1 Eyz H2) as [_ G]. congruence. }
  unfold sort_three.
  destruct (ltb b a) eqn:E1; [destruct (ltb c a) eqn:E2|destruct (ltb c b) eqn:E2];
  [destruct (ltb c b) eqn:E3|destruct (ltb a b) eqn:E3|destruct (ltb c a) eqn:E3|rewrite E1];
  try (rewrite (As b a Ib Ia E1) in E3; discriminate);
  repeat split; auto;
  first [ apply (NT _ a); solve [auto] | apply (NT _ b); solve [auto] | apply (NT _ c); solve [auto] ].
Qed.

(** ** covariance arrays *)
Lemma list_upd_length {T} (l : list T) n x : length (list_upd l n x) = length l.
Proof. revert n. induction l; intros [|n]; simpl; auto. Qed.
Lemma list_upd_nth {T} (l : list T) n x k d : nth k (list_upd l n x) d =
  if (k =? n)%nat && (n <? length l)%nat then x else nth k l d.
Proof.
  revert n k. induction l as [|a l IH]; intros [|n] [|k]; simpl; auto.
  - destruct (k =? n)%nat; auto.
  - rewrite IH. auto.
Qed.
Lemma from_eigen_fold {T} (d : T) (m : nat -> nat -> T) ps : forall acc,
  length (fold_left (fun acc p => list_upd acc (fst p * 6 + snd p) (m (fst p) (snd p))) ps acc) = length acc.
Proof. induction ps as [|p ps IH]; intros acc; simpl; auto. rewrite IH, list_upd_length. auto. Qed.
Lemma from_eigen_length {T} (d : T) m : length (from_eigen_covariance d m) = 36%nat.
Proof. unfold from_eigen_covariance. rewrite (from_eigen_fold d). apply repeat_length. Qed.
Lemma from_eigen_nth {T} (d : T) m i j : (i < 6)%nat -> (j < 6)%nat ->
  nth (i * 6 + j) (from_eigen_covariance d m) d = m i j.
Proof.
  intros Hi Hj. do 6 (destruct i as [|i]; [do 6 (destruct j as [|j]; [reflexivity|]); lia|]). lia.
Qed.
Lemma cov_round_1 {T} (d : T) m i j : (i < 6)%nat -> (j < 6)%nat ->
  get_eigen_covariance d (from_eigen_covariance d m) i j = m i j.
Proof. apply from_eigen_nth. Qed.
Lemma cov_round_2 {T} (d : T) a : length a = 36%nat -> from_eigen_covariance d (get_eigen_covariance d a) = a.
Proof.
  intros H. do 36 (destruct a as [|? a]; [discriminate|]). destruct a; [reflexivity|discriminate].
Qed.
