(** Properties C29-C33 (library package) and C42-C44 (robust statistics). *)
From Coq Require Import List ZArith Bool Arith Lia Lra Permutation Reals Sorting.Sorted.
From Flocq Require Import IEEE754.BinarySingleNaN.
From Verif Require Import Base Arith Spec SpecReal LibModel SpecLib LibProofs RobustProofs NanFree MedianFloat.
Import ListNotations.
Open Scope nat_scope.

(** ** C29 Median is the median. *)

(** Whatever conforming nth_element is used and in whatever order the data comes, the
    result is the middle of the sorted data s (mean of the two middle ones for an even
    number). *)
Theorem C29_median_middle (sel : selector exact) (v s : list R) :
  valid_nth exact sel -> Permutation v s -> StronglySorted Rle s ->
  (v = [] -> median exact sel v = ThrowInvalid) /\
  (forall n, length v = 2 * n + 1 -> median exact sel v = Ok (nth n s 0%R)) /\
  (forall n, length v = 2 * n + 2 -> median exact sel v = Ok ((nth n s 0 + nth (n + 1) s 0) / 2)%R).
Proof.
  intros H HP HS. pose proof (median_sorted sel v s H HP HS) as M. split; [|split].
  - intros ->. auto.
  - intros n HL. rewrite M. cbn [D exact] in *. rewrite HL. replace (2 * n + 1 =? 0) with false by (symmetry; apply Nat.eqb_neq; lia).
    replace (Nat.odd (2 * n + 1)) with true by (symmetry; apply Nat.odd_spec; exists n; lia).
    replace ((2 * n + 1) / 2) with n by (apply (Nat.div_unique _ 2 n 1); lia). auto.
  - intros n HL. rewrite M. cbn [D exact] in *. rewrite HL. replace (2 * n + 2 =? 0) with false by (symmetry; apply Nat.eqb_neq; lia).
    replace (Nat.odd (2 * n + 2)) with false.
    2:{ symmetry. rewrite <- Nat.negb_even. apply negb_false_iff. apply Nat.even_spec. exists (n + 1). lia. }
    replace ((2 * n + 2) / 2) with (n + 1) by (apply (Nat.div_unique _ 2 (n + 1) 0); lia).
    replace (n + 1 - 1) with n by lia. auto.
Qed.
Print Assumptions C29_median_middle.

(** At most half of the data is below and at most half above; the exception is raised
    exactly on empty input. *)
Theorem C29_median_halves (sel : selector exact) (v : list R) : valid_nth exact sel ->
  (v = [] /\ median exact sel v = ThrowInvalid) \/
  (v <> [] /\ exists m : R, median exact sel v = Ok m /\
    2 * count (fun y => if Rlt_dec y m then true else false) v <= length v /\
    2 * count (fun y => if Rlt_dec m y then true else false) v <= length v).
Proof.
  intros H. destruct v as [|x v]; [left; auto|right]. split; [discriminate|].
  exists (med (x :: v)). split; [apply median_med; auto; discriminate|].
  exact (med_counts (x :: v) ltac:(discriminate)).
Qed.
Print Assumptions C29_median_halves.

(** In double arithmetic, for data without NaN: the odd case is exact, the even case is
    the double division by two of the double sum of the two middle elements. *)
Theorem C29_median_double acosf (sel : selector (ieee acosf)) (v : list b64) :
  valid_nth (ieee acosf) sel -> Forall (fun x => is_nan x = false) v ->
  (v = [] /\ median (ieee acosf) sel v = ThrowInvalid) \/
  (exists n x, length v = 2 * n + 1 /\ median (ieee acosf) sel v = Ok (x : b64) /\ In x v /\
     count (fun y : b64 => Bltb y x) v <= n /\ count (fun y : b64 => Bltb x y) v <= n) \/
  (exists n e0 e1, length v = 2 * n + 2 /\
     median (ieee acosf) sel v = Ok (div64 (add64 e0 e1) (of_Z64 2)) /\ In e0 v /\ In e1 v /\
     count (fun y : b64 => Bltb y e0) v <= n + 1 /\ count (fun y : b64 => Bltb e0 y) v <= n /\
     count (fun y : b64 => Bltb y e1) v <= n /\ count (fun y : b64 => Bltb e1 y) v <= n + 1).
Proof.
  intros H HN. destruct (median_cases (ieee acosf) sel H v (nan_free_swo v HN)) as [G|[G|G]]; auto.
  right. right. destruct G as [n [e0 [e1 [HL [Hn [HM [I0 [I1 [K1 [K2 [K3 K4]]]]]]]]]]].
  exists (n - 1), e0, e1. replace (n - 1 + 1) with n by lia. cbn [ieee D d_ltb] in *.
  repeat split; auto. transitivity (2 * n); [exact HL|lia].
Qed.
Print Assumptions C29_median_double.

(** Hence, for data bounded by 2^1022 in magnitude, the computed double is finite and has
    at most half of the data below and at most half above, rounding included. *)
Theorem C29_median_double_halves_partial acosf (sel : selector (ieee acosf)) (v : list b64) :
  valid_nth (ieee acosf) sel -> v <> [] ->
  Forall (fun x : b64 => is_finite x = true /\ (Rabs (B2R x) <= Raux.bpow Zaux.radix2 1022)%R) v ->
  exists m : b64, median (ieee acosf) sel v = Ok m /\ is_finite m = true /\
    2 * count (fun y : b64 => Bltb y m) v <= length v /\ 2 * count (fun y : b64 => Bltb m y) v <= length v.
Proof. exact (median_double_halves acosf sel v). Qed.
Print Assumptions C29_median_double_halves_partial.

(** Sorting is a conforming nth_element, so the theorems apply; 3, 1, 2 has median 2. *)
Example ex_C29 : median exact sel_sort [3; 1; 2]%R = Ok 2%R.
Proof.
  apply (proj1 (proj2 (C29_median_middle sel_sort [3; 1; 2]%R [1; 2; 3]%R sel_sort_valid
    ltac:(apply Permutation_sym; apply (perm_trans (l' := [2; 1; 3]%R)); [apply perm_swap|];
          apply (perm_trans (l' := [2; 3; 1]%R)); [constructor; apply perm_swap|];
          apply (perm_trans (l' := [3; 2; 1]%R)); [apply perm_swap|constructor; apply perm_swap])
    ltac:(repeat constructor; lra))) 1 eq_refl).
Qed.
(** Finding: in doubles the mean of the two middle elements may overflow although the
    data is finite: the median of (max, max) is infinite. *)
Theorem C29_median_overflow_refuted :
  ~ (forall acosf (sel : selector (ieee acosf)) v m, valid_nth (ieee acosf) sel ->
       Forall (fun x : b64 => is_finite x = true) v -> median (ieee acosf) sel v = Ok (m : b64) ->
       is_finite m = true).
Proof.
  intros H. set (mx := of_me64 9007199254740991 971).
  set (sel := (fun v _ => v) : selector (ieee (fun x => x))).
  (* a selector that conforms: sort by insertion *)
  set (ins := fix ins (x : b64) (l : list b64) : list b64 :=
    match l with [] => [x] | y :: t => if Bltb y x then y :: ins x t else x :: l end).
  pose (ssel := (fun v _ => fold_right ins [] v) : selector (ieee (fun x => x))).
  assert (IP : forall x l, Permutation (x :: l) (ins x l)).
  { intros x l. induction l as [|y l IH]; simpl; auto. destruct (Bltb y x); auto. rewrite perm_swap. constructor; auto. }
  assert (IS : forall all, strict_weak_order (fun x y : b64 => Bltb x y) all -> forall x l, In x all -> incl l all ->
     StronglySorted (fun a b : b64 => Bltb b a = false) l -> StronglySorted (fun a b : b64 => Bltb b a = false) (ins x l)).
  { intros all [Hi [Ht Hc]] x l Hx Hl HS. cbv beta in Hi, Ht, Hc. induction HS as [|y l HS IH HF]; simpl; [repeat constructor|].
    assert (Hy : In y all) by (apply Hl; left; auto). assert (Hl' : incl l all) by (intros z Hz; apply Hl; right; auto).
    assert (As : forall a b, In a all -> In b all -> Bltb a b = true -> Bltb b a = false).
    { intros a b Ha Hb E. destruct (Bltb b a) eqn:E'; auto. rewrite <- (Hi a Ha). symmetry. eapply Ht; eauto. }
    destruct (Bltb y x) eqn:E.
    - constructor; auto. rewrite Forall_forall in *. intros z Hz.
      apply Permutation_in with (l' := x :: l) in Hz; [|apply Permutation_sym, IP].
      destruct Hz as [<-|Hz]; auto.
    - constructor; [constructor; auto|]. constructor; auto. rewrite Forall_forall in *. intros z Hz.
      specialize (HF z Hz). assert (Hza : In z all) by auto.
      destruct (Bltb z x) eqn:E2; auto. exfalso.
      destruct (Bltb x y) eqn:E3.
      + rewrite (Ht z x y Hza Hx Hy E2 E3) in HF. discriminate HF.
      + destruct (Bltb y z) eqn:E4.
        * rewrite (Ht y z x Hy Hza Hx E4 E2) in E. discriminate E.
        * destruct (Hc x y z Hx Hy Hza E3 E E4 HF) as [_ G]. congruence. }
  assert (V : valid_nth (ieee (fun x => x)) ssel).
  { intros v n Hn Hs. unfold ssel.
    assert (P : Permutation v (fold_right ins [] v)).
    { clear - IP. induction v as [|x v IH]; simpl; auto. rewrite <- IP. auto. }
    assert (S : forall l, incl l v -> StronglySorted (fun a b : b64 => Bltb b a = false) (fold_right ins [] l)).
    { induction l as [|x l IH]; intros Hl; simpl; [constructor|]. apply (IS v Hs).
      - apply Hl. left. auto.
      - intros z Hz. apply Hl. right. clear - Hz IP.
        assert (P : forall l', Permutation l' (fold_right ins [] l')) by (induction l'; simpl; auto; rewrite <- IP; auto).
        eapply Permutation_in; [apply Permutation_sym, P|auto].
      - apply IH. intros z Hz. apply Hl. right. auto. }
    split; auto. intros x Hx. specialize (S v (incl_refl _)).
    split; intros i y Hi Hy.
    - exact (StronglySorted_nth _ _ _ _ _ _ S Hi Hy Hx).
    - exact (StronglySorted_nth _ _ _ _ _ _ S Hi Hx Hy). }
  assert (F : Forall (fun x : b64 => is_finite x = true) [mx; mx]).
  { repeat (apply Forall_cons; [vm_compute; reflexivity|]). apply Forall_nil. }
  destruct (median (ieee (fun x => x)) ssel [mx; mx]) as [m| | | | |] eqn:E.
  2-6: assert (G : match median (ieee (fun x => x)) ssel [mx; mx] with Ok _ => True | _ => False end)
         by (vm_compute; exact I); rewrite E in G; contradiction.
  assert (G : match median (ieee (fun x => x)) ssel [mx; mx] with Ok m => is_finite (m : b64) = false | _ => True end)
    by (vm_compute; reflexivity).
  rewrite E in G. rewrite (H _ _ _ _ V F E) in G. discriminate G.
Qed.
Print Assumptions C29_median_overflow_refuted.

(** ** C30 Selecting by index and by value. *)
Theorem C30_indices_by_value {T} (eqb : T -> T -> bool) labels x :
  StronglySorted lt (get_indices_by_value eqb labels x) /\
  forall i, In i (get_indices_by_value eqb labels x) <->
    exists y, nth_error labels i = Some y /\ eqb y x = true.
Proof. exact (indices_spec eqb labels x). Qed.
Print Assumptions C30_indices_by_value.
Theorem C30_by_indices {T} (indices : list nat) (array : list T) xs :
  get_by_indices indices array = Ok xs <->
  length xs = length indices /\
  forall k i, nth_error indices k = Some i ->
    exists x, nth_error xs k = Some x /\ nth_error array i = Some x.
Proof. exact (get_by_indices_ok array indices xs). Qed.
Print Assumptions C30_by_indices.
Theorem C30_out_of_range {T} (indices : list nat) (array : list T) :
  get_by_indices indices array = ThrowRange <-> exists i, In i indices /\ length array <= i.
Proof. exact (get_by_indices_range array indices). Qed.
Print Assumptions C30_out_of_range.
(** Selecting the positions of a value returns only that value, once for each. *)
Theorem C30_value_view {T} (eqb : T -> T -> bool) (array : list T) x :
  exists xs, get_by_indices (get_indices_by_value eqb array x) array = Ok xs /\
    Forall (fun y => eqb y x = true) xs /\ xs = filter (fun y => eqb y x) array.
Proof.
  exists (filter (fun y => eqb y x) array).
  assert (G : forall pre l i, length pre = i ->
    get_by_indices (indices_by_value_from eqb i l x) (pre ++ l) = Ok (filter (fun y => eqb y x) l)).
  { intros pre l. revert pre. induction l as [|y l IH]; intros pre i Hi; [reflexivity|].
    assert (Hn : get_by_indices (indices_by_value_from eqb (S i) l x) (pre ++ y :: l) = Ok (filter (fun y => eqb y x) l)).
    { replace (pre ++ y :: l) with ((pre ++ [y]) ++ l) by (rewrite <- app_assoc; auto).
      apply IH. rewrite app_length. simpl. lia. }
    simpl. destruct (eqb y x); auto. unfold get_by_indices in *. cbn [mapM]. rewrite vat_spec.
    rewrite nth_error_app2 by lia. rewrite <- Hi, Nat.sub_diag. simpl nth_error. cbn [bind].
    rewrite Hi, Hn. auto. }
  split; [apply (G [] array 0 eq_refl)|]. split; auto.
  apply Forall_forall. intros y Hy. apply filter_In in Hy. tauto.
Qed.
Print Assumptions C30_value_view.
Example ex_C30 : get_indices_by_value Nat.eqb [7; 3; 7; 7; 1] 7 = [0; 2; 3] /\
  get_by_indices [0; 2; 3] [7; 3; 7; 7; 1] = Ok [7; 7; 7] /\ get_by_indices [0; 5] [7; 3; 7; 7; 1] = ThrowRange.
Proof. repeat split. Qed.

(** ** C31 Three-value sort. *)
Theorem C31_permutation {T} (ltb : T -> T -> bool) a b c x y z :
  sort_three ltb (a, b, c) = (x, y, z) -> Permutation [a; b; c] [x; y; z].
Proof. intros H. pose proof (sort_three_perm ltb a b c) as G. rewrite H in G. exact G. Qed.
Print Assumptions C31_permutation.
Theorem C31_sorted_double (a b c x y z : b64) :
  is_nan a = false -> is_nan b = false -> is_nan c = false ->
  sort_three (fun x y : b64 => Bltb x y) (a, b, c) = (x, y, z) ->
  Bltb y x = false /\ Bltb z y = false /\ Bltb z x = false.
Proof.
  intros Ha Hb Hc H. pose proof (sort_three_sorted (fun x y : b64 => Bltb x y) a b c) as G. rewrite H in G.
  apply G. apply nan_free_swo. repeat constructor; auto.
Qed.
Print Assumptions C31_sorted_double.
Theorem C31_sorted_real (a b c x y z : R) :
  sort_three Rltb (a, b, c) = (x, y, z) -> (x <= y /\ y <= z)%R.
Proof.
  intros H. pose proof (sort_three_sorted Rltb a b c (swo_R _)) as G. rewrite H in G.
  destruct G as [G1 [G2 _]]. split; apply AngleProofs.rltb_false; auto.
Qed.
Print Assumptions C31_sorted_real.
Example ex_C31 : (let '(x, y, z) := sort_three (fun x y : b64 => Bltb x y) (of_Z64 3, of_Z64 (-2), of_Z64 1) in
  map trunc64 [x; y; z]) = [Some (-2); Some 1; Some 3]%Z.
Proof. vm_compute. reflexivity. Qed.

(** ** C32 Covariance message round trip. *)
Theorem C32_matrix_round_trip {T} (d : T) (m : nat -> nat -> T) i j : i < 6 -> j < 6 ->
  get_eigen_covariance d (from_eigen_covariance d m) i j = m i j.
Proof. exact (cov_round_1 d m i j). Qed.
Print Assumptions C32_matrix_round_trip.
Theorem C32_array_round_trip {T} (d : T) (a : list T) : length a = 36 ->
  from_eigen_covariance d (get_eigen_covariance d a) = a.
Proof. exact (cov_round_2 d a). Qed.
Print Assumptions C32_array_round_trip.
(** Row-major layout, the one geometry_msgs documents. *)
Theorem C32_row_major {T} (d : T) (m : nat -> nat -> T) i j : i < 6 -> j < 6 ->
  length (from_eigen_covariance d m) = 36 /\
  nth_error (from_eigen_covariance d m) (6 * i + j) = Some (m i j).
Proof.
  intros Hi Hj. split; [apply (from_eigen_length d)|].
  rewrite <- (from_eigen_nth d m i j Hi Hj). replace (6 * i + j) with (i * 6 + j) by lia.
  apply nth_error_nth'. rewrite (from_eigen_length d). lia.
Qed.
Print Assumptions C32_row_major.
Example ex_C32 : from_eigen_covariance 0 (get_eigen_covariance 0 (seq 100 36)) = seq 100 36.
Proof. reflexivity. Qed.

(** ** C33 Random index selection is a permutation. *)
Theorem C33_each_index_once (shuffle : list nat -> list nat) n :
  (forall l, Permutation l (shuffle l)) ->
  forall i, count (Nat.eqb i) (randomized_unique_indices shuffle n) = if i <? n then 1 else 0.
Proof.
  intros H i. unfold randomized_unique_indices. rewrite <- (count_perm _ _ _ (H (seq 0 n))).
  assert (G : forall k, count (Nat.eqb i) (seq k n) = if (k <=? i) && (i <? k + n) then 1 else 0).
  { unfold count. induction n as [|n IH]; intros k; cbn [seq filter].
    - destruct (Nat.leb_spec k i), (Nat.ltb_spec i (k + 0)); simpl; auto; lia.
    - destruct (Nat.eqb_spec i k) as [->|E]; cbn [length]; rewrite IH.
      + destruct (Nat.leb_spec (S k) k), (Nat.leb_spec k k), (Nat.ltb_spec k (k + S n)), (Nat.ltb_spec k (S k + n));
          simpl; auto; lia.
      + destruct (Nat.leb_spec (S k) i), (Nat.leb_spec k i), (Nat.ltb_spec i (S k + n)), (Nat.ltb_spec i (k + S n));
          simpl; auto; lia. }
  rewrite G. simpl. auto.
Qed.
Print Assumptions C33_each_index_once.
Example ex_C33 : randomized_unique_indices (fun l => rev l) 4 = [3; 2; 1; 0] /\
  (forall l : list nat, Permutation l (rev l)).
Proof. split; [reflexivity|]. intros. apply Permutation_rev. Qed.

Open Scope R_scope.

(** ** C42 Huber loss and weight agree. *)
Theorem C42_huber_derivative (e k : R) : 0 < k -> 0 < e ->
  derivable_pt_lim (fun x => huber exact x k) e (huber_derivative exact e k) /\
  continuity_pt (fun x => huber exact x k) e.
Proof. exact (fun Hk He => conj (hub_deriv_reals e k Hk He) (hub_continuous e k Hk He)). Qed.
Print Assumptions C42_huber_derivative.
Theorem C42_huber_bounds (e e' k : R) : 0 < k -> 0 <= e <= e' ->
  0 <= huber exact e k <= e /\ huber exact e k <= huber exact e' k /\
  (huber exact e k = e <-> e <= k * k).
Proof.
  exact (fun Hk He => conj (conj (hub_nonneg e k (proj1 He) Hk) (hub_le e k (proj1 He) Hk))
    (conj (hub_mono e e' k Hk (proj2 He)) (hub_quadratic e k (proj1 He) Hk))).
Qed.
Print Assumptions C42_huber_bounds.
Theorem C42_weight_bounds (e e' k : R) : 0 < k -> e <= e' ->
  0 < huber_derivative exact e k <= 1 /\ huber_derivative exact e' k <= huber_derivative exact e k.
Proof. exact (fun Hk He => conj (hub'_range e k Hk) (hub'_mono e e' k Hk He)). Qed.
Print Assumptions C42_weight_bounds.
(** Beyond the switching point: e = 4, k = 1. *)
Example ex_C42 : huber exact 4 1 = 3 :> R /\ huber_derivative exact 4 1 = (1 / 2 : R).
Proof.
  split.
  - change (hub 4 1 = 3). rewrite hub_high by lra. replace 4 with (2 * 2) by lra. rewrite sqrt_square; lra.
  - change (hub' 4 1 = 1 / 2). rewrite hub'_high by lra. replace 4 with (2 * 2) by lra. rewrite sqrt_square; lra.
Qed.

(** ** C43 Reweighting majorises the robust cost. *)
Theorem C43_majorisation (e0 e k : R) : 0 < k -> 0 <= e0 -> 0 <= e ->
  huber exact e k <= huber exact e0 k + huber_derivative exact e0 k * (e - e0).
Proof. exact (hub_majorise e0 e k). Qed.
Print Assumptions C43_majorisation.
(** Errors e0(0..n-1) before and e(0..n-1) after a step. *)
Theorem C43_weighted_descent (k : R) (e0 e : nat -> R) n : 0 < k ->
  (forall i, (i < n)%nat -> 0 <= e0 i /\ 0 <= e i) ->
  rsum (fun i => huber_derivative exact (e0 i) k * e i) (seq 0 n) <=
    rsum (fun i => huber_derivative exact (e0 i) k * e0 i) (seq 0 n) ->
  rsum (fun i => huber exact (e i) k) (seq 0 n) <= rsum (fun i => huber exact (e0 i) k) (seq 0 n).
Proof.
  exact (fun Hk Hp => hub_descent k e0 e (seq 0 n) Hk (fun i Hi => Hp i (proj2 (proj1 (in_seq n 0 i) Hi)))).
Qed.
Print Assumptions C43_weighted_descent.
(** One error falls from 4 to 1, the other rises from 0 to 1: weighted sum 2 -> 3/2. *)
Example ex_C43 : rsum (fun i => huber_derivative exact (match i with O => 4 | _ => 0 end) 1 * (1 : R)) (seq 0 2) <=
    rsum (fun i => huber_derivative exact (match i with O => 4 | _ => 0 end) 1 * (match i with O => 4 | _ => 0 end)) (seq 0 2).
Proof.
  unfold rsum. simpl fold_right. change (hub' 4 1 * 1 + (hub' 0 1 * 1 + 0) <= hub' 4 1 * 4 + (hub' 0 1 * 0 + 0)).
  rewrite hub'_high, hub'_low by lra. replace 4 with (2 * 2) by lra. rewrite sqrt_square by lra. lra.
Qed.

(** ** C44 Robust scale: location-invariant, scale-equivariant, non-negative. *)
Theorem C44_mad_affine (sel sel' : selector exact) (v : list R) (a c : R) :
  valid_nth exact sel -> valid_nth exact sel' -> v <> [] ->
  exists s : R, 0 <= s /\ mad exact sel v = Ok s /\
    mad exact sel' (map (fun x => a * x + c) v) = Ok (Rabs a * s).
Proof.
  intros H H' Hv. exists (madv v). split; [apply madv_nonneg; auto|]. split; [apply mad_ok; auto|].
  rewrite mad_ok; auto; [|destruct v; simpl; congruence]. rewrite mad_affine; auto.
Qed.
Print Assumptions C44_mad_affine.
Theorem C44_scale_affine (sel sel' : selector exact) (b : R) (v : list R) (a c : R) :
  valid_nth exact sel -> valid_nth exact sel' -> 0 <= b -> v <> [] ->
  exists s : R, 0 <= s /\ scale exact sel b v = Ok s /\
    scale exact sel' b (map (fun x => a * x + c) v) = Ok (Rabs a * s).
Proof.
  intros H H' Hb Hv. destruct (C44_mad_affine sel sel' v a c H H' Hv) as [s [Hs [H1 H2]]].
  exists (b * s). unfold scale. cbn [D exact] in *. rewrite H1, H2. cbn [bind exact d_mul].
  split; [apply Rmult_le_pos; auto|]. split; auto. f_equal. ring.
Qed.
Print Assumptions C44_scale_affine.
Theorem C44_empty (sel : selector exact) b : mad exact sel [] = ThrowInvalid /\ scale exact sel b [] = ThrowInvalid.
Proof. exact (conj eq_refl eq_refl). Qed.
Print Assumptions C44_empty.
(** The definition: the median of the absolute deviations from the median. *)
Theorem C44_mad_is_median_of_deviations (sel sel' : selector exact) (v : list R) (m : R) :
  valid_nth exact sel -> valid_nth exact sel' -> median exact sel v = Ok m ->
  mad exact sel v = median exact sel' (map (fun x => Rabs (x - m)) v).
Proof.
  intros H H' Hm. unfold mad. rewrite Hm. cbn [bind exact d_abs d_sub].
  destruct v as [|x v]; [discriminate|]. rewrite !median_med; auto; discriminate.
Qed.
Print Assumptions C44_mad_is_median_of_deviations.
Example ex_C44 : valid_nth exact sel_sort /\ [1; 5; 2] <> [].
Proof. split; [exact sel_sort_valid|discriminate]. Qed.
