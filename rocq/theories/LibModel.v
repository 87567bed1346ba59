(** Model of /repo/lib (package lidar_feature_library) and of
    /repo/localization/src/robust.cpp. *)
From Coq Require Import List ZArith Bool Arith.
From Verif Require Import Base Arith.
Import ListNotations.

(** * Selection (lib/include/lidar_feature_library/algorithm.hpp) *)

(** algorithm.hpp:39-48 GetByIndices: [array.at(i)] for each index. *)
Definition get_by_indices {T : Type} (indices : list nat) (array : list T) : outcome (list T) :=
  mapM (fun i => vat array (Z.of_nat i)) indices.

(** algorithm.hpp:50-62 GetIndicesByValue. The loop over i is a recursion carrying the
    position. [eqb] is operator== of the element type. *)
Fixpoint indices_by_value_from {T : Type} (eqb : T -> T -> bool) (i : nat) (labels : list T)
    (label : T) : list nat :=
  match labels with
  | [] => []
  | x :: t => if eqb x label then i :: indices_by_value_from eqb (S i) t label
              else indices_by_value_from eqb (S i) t label
  end.
(** algorithm.hpp:50-62 GetIndicesByValue, from position 0. *)
Definition get_indices_by_value {T : Type} (eqb : T -> T -> bool) (labels : list T) (label : T)
    : list nat := indices_by_value_from eqb 0 labels label.

(** lib/src/algorithm.cpp:33-49 SortThreeValues; [ltb] is operator< of double
    (a > b is written b < a). *)
Definition sort_three {T : Type} (ltb : T -> T -> bool) (v : T * T * T) : T * T * T :=
  let '(a, b, c) := v in
  let '(a, b) := if ltb b a then (b, a) else (a, b) in
  let '(b, c) := if ltb c b then (c, b) else (b, c) in
  let '(a, b) := if ltb b a then (b, a) else (a, b) in
  (a, b, c).

(** * Median (lib/src/stats.cpp) *)

Section Stats.
Variable A : arith.

(** std::nth_element(begin, begin + n, end) (stats.cpp:42, 48, 51) as a function of the array and n; which
    conforming rearrangement results is left open (see [valid_nth] in SpecLib.v). *)
Definition selector := list (D A) -> nat -> list (D A).

(** std::nth_element (stats.cpp:42, 48, 51) has undefined behaviour if operator< is no strict weak order on the
    elements (NaN). *)
Definition nth_element (sel : selector) (v : list (D A)) (n : nat) : outcome (list (D A)) :=
  if swo_on (d_ltb A) v then Ok (sel v n) else UB.

(** v[n]: undefined outside (no bounds check, stats.cpp:43,49,52). *)
Definition at_unchecked (v : list (D A)) (n : nat) : outcome (D A) :=
  match nth_error v n with Some x => Ok x | None => UB end.

(** stats.cpp:34-55 Median_; the [int n] is taken as unbounded (a vector of more than
    2^32 doubles does not occur). *)
Definition median (sel : selector) (v : list (D A)) : outcome (D A) :=
  if (length v =? 0)%nat then ThrowInvalid
  else if (length v mod 2 =? 1)%nat then
    let n := ((length v - 1) / 2)%nat in
    v1 <- nth_element sel v n ;;
    at_unchecked v1 n
  else
    let n := (length v / 2)%nat in
    v1 <- nth_element sel v n ;;
    e0 <- at_unchecked v1 n ;;
    v2 <- nth_element sel v1 (n - 1) ;;
    e1 <- at_unchecked v2 (n - 1) ;;
    Ok (d_div A (d_add A e0 e1) (d_of_Z A 2)).

(** * Robust scale (localization/src/robust.cpp) *)

(** robust.cpp:37-41 MedianAbsoluteDeviation. *)
Definition mad (sel : selector) (v : list (D A)) : outcome (D A) :=
  m <- median sel v ;;
  median sel (map (fun x => d_abs A (d_sub A x m)) v).

(** robust.cpp:43-51 Scale; the constant 1.482602218505602 is the parameter [b]. *)
Definition scale (sel : selector) (b : D A) (v : list (D A)) : outcome (D A) :=
  m <- mad sel v ;; Ok (d_mul A b m).

(** robust.cpp:53-60 Huber. *)
Definition huber (e k : D A) : D A :=
  if d_ltb A e (d_mul A k k) then e
  else d_sub A (d_mul A (d_mul A (d_of_Z A 2) k) (d_sqrt A e)) (d_mul A k k).

(** robust.cpp:62-69 HuberDerivative. *)
Definition huber_derivative (e k : D A) : D A :=
  if d_ltb A e (d_mul A k k) then d_of_Z A 1 else d_div A k (d_sqrt A e).

End Stats.

(** * Covariance arrays (lib/src/eigen.cpp) *)

(** eigen.cpp:33-42 GetEigenCovariance: entry (i,j) of the matrix; [dflt] stands for the
    (unreachable) value outside a 36-element array. *)
Definition get_eigen_covariance {T : Type} (dflt : T) (a : list T) : nat -> nat -> T :=
  fun i j => nth (i * 6 + j) a dflt.

(** eigen.cpp:44-53 FromEigenCovariance: the two loops write array[i * 6 + j] in a fresh
    array of 36 (indeterminate, here [dflt]) entries. *)
Definition from_eigen_covariance {T : Type} (dflt : T) (m : nat -> nat -> T) : list T :=
  fold_left (fun acc p => list_upd acc (fst p * 6 + snd p) (m (fst p) (snd p)))
    (list_prod (seq 0 6) (seq 0 6)) (repeat dflt 36).

(** lib/src/random.cpp:36-42 RandomizedUniqueIndices: iota, then std::shuffle, which is
    some rearrangement [shuffle]. *)
Definition randomized_unique_indices (shuffle : list nat -> list nat) (size : nat) : list nat :=
  shuffle (seq 0 size).
