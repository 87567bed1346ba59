(** Specification vocabulary for the library package. Nothing in this file models code. *)
From Coq Require Import List ZArith Bool Permutation Reals.
From Verif Require Import Base Arith Spec LibModel.
Import ListNotations.

(** What the C++ standard promises of std::nth_element(v, n), n inside v: a rearrangement
    with no element before position n greater, and none after it smaller, than the one
    at position n. *)
Definition valid_nth (A : arith) (sel : selector A) : Prop :=
  forall v n, (n < length v)%nat -> strict_weak_order (d_ltb A) v ->
    Permutation v (sel v n) /\
    forall x, nth_error (sel v n) n = Some x ->
      (forall i y, (i < n)%nat -> nth_error (sel v n) i = Some y -> d_ltb A x y = false) /\
      (forall i y, (n < i)%nat -> nth_error (sel v n) i = Some y -> d_ltb A y x = false).

(** Number of elements satisfying a test. *)
Definition count {T : Type} (f : T -> bool) (l : list T) : nat := length (filter f l).
