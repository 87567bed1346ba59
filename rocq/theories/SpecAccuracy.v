(** Specification vocabulary for the accuracy of the curvature. Nothing in this file models
    code. *)
From Coq Require Import List ZArith Reals.
From Flocq Require Import Core.
From Verif Require Import Base Arith ExtractModel Spec SpecReal SpecBearing.
Open Scope R_scope.

(** The horizontal distance of a point from the sensor, a real number. *)
Definition reach {acosf} (p : point (ieee acosf)) : R :=
  sqrt (east p * east p + north p * north p).

(** The distances along a ring: that of the k-th point listed in ix (0 past its end). *)
Definition profile {acosf} (cloud : list (point (ieee acosf))) (ix : list Z) (k : nat) : R :=
  match get ix (Z.of_nat k) with
  | Some j => match get cloud j with Some p => reach p | None => 0 end
  | None => 0
  end.

(** How far a point sticks out of its surroundings: the second differences of the distances
    over p points on either side, added up, as real numbers without any rounding. *)
Definition bend {acosf} (cloud : list (point (ieee acosf))) (ix : list Z) (p j : nat) : R :=
  second_diff (profile cloud ix) p j.

(** Allowance for the rounding of that sum if all points are within 2^m metres and the
    padding is at most 2^b. *)
Definition allowance (m b : Z) : R := bpow radix2 (m + 2 * b - 47).
