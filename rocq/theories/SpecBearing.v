(** Specification vocabulary for the directions of single-precision points. Nothing in this
    file models code. *)
From Coq Require Import ZArith Reals.
From Flocq Require Import Core IEEE754.BinarySingleNaN.
From Verif Require Import Base Arith ExtractModel SpecReal.
Open Scope R_scope.

(** The horizontal coordinates of a point as real numbers. *)
Definition east {acosf} (p : point (ieee acosf)) : R := B2R (px (ieee acosf) p : b32).
Definition north {acosf} (p : point (ieee acosf)) : R := B2R (py (ieee acosf) p : b32).

(** A coordinate of ordinary size: a number, and either zero or between 2^-60 and 2^60 in
    magnitude (from less than an attometre to more than a hundred light years). *)
Definition ordinary (c : b32) : Prop :=
  is_finite c = true /\
  (B2R c = 0 \/ (bpow radix2 (-60) <= Rabs (B2R c) /\ Rabs (B2R c) <= bpow radix2 60)).

(** The direction in which the sensor sees a point, as an angle. *)
Definition bearing {acosf} (p : point (ieee acosf)) : R := atan2 (north p) (east p).

(** Two points are seen in the same or in opposite directions, or their directions differ by
    an angle whose sine is more than 2^-24 (about 0.0000034 degrees); nothing is asked if one
    of them is at the sensor. *)
Definition resolved {acosf} (p q : point (ieee acosf)) : Prop :=
  (east p = 0 /\ north p = 0) \/ (east q = 0 /\ north q = 0) \/
  sin (bearing p - bearing q) = 0 \/
  bpow radix2 (-24) < Rabs (sin (bearing p - bearing q)).

(** Straight ahead: on the positive x axis. *)
Definition ahead {acosf} (p : point (ieee acosf)) : Prop := north p = 0 /\ 0 < east p.

(** A scan whose directions single precision can tell apart: coordinates of ordinary size,
    and within each ring the directions are resolved and no two different points lie straight
    ahead. *)
Definition well_resolved {acosf} (cloud : list (point (ieee acosf))) : Prop :=
  (forall p, List.In p cloud -> ordinary (px (ieee acosf) p) /\ ordinary (py (ieee acosf) p)) /\
  (forall p q, List.In p cloud -> List.In q cloud -> pring (ieee acosf) p = pring (ieee acosf) q ->
     resolved p q /\ (ahead p -> ahead q -> east p = east q)).
