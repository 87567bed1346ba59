(** Specification vocabulary for doubles. Nothing in this file models code. *)
From Coq Require Import ZArith Reals.
From Flocq Require Import Core.
From Flocq Require Import IEEE754.BinarySingleNaN.
From Verif Require Import Base Arith.
Open Scope R_scope.

(** Rounding to nearest double. *)
Definition rnd (x : R) : R := round radix2 (SpecFloat.fexp 53 1024) ZnearestE x.

(** Real value of a double, and being neither infinite nor NaN. *)
Definition val (x : b64) : R := B2R x.
Definition fin (x : b64) : Prop := is_finite x = true.
(** Being representable as a double, range aside. *)
Definition fmt (x : R) : Prop := generic_format radix2 (SpecFloat.fexp 53 1024) x.
