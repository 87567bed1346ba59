(** Vocabulary of C123: a scan seen in a mirror that exchanges left and right. Nothing in this
    file models code. *)
From Coq Require Import List ZArith Reals Sorting.Sorted.
From Flocq Require Import IEEE754.BinarySingleNaN.
From Verif Require Import Base Arith ExtractModel SpecReal SpecMount.
Import ListNotations.
Local Open Scope R_scope.

(** Coordinates, a return and a coloured point seen in the mirror. *)
Definition mirrored_xyz (c : R * R * R) : R * R * R := let '(x, y, z) := c in (x, - y, z).
Definition mirrored_return (p : point exact) : point exact :=
  {| px := px exact p; py := - py exact p : F exact; pz := pz exact p;
     pintensity := pintensity exact p; pring := pring exact p |}.
Definition mirrored_color (a : colored exact) : colored exact :=
  {| cx := cx exact a; cy := - cy exact a : F exact; cz := cz exact a; crgb := crgb exact a |}.
(** The same in floating point, where it is exact. *)
Definition mirrored_float (acosf : b64 -> b64) (p : point (ieee acosf)) : point (ieee acosf) :=
  {| px := px (ieee acosf) p; py := Bopp (py (ieee acosf) p : b32) : F (ieee acosf); pz := pz (ieee acosf) p;
     pintensity := pintensity (ieee acosf) p; pring := pring (ieee acosf) p |}.

(** The returns of ring [k]. *)
Definition returns_of (cloud : list (point exact)) (k : Z) : list (point exact) :=
  filter (fun p => Z.eqb (pring exact p) k) cloud.
(** Returns listed in the order of their directions, starting behind the sensor. *)
Definition around (l : list (point exact)) : Prop :=
  StronglySorted (fun a b => forall phi psi, azimuth a phi -> azimuth b psi -> phi < psi) l.
(** Horizontal distance of the return at position [i] of the list. *)
Definition distance_at (l : list (point exact)) (i : nat) : R :=
  nth i (map (fun p => sqrt (px exact p * px exact p + py exact p * py exact p)) l) 0.
(** No two places of the list, [pad] or more from its ends, where the distances bend alike. *)
Definition bends_differ (pad : nat) (l : list (point exact)) : Prop :=
  forall i j, (pad <= i < length l - pad)%nat -> (pad <= j < length l - pad)%nat -> i <> j ->
    Rsqr (second_diff (distance_at l) pad i) <> Rsqr (second_diff (distance_at l) pad j).
