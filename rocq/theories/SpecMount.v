(** Vocabulary for scans seen by a turned sensor. Nothing in this file models code. *)
From Coq Require Import List Reals.
From Flocq Require Import IEEE754.BinarySingleNaN.
From Verif Require Import Base Arith ExtractModel.
Import ListNotations.

(** Two runs end alike: both give results, related by [R], or both fail in the same way. *)
Definition alike {X Y} (R : X -> Y -> Prop) (a : outcome X) (b : outcome Y) : Prop :=
  match a, b with
  | Ok x, Ok y => R x y
  | ThrowInvalid, ThrowInvalid | ThrowRange, ThrowRange | ThrowOther, ThrowOther
  | AssertFail, AssertFail | UB, UB => True
  | _, _ => False
  end.

(** The published clouds correspond point by point: coordinates related by [R], same colours,
    same request to shut down. *)
Definition clouds_correspond (A : arith) (R : F A * F A * F A -> F A * F A * F A -> Prop)
    (o1 o2 : published A) : Prop :=
  Forall2 R (o_edge A o1) (o_edge A o2) /\
  Forall2 R (o_surface A o1) (o_surface A o2) /\
  Forall2 (fun a b => R (cx A a, cy A a, cz A a) (cx A b, cy A b, cz A b) /\ crgb A a = crgb A b)
    (o_colored A o1) (o_colored A o2) /\
  o_shutdown A o1 = o_shutdown A o2.

Open Scope R_scope.

(** Coordinates turned by [angle] about the vertical axis. *)
Definition turned_xyz (angle : R) (c : R * R * R) : R * R * R :=
  let '(x, y, z) := c in (cos angle * x - sin angle * y, sin angle * x + cos angle * y, z).

(** A return of the sensor turned about the vertical axis. *)
Definition turned (angle : R) (p : point exact) : point exact :=
  {| px := cos angle * px exact p - sin angle * py exact p : F exact;
     py := sin angle * px exact p + cos angle * py exact p : F exact;
     pz := pz exact p; pintensity := pintensity exact p; pring := pring exact p |}.

(** The direction of a return is [phi]: it lies off the axis of the sensor, and [phi] is its
    azimuth, counted from the x axis, in (-pi, pi]. *)
Definition azimuth (p : point exact) (phi : R) : Prop :=
  - PI < phi <= PI /\ exists dist, 0 < dist /\ px exact p = dist * cos phi /\ py exact p = dist * sin phi.

(** A half turn, exact in floating point: both horizontal coordinates change sign. *)
Definition half_turned (acosf : b64 -> b64) (p : point (ieee acosf)) : point (ieee acosf) :=
  {| px := Bopp (px (ieee acosf) p : b32) : F (ieee acosf);
     py := Bopp (py (ieee acosf) p : b32) : F (ieee acosf);
     pz := pz (ieee acosf) p; pintensity := pintensity (ieee acosf) p; pring := pring (ieee acosf) p |}.
