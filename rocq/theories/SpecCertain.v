(** Vocabulary of C102: how certain published messages are. *)
From Coq Require Import Reals List ZArith PeanoNat String.
From Verif Require Import Base Arith EkfModel SpecKalman SpecCycle.
Local Open Scope R_scope.

(** No combination of the components is less certain in covariance [a] than in [b]; both are
    6 x 6 arrays. *)
Definition at_least_as_certain (a b : list R) : Prop := forall v, variance_along 6 (square a) v <= variance_along 6 (square b) v.
(** The same kind of message with the same stamp and frame, and covariances that are at
    least as certain. *)
Definition refines (a b : output exact) : Prop :=
  match a, b with
  | OutTransform t frame _, OutTransform t' frame' _ => t = t' /\ frame = frame'
  | OutOdometry t frame _ pc _ _ tc, OutOdometry t' frame' _ pc' _ _ tc' =>
      t = t' /\ frame = frame' /\ at_least_as_certain pc pc' /\ at_least_as_certain tc tc'
  | _, _ => False
  end.
(** Arriving poses and twists. *)
Definition is_arrival {Orient : Type} (e : event exact Orient) : Prop :=
  match e with EvPose _ | EvTwist _ => True | _ => False end.
