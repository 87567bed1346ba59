(** Vocabulary of C107: the covariance of an initial pose without its correlations. *)
From Coq Require Import Reals List ZArith String.
From Verif Require Import Base Arith EkfModel.
Import ListNotations.
Local Open Scope R_scope.

(** The 6 x 6 array, by rows, with zero away from the diagonal. *)
Definition without_correlations (array : list R) : list R :=
  map (fun k => if Nat.eqb (k / 6) (k mod 6) then nth k array 0 else 0) (seq 0 36).
Definition uncorrelated (Orient : Type) (e : event exact Orient) : event exact Orient :=
  match e with
  | EvInitialPose _ _ m tf =>
      EvInitialPose exact Orient (PoseMsg exact Orient (p_frame _ _ m) (p_stamp _ _ m) (p_x _ _ m) (p_y _ _ m) (p_z _ _ m) (p_orient _ _ m)
        (without_correlations (p_cov _ _ m))) tf
  | _ => e
  end.
(** Covariances of initial poses have 36 entries. *)
Definition complete (Orient : Type) (e : event exact Orient) : Prop :=
  match e with EvInitialPose _ _ m _ => List.length (p_cov _ _ m) = 36%nat | _ => True end.
