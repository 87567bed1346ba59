(** Vocabulary of C122: how much weight poses have and how far apart they are. *)
From Coq Require Import List ZArith Reals.
From Verif Require Import Arith EkfModel SpecHeight.
Import ListNotations.
Local Open Scope R_scope.

Section Poses.
Variable Orient : Type.
Notation message := (pose_msg exact Orient).
(** The weight of poses for the height (roll, pitch): the sum of the inverse variances. *)
Definition weight_of (k : nat) (l : list message) : R := fold_right (fun m w => / variance exact Orient k m + w) 0 l.
(** Each pose of the list is stamped at least [gap] seconds after (or before) the one that
    precedes it; the first one is compared with [m0]. *)
Fixpoint apart (gap : R) (m0 : message) (l : list message) : Prop :=
  match l with
  | [] => True
  | m :: l => gap <= Rabs (IZR (p_stamp _ _ m - p_stamp _ _ m0) / 1000000000) /\ apart gap m l
  end.
End Poses.
