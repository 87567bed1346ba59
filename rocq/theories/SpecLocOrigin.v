(** Vocabulary of C111: the same maps, priors and scans told with another origin of the map. *)
From Coq Require Import List Reals ZArith.
From Verif Require Import Base Arith LocModel PoseModel OptModel SpecPose SpecFit.
Import ListNotations.
Open Scope R_scope.

Section Moved.
(** The new coordinates are the old ones plus d. *)
Variable d : vec.
Definition moved_point (p : vec) : vec := vadd p d.
Definition moved_pose (T : pose) : pose := Iso (lin T) (vadd (tra T) d).
(** Scans are told in the coordinates of the vehicle. *)
Definition moved_event {Scan : Type} (e : event pose Scan) : event pose Scan :=
  match e with EvPrior s p => EvPrior s (moved_pose p) | EvScan s x => EvScan s x end.
Definition moved_message (m : published pose) : published pose :=
  {| pub_stamp := pub_stamp m; pub_pose := moved_pose (pub_pose m); tf_stamp := tf_stamp m; tf_pose := moved_pose (tf_pose m) |}.
(** The search finds the same points whatever the coordinates. *)
Definition searches_alike (find : list vec -> vec -> nat -> list nat) : Prop :=
  forall m q n, find (map moved_point m) (moved_point q) n = find m q n.
(** Every neighbourhood that the search finds in the map lies in one plane, which it
    determines and which contains neither the old nor the new origin. *)
Definition flat (find : list vec -> vec -> nat -> list nat) (m : list vec) (n : nat) : Prop :=
  forall q X, nearest_k_search vec find m q n = Ok X ->
    independent X /\ exists v e, (forall x, In x X -> in_plane v e x) /\ e <> 0 /\ e + vdot v d <> 0.
End Moved.
