(** Vocabulary of C115 and C116: the same scans and the same maps with their points in another
    order.  Nothing in this file models code. *)
From Coq Require Import List Reals ZArith Permutation.
From Verif Require Import Base Arith LocModel PoseModel OptModel SpecPose SpecFit.
Import ListNotations.
Open Scope R_scope.

(** The same edge features and the same surface features, each in any order. *)
Definition same_scan (s s' : list vec * list vec) : Prop := Permutation (fst s) (fst s') /\ Permutation (snd s) (snd s').
(** The same callback, up to the order of the features. *)
Inductive same_callback : event pose (list vec * list vec) -> event pose (list vec * list vec) -> Prop :=
| same_prior stamp p : same_callback (EvPrior stamp p) (EvPrior stamp p)
| same_features stamp s s' : same_scan s s' -> same_callback (EvScan stamp s) (EvScan stamp s').
(** The reduction to one point per voxel keeps the same points whatever their order. *)
Definition reduces_alike (downsample : list vec -> list vec) : Prop :=
  forall l l', Permutation l l' -> Permutation (downsample l) (downsample l').

(** The search returns the n points nearest to the query, or all if there are fewer. *)
Definition finds_nearest (find : list vec -> vec -> nat -> list nat) : Prop :=
  forall m q n, NoDup (find m q n) /\ length (find m q n) = Nat.min n (length m) /\
    (forall i, In i (find m q n) -> (i < length m)%nat) /\
    (forall i j x y, In i (find m q n) -> ~ In j (find m q n) -> nth_error m i = Some x -> nth_error m j = Some y ->
       squared_distance q x <= squared_distance q y).
(** No two points of the map are equally far from q. *)
Definition untied (q : vec) (m : list vec) : Prop :=
  forall i j x y, i <> j -> nth_error m i = Some x -> nth_error m j = Some y -> squared_distance q x <> squared_distance q y.
(** The neighbours found in the two maps are the same points, for every query. *)
Definition found_alike (find : list vec -> vec -> nat -> list nat) (m m' : list vec) (n : nat) : Prop :=
  forall q, (exists X X', nearest_k_search vec find m q n = Ok X /\ nearest_k_search vec find m' q n = Ok X' /\ Permutation X X')
         \/ (nearest_k_search vec find m q n = AssertFail /\ nearest_k_search vec find m' q n = AssertFail).
(** Every neighbourhood that the search finds determines the plane fitted to it. *)
Definition determined (find : list vec -> vec -> nat -> list nat) (m : list vec) (n : nat) : Prop :=
  forall q X, nearest_k_search vec find m q n = Ok X -> independent X.
