(** Vocabulary of C139: what the network may do to the messages of one process on their way to
    another. *)
From Coq Require Import List ZArith.
From Verif Require Import Base Arith ExtractModel SyncModel SpecSync ChainModel.
Import ListNotations.
Open Scope Z_scope.

(** [x] is [y] with some elements left out. *)
Inductive left_out {M : Type} : list M -> list M -> Prop :=
| left_nil : left_out [] []
| left_keep m x y : left_out x y -> left_out (m :: x) (m :: y)
| left_skip m x y : left_out x y -> left_out x (m :: y).

Section Spec.
Variable A : arith.
Variable Pose : Type.
(** The feature messages among the arrivals, and the prior poses. *)
Definition features (h : list (input A Pose)) : list (arrival (cloud A) (cloud A)) :=
  flat_map (fun i => match i with Feature e => [e] | Prior _ _ => [] end) h.
Definition received (h : list (input A Pose)) : list (Z * Pose) :=
  flat_map (fun i => match i with Feature _ => [] | Prior t p => [(t, p)] end) h.
(** The messages of the two topics. *)
Definition edges (m : list (Z * cloud A * cloud A)) : list (Z * cloud A) := map (fun x => (fst (fst x), snd (fst x))) m.
Definition surfaces (m : list (Z * cloud A * cloud A)) : list (Z * cloud A) := map (fun x => (fst (fst x), snd x)) m.
(** The network keeps the order within a topic and invents nothing; it may lose messages, and
    the two topics may be interleaved in any way. *)
Definition delivers (m : list (Z * cloud A * cloud A)) (h : list (input A Pose)) : Prop :=
  left_out (firsts (features h)) (edges m) /\ left_out (seconds (features h)) (surfaces m).
(** It loses nothing, and neither topic gets ahead of the other by more than q messages. *)
Definition delivers_all (q : nat) (m : list (Z * cloud A * cloud A)) (h : list (input A Pose)) : Prop :=
  firsts (features h) = edges m /\ seconds (features h) = surfaces m /\
  forall h1 h2, h = h1 ++ h2 ->
    (length (firsts (features h1)) <= length (seconds (features h1)) + q /\
     length (seconds (features h1)) <= length (firsts (features h1)) + q)%nat.
End Spec.
Arguments features {A Pose} h.
Arguments received {A Pose} h.
Arguments edges {A} m.
Arguments surfaces {A} m.
Arguments delivers {A Pose} m h.
Arguments delivers_all {A Pose} q m h.
