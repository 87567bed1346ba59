(** Vocabulary of C138: messages of two streams that belong together. *)
From Coq Require Import List ZArith Bool Sorted.
From Verif Require Import SyncModel.
Import ListNotations.
Open Scope Z_scope.

Section Spec.
Variable A B : Type.
(** The messages of each stream in the order of their arrival. *)
Definition firsts (l : list (arrival A B)) : list (Z * A) := flat_map (fun e => match e with First t a => [(t, a)] | Second _ _ => [] end) l.
Definition seconds (l : list (arrival A B)) : list (Z * B) := flat_map (fun e => match e with First _ _ => [] | Second t b => [(t, b)] end) l.
(** The stamps of a stream grow. *)
Definition growing {M : Type} (s : list (Z * M)) : Prop := StronglySorted Z.lt (map fst s).
(** The pairs of messages with equal stamps, in the order of the first stream. *)
Definition pairs (x : list (Z * A)) (y : list (Z * B)) : list (Z * A * B) :=
  flat_map (fun m => map (fun n => (fst m, snd m, snd n)) (filter (fun n => fst n =? fst m) y)) x.
(** No message with this stamp, and none of the pairs has this stamp or a later one. *)
Definition lonely {M N : Type} (x : list (Z * M)) (y : list (Z * N)) (t : Z) : bool :=
  forallb (fun n => negb (fst n =? t)) y && forallb (fun m => (fst m <? t) || forallb (fun n => negb (fst n =? fst m)) y) x.
(** The messages of either stream waiting for a partner: received, without partner so far,
    and newer than the last pair. *)
Definition waiting (x : list (Z * A)) (y : list (Z * B)) : nat :=
  (length (filter (fun m => lonely x y (fst m)) x) + length (filter (fun n => lonely y x (fst n)) y))%nat.
(** At no time more than q messages wait. *)
Definition never_more_than (q : nat) (l : list (arrival A B)) : Prop :=
  forall p r, l = p ++ r -> (waiting (firsts p) (seconds p) <= q)%nat.
End Spec.
Arguments firsts {A B} l.
Arguments seconds {A B} l.
Arguments pairs {A B} x y.
Arguments waiting {A B} x y.
Arguments never_more_than {A B} q l.
