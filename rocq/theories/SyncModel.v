(** The exact-time synchronisers of the lidar localizer
    (localization/include/lidar_feature_localization/subscriber.hpp:72-75, 86-88, 105-108) and of
    the map builder (mapping/src/mapping.cpp:52-55, 68-76).  The algorithm is that of
    message_filters::sync_policies::ExactTime, which is not part of the repository; it is
    written down here as documented there. *)
From Coq Require Import List ZArith Bool.
Import ListNotations.
Open Scope Z_scope.

Section Sync.
(** The two messages (edge and surface cloud in subscriber.hpp:72-74, cloud and pose in
    mapping.cpp:52-54). *)
Variable A B : Type.
(** An arriving message with the stamp of its header (subscriber.hpp:86-87). *)
Inductive arrival := First (t : Z) (a : A) | Second (t : Z) (b : B).
(** The tuples waiting to be completed, a std::map ordered by stamp (behind subscriber.hpp:88). *)
Definition waiting_set : Type := list (Z * (option A * option B)).

(** std::map::operator[] and the assignment of one part (behind subscriber.hpp:88). *)
Fixpoint put (f : option A * option B -> option A * option B) (t : Z) (w : waiting_set) : waiting_set :=
  match w with
  | [] => [(t, f (None, None))]
  | (u, x) :: w' => if t <? u then (t, f (None, None)) :: w else if t =? u then (t, f x) :: w' else (u, x) :: put f t w'
  end.
(** std::map::operator[] (behind subscriber.hpp:88). *)
Fixpoint get (t : Z) (w : waiting_set) : option A * option B :=
  match w with [] => (None, None) | (u, x) :: w' => if t =? u then x else get t w' end.
(** erase and clearOldTuples: from the oldest on, all tuples that are not newer than the one
    just delivered (behind subscriber.hpp:88). *)
Fixpoint clear_old (t : Z) (w : waiting_set) : waiting_set :=
  match w with [] => [] | (u, x) :: w' => if u <=? t then clear_old t w' else w end.
(** While there are more tuples than the queue size (Exact(10) in subscriber.hpp:88, Exact(1000)
    in mapping.cpp:70), the oldest one is dropped. *)
Definition limit (q : nat) (w : waiting_set) : waiting_set := skipn (length w - q) w.

(** ExactTime::add with checkTuple: the tuples left and the callback that is made, if any
    (registered in subscriber.hpp:105-108 and mapping.cpp:72-75). *)
Definition sync_add (q : nat) (w : waiting_set) (e : arrival) : waiting_set * list (Z * A * B) :=
  let '(t, f) := match e with First t a => (t, fun x => (Some a, snd x)) | Second t b => (t, fun x => (fst x, Some b)) end in
  let w' := put f t w in
  match get t w' with
  | (Some a, Some b) => (limit q (clear_old t w'), [(t, a, b)])
  | _ => (limit q w', [])
  end.
(** The callbacks over a sequence of arrivals (the executor of localization/app/localization.cpp:86). *)
Fixpoint sync_run (q : nat) (w : waiting_set) (l : list arrival) : waiting_set * list (Z * A * B) :=
  match l with
  | [] => (w, [])
  | e :: l' => let '(w', out) := sync_add q w e in let '(w'', out') := sync_run q w' l' in (w'', out ++ out')
  end.
(** The callbacks made from the start (subscriber.hpp:88; nothing waits). *)
Definition callbacks (q : nat) (l : list arrival) : list (Z * A * B) := snd (sync_run q [] l).
End Sync.
Arguments First {A B} t a.
Arguments Second {A B} t b.
Arguments put {A B} f t w.
Arguments get {A B} t w.
Arguments clear_old {A B} t w.
Arguments limit {A B} q w.
Arguments sync_add {A B} q w e.
Arguments sync_run {A B} q w l.
Arguments callbacks {A B} q l.
(** subscriber.hpp:88 Exact(10). *)
Definition localizer_queue : nat := 10.
(** mapping.cpp:70 Exact(1000). *)
Definition mapping_queue : nat := 1000.
