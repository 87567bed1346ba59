(** Vocabulary of the properties C60-C73 of the EKF localizer. *)
From Coq Require Import String List ZArith Bool Reals.
From Verif Require Import Base Arith EkfModel.
Import ListNotations.
Open Scope Z_scope.

(** Use of a queue: a history of pushes and pops. *)
Inductive qop (Msg : Type) := QPush (m : Msg) | QPop.
Arguments QPush {Msg}. Arguments QPop {Msg}.
(** Queue and messages delivered by the pops so far, oldest first. *)
Definition q_step {Msg : Type} (max_age : Z) (s : queue Msg * list Msg) (o : qop Msg) : outcome (queue Msg * list Msg) :=
  match o with
  | QPush m => Ok (q_push (fst s) m, snd s)
  | QPop => ' (m, q) <- q_pop max_age (fst s) ;; Ok (q, snd s ++ [m])
  end.
Definition q_run {Msg : Type} (max_age : Z) (q : queue Msg) (h : list (qop Msg)) : outcome (queue Msg * list Msg) :=
  foldM (q_step max_age) (q, []) h.
(** The messages pushed, and the number of pops, in a history. *)
Definition pushed {Msg : Type} (h : list (qop Msg)) : list Msg :=
  flat_map (fun o => match o with QPush m => [m] | QPop => [] end) h.
Definition pops {Msg : Type} (h : list (qop Msg)) : nat :=
  length (filter (fun o => match o with QPush _ => false | QPop => true end) h).

(** Message m waits in the queue and has been popped a times so far. *)
Definition waits {Msg : Type} (q : queue Msg) (m : Msg) (a : Z) : Prop :=
  exists i, nth_error (msgs q) i = Some m /\ nth_error (ages q) i = Some a.

(** Deliveries still due before the queue is empty. *)
Definition due {Msg : Type} (max_age : Z) (q : queue Msg) : Z := fold_right Z.add 0 (map (fun a => max_age - a) (ages q)).

(** Use of a measurement object: arrivals and update cycles with the arguments of the
    call. *)
Inductive mop (Msg Arg : Type) := MArrive (m : Msg) | MCycle (a : Arg).
Arguments MArrive {Msg Arg}. Arguments MCycle {Msg Arg}.
Definition arrived {Msg Arg : Type} (h : list (mop Msg Arg)) : list Msg :=
  flat_map (fun o => match o with MArrive m => [m] | MCycle _ => [] end) h.
Definition cycles {Msg Arg : Type} (h : list (mop Msg Arg)) : nat :=
  length (filter (fun o => match o with MArrive _ => false | MCycle _ => true end) h).
(** A loop body that also records the messages it is given. *)
Definition recording {Msg S : Type} (body : S -> Msg -> outcome S) (sl : S * list Msg) (m : Msg) : outcome (S * list Msg) :=
  s' <- body (fst sl) m ;; Ok (s', snd sl ++ [m]).

(** The components of a state, in the order of state_index.hpp. *)
Definition comp (s : state exact) (i : nat) : R :=
  nth i [st_x _ s; st_y _ s; st_yaw _ s; st_bias _ s; st_vx _ s; st_wz _ s] 0%R.
(** The state with component j replaced. *)
Definition with_comp (s : state exact) (j : nat) (v : R) : state exact :=
  let c i := if Nat.eqb i j then v else comp s i in State exact (c 0%nat) (c 1%nat) (c 2%nat) (c 3%nat) (c 4%nat) (c 5%nat).

(** Well-formed histories of the EKF node: a span [lo, hi] of stamps and clock readings, and
    the least time g between ticks. *)
Section Calm.
Variable Orient : Type.
Variable lo hi g : Z.
Definition good_pose (m : pose_msg exact Orient) : Prop := lo <= p_stamp _ _ m /\ length (p_cov _ _ m) = 36%nat.
Definition good_twist (m : twist_msg exact) : Prop := lo <= t_stamp _ m /\ length (t_cov _ m) = 36%nat.
(** A calm history, given the last tick: ticks at least g apart, readings up to hi, stamps
    from lo on, transforms available, frames not empty, covariances of 36 entries. *)
Fixpoint calm (last : option Z) (h : list (event exact Orient)) : Prop :=
  match h with
  | [] => True
  | EvTimer _ _ t1 t2 t3 _ _ :: r => (match last with Some l => l + g <= t1 | None => True end) /\ t2 <= hi /\ t3 <= hi /\ calm (Some t1) r
  | EvInitialPose _ _ m tf :: r => tf <> None /\ p_frame _ _ m <> ""%string /\ good_pose m /\ calm last r
  | EvPose _ _ m :: r => good_pose m /\ calm last r
  | EvTwist _ _ m :: r => good_twist m /\ calm last r
  end.
End Calm.
