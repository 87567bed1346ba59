(** Vocabulary of C125 and C126: estimates from a prior estimate and a measurement. *)
From Coq Require Import Reals.
From Verif Require Import SpecKalman SpecFusion.
Local Open Scope R_scope.

(** The combination v of n values. *)
Definition combination (n : nat) (v x : nat -> R) : R := total n (fun i => v i * x i).
(** What is measured less what is expected. *)
Definition surprise (n : nat) (C : nat -> nat -> R) (y x : nat -> R) : nat -> R := fun k => y k - apply_to n C x k.
(** The error of the estimate v.x + l.(y - C x) of v.s, where s is the true state, is
    (v - C^T l).(x - s) + l.(y - C s).  Its variance, if x - s has covariance P, y - C s has
    covariance N, and the two are uncorrelated: *)
Definition error_variance (n h : nat) (C P N : nat -> nat -> R) (v l : nat -> R) : R :=
  variance_along n P (fun i => v i - total h (fun k => C k i * l k)) + variance_along h N l.
(** a^T W b. *)
Definition weighted (h : nat) (W : nat -> nat -> R) (a b : nat -> R) : R := total h (fun i => total h (fun j => a i * W i j * b j)).
(** b lies on the way from a towards zero: it is not longer, and does not point the other way. *)
Definition drawn (h : nat) (W : nat -> nat -> R) (a b : nat -> R) : Prop :=
  0 <= weighted h W b b <= weighted h W b a /\ weighted h W b a <= weighted h W a a.
(** What a message reports less what the copy of number d of the estimate says. *)
Definition gap (m : measurement) (d : nat) (s : estimate) : nat -> R := fun k => values m k - fst s (d * 6 + col m k)%nat.
