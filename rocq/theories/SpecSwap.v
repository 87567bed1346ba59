(** Vocabulary of C127 and C128: measurements fused one after the other. *)
From Coq Require Import Reals List ZArith PeanoNat.
From Verif Require Import SpecKalman SpecFusion.
Import ListNotations.
Local Open Scope R_scope.

(** A measurement for a Kalman filter: the number of measured values, the measurement
    matrix, the covariance of the noise, and the values. *)
Record reading := Reading { size : nat; sees : nat -> nat -> R; fuzz : nat -> nat -> R; reads : nat -> R }.
(** A reading is fused as in textbooks, in a filter of n states. *)
Definition fused (n : nat) (r : reading) (s s' : estimate) : Prop :=
  textbook_update n (size r) (sees r) (fuzz r) (reads r) (fst s) (snd s) (fst s') (snd s').
(** The same estimate of n states. *)
Definition same_estimate (n : nat) (s t : estimate) : Prop := same_vector n (fst s) (fst t) /\ same_matrix n n (snd s) (snd t).
(** Two readings taken as one: the values of the second after those of the first, their
    noises independent. *)
Definition together (r1 r2 : reading) : reading := let h := size r1 in
  Reading (h + size r2)
    (fun i j => if i <? h then sees r1 i j else sees r2 (i - h) j)%nat
    (fun i j => if (i <? h)%nat then (if (j <? h)%nat then fuzz r1 i j else 0) else (if (j <? h)%nat then 0 else fuzz r2 (i - h)%nat (j - h)%nat))
    (fun i => if i <? h then reads r1 i else reads r2 (i - h))%nat.
(** A message for the EKF localizer is accepted: the copy of its time is still there and the
    values pass the gate. *)
Definition passes (h blocks : nat) (dist : R) (now : Z) (dt : R) (m : measurement) (s : estimate) : Prop :=
  exists d : Z, (0 <= d)%Z /\ delay_of m now dt d /\ (d < Z.of_nat blocks)%Z /\
    inside_gate h (fun i j => snd s (col m i) (col m j)) dist (fun k => fst s (Z.to_nat d * 6 + col m k)%nat - values m k).
