(** Specification of linear algebra and of the Kalman filter over the real numbers, used to
    state the theorems of Prop_Kalman.v.  Nothing here refers to the model of the code.
    A matrix is the function of its entries; only entries below the stated sizes count. *)
From Coq Require Import Reals PeanoNat List Bool ZArith.
Local Open Scope R_scope.

(** Sum of f 0, ..., f (n - 1). *)
Fixpoint total (n : nat) (f : nat -> R) : R := match n with O => 0 | S k => total k f + f k end.

(** Equality of matrices and of vectors of given sizes. *)
Definition same_matrix (m n : nat) (X Y : nat -> nat -> R) : Prop := forall i j, (i < m)%nat -> (j < n)%nat -> X i j = Y i j.
Definition same_vector (n : nat) (x y : nat -> R) : Prop := forall i, (i < n)%nat -> x i = y i.

(** Products with inner size k, and the transpose. *)
Definition times (k : nat) (X Y : nat -> nat -> R) : nat -> nat -> R := fun i j => total k (fun l => X i l * Y l j).
Definition apply_to (k : nat) (X : nat -> nat -> R) (v : nat -> R) : nat -> R := fun i => total k (fun l => X i l * v l).
Definition flip (X : nat -> nat -> R) : nat -> nat -> R := fun i j => X j i.
Definition plus (X Y : nat -> nat -> R) : nat -> nat -> R := fun i j => X i j + Y i j.
Definition minus (X Y : nat -> nat -> R) : nat -> nat -> R := fun i j => X i j - Y i j.
Definition scaled (c : R) (X : nat -> nat -> R) : nat -> nat -> R := fun i j => c * X i j.
Definition identity : nat -> nat -> R := fun i j => if Nat.eqb i j then 1 else 0.

(** v^T P v, the variance that the covariance P gives to the combination v of the state. *)
Definition variance_along (n : nat) (P : nat -> nat -> R) (v : nat -> R) : R :=
  total n (fun i => total n (fun j => v i * P i j * v j)).
Definition symmetric (n : nat) (P : nat -> nat -> R) : Prop := forall i j, (i < n)%nat -> (j < n)%nat -> P i j = P j i.
Definition positive_semidefinite (n : nat) (P : nat -> nat -> R) : Prop :=
  symmetric n P /\ forall v, 0 <= variance_along n P v.
Definition positive_definite (n : nat) (P : nat -> nat -> R) : Prop :=
  symmetric n P /\ forall v, (exists i, (i < n)%nat /\ v i <> 0) -> 0 < variance_along n P v.

Definition is_inverse (n : nat) (S V : nat -> nat -> R) : Prop :=
  same_matrix n n (times n S V) identity /\ same_matrix n n (times n V S) identity.

(** What exact matrix inversion does: the inverse if there is one, a failure otherwise. *)
Definition inverts (inverse : nat -> (nat -> nat -> R) -> option (nat -> nat -> R)) : Prop :=
  forall n S, match inverse n S with
              | Some V => is_inverse n S V
              | None => forall V, ~ is_inverse n S V
              end.

(** ** The Kalman filter of textbooks
    with n states: x, P before and x', P' after. *)
(** Prediction x' = F x + b with process noise Q. *)
Definition textbook_prediction (n : nat) (F Q : nat -> nat -> R) (b : nat -> R)
    (x : nat -> R) (P : nat -> nat -> R) (x' : nat -> R) (P' : nat -> nat -> R) : Prop :=
  same_vector n x' (fun i => apply_to n F x i + b i) /\
  same_matrix n n P' (plus (times n (times n F P) (flip F)) Q).
(** Measurement y = C x with noise covariance N; h measured values; K is the gain. *)
Definition textbook_update (n h : nat) (C N : nat -> nat -> R) (y : nat -> R)
    (x : nat -> R) (P : nat -> nat -> R) (x' : nat -> R) (P' : nat -> nat -> R) : Prop :=
  exists V K, is_inverse h (plus (times n C (times n P (flip C))) N) V /\
    same_matrix n h K (times h (times n P (flip C)) V) /\
    same_vector n x' (fun i => x i + apply_to h K (fun k => y k - apply_to n C x k) i) /\
    same_matrix n n P' (minus P (times h K (times n C P))).

(** ** The stacked system of a state of d entries and its delayed copies *)
(** The newest d entries move by F, all others are those of the block before. *)
Definition stacked_transition (d : nat) (F : nat -> nat -> R) : nat -> nat -> R := fun i j =>
  if (i <? d)%nat then (if (j <? d)%nat then F i j else 0)
  else (if Nat.eqb i (j + d) then 1 else 0).
(** Noise and offset enter the newest block only. *)
Definition stacked_noise (d : nat) (Q : nat -> nat -> R) : nat -> nat -> R := fun i j =>
  if ((i <? d) && (j <? d))%nat then Q i j else 0.
Definition stacked_offset (d : nat) (b : nat -> R) : nat -> R := fun i => if (i <? d)%nat then b i else 0.
(** The measurement is of the block with the given number. *)
Definition stacked_measurement (d block : nat) (C : nat -> nat -> R) : nat -> nat -> R := fun i j =>
  if Nat.eqb (j / d) block then C i (j mod d) else 0.
