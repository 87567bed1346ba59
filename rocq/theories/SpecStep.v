(** Vocabulary of the property C87: the linearised weighted error of a problem, the
    directions in which a pose can move, and what the linear algebra library computes. *)
From Coq Require Import List Reals.
From Verif Require Import PoseModel SpecPose.
Import ListNotations.
Open Scope R_scope.

Definition total (n : nat) (f : nat -> R) : R := fold_right Rplus 0 (map f (seq 0 n)).

(** The velocity of the 7 coordinates (w, x, y, z, then the translation) of the pose
    (q, t) when it starts to turn with the body angular velocity (y 0, y 1, y 2) and to
    move with the velocity (y 3, y 4, y 5): the derivative of a quaternion is half its
    product with the angular velocity. *)
Definition tangent (q : quat) (y : nat -> R) : list R :=
  coords (hamilton q (Qn 0 (y 0%nat / 2) (y 1%nat / 2) (y 2%nat / 2))) ++ [y 3%nat; y 4%nat; y 5%nat].

(** The sum over the terms of the problem of the weight times the squared length of
    r + J x. *)
Definition row_dot (row x : list R) : R :=
  fold_right Rplus 0 (map (fun ab => fst ab * snd ab) (combine row x)).
Definition linear_error (w : list R) (Js : list (list (list R))) (rs : list (list R)) (x : list R) : R :=
  fold_right Rplus 0 (map (fun wJr => fst wJr *
    fold_right Rplus 0 (map (fun ab => (snd ab + row_dot (fst ab) x) * (snd ab + row_dot (fst ab) x))
                            (combine (fst (snd wJr)) (snd (snd wJr)))))
    (combine w (combine Js rs))).

Definition quad (n : nat) (A : nat -> nat -> R) (x : nat -> R) : R :=
  total n (fun i => total n (fun j => x i * A i j * x j)).
Definition nonzero (n : nat) (x : nat -> R) : Prop := exists i, (i < n)%nat /\ x i <> 0.
Definition positive_definite (n : nat) (A : nat -> nat -> R) : Prop :=
  (forall i j, (i < n)%nat -> (j < n)%nat -> A i j = A j i) /\
  (forall x, nonzero n x -> 0 < quad n A x).
(** A Cholesky solver solves positive definite systems. *)
Definition solves_positive_definite (solve : nat -> (nat -> nat -> R) -> (nat -> R) -> (nat -> R)) : Prop :=
  forall n A b, positive_definite n A ->
    forall i, (i < n)%nat -> total n (fun j => A i j * solve n A b j) = b i.
(** The list l holds eigenvalues of A, among them the smallest one (it bounds the quadratic
    form from below). *)
Definition eigenvalues_of (n : nat) (A : nat -> nat -> R) (l : list R) : Prop :=
  (forall e, In e l -> exists x, nonzero n x /\
     forall i, (i < n)%nat -> total n (fun j => A i j * x j) = e * x i) /\
  (forall x, exists e, In e l /\ e * total n (fun i => x i * x i) <= quad n A x).
