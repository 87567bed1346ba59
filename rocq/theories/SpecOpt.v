(** Vocabulary of the properties C39-C41, C47, C50 and C53: what a run of an iterative
    optimiser is. *)
From Coq Require Import List ZArith Bool Reals Permutation.
From Verif Require Import Base Arith LibModel LocModel.
Import ListNotations.

Section Runs.
Variable A : arith.
Variable Quat Vec Pose Jac Res : Type.
Variable make : Pose -> outcome (list Jac * list Res).
Variable make_pose : Quat -> Vec -> Pose.
Variable dot : Res -> D A.
Variable calc_update : Quat -> list (D A) -> list Jac -> list Res -> outcome (Quat * Vec).
Variable qmul : Quat -> Quat -> Quat.
Variable vadd : Vec -> Vec -> Vec.
Variable converged : Quat -> Vec -> bool.
Variable sel : selector A.
Variable b_scale k_huber tiny : D A.

(** What one iteration measures at a position: the total squared error and the robust
    scale of the squared errors of a non-empty problem. *)
Definition measured (q : Quat) (t : Vec) (J : list Jac) (r : list Res) (error sc : D A) : Prop :=
  make (make_pose q t) = Ok (J, r) /\ r <> [] /\
  error = fold_left (d_add A) (map dot r) (d_of_Z A 0) /\
  scale A sel b_scale (map dot r) = Ok sc.

(** The step taken from there: the weighted update with Huber weights of the errors
    divided by the scale. *)
Definition step (q : Quat) (J : list Jac) (r : list Res) (sc : D A) (dq : Quat) (dt : Vec) : Prop :=
  calc_update q (map (fun e => huber_derivative A (d_div A e (d_add A sc tiny)) k_huber) (map dot r)) J r = Ok (dq, dt).

(** Accepted iterations that did not stop: from (q, t) to (q', t'), with the errors and
    scales measured, starting from the previous error and scale. *)
Inductive iterations : Quat -> Vec -> D A -> D A -> list (D A * D A) -> Quat -> Vec -> D A -> D A -> Prop :=
| it_none q t e s : iterations q t e s [] q t e s
| it_more q t e0 s0 J r e s dq dt l q' t' e' s' :
    measured q t J r e s -> d_ltb A e0 e = false -> d_ltb A s0 s = false ->
    step q J r s dq dt -> converged dq dt = false ->
    iterations (qmul q dq) (vadd t dt) e s l q' t' e' s' ->
    iterations q t e0 s0 ((e, s) :: l) q' t' e' s'.
End Runs.

(** A list in which no element is smaller than the one after it. *)
Fixpoint never_increases {T : Type} (lt : T -> T -> bool) (l : list T) : Prop :=
  match l with
  | a :: ((b :: _) as l') => lt a b = false /\ never_increases lt l'
  | _ => True
  end.

(** A linear solver and an eigenvalue solver that are right at least on positive diagonal
    matrices. *)
Definition diagonal (n : nat) (A : nat -> nat -> R) : Prop :=
  (forall i j, (i < n)%nat -> (j < n)%nat -> i <> j -> A i j = 0%R) /\ (forall i, (i < n)%nat -> (0 < A i i)%R).
Definition correct_solver (solve : nat -> (nat -> nat -> R) -> (nat -> R) -> (nat -> R)) : Prop :=
  forall n A b, diagonal n A -> forall i, (i < n)%nat -> (A i i * solve n A b i)%R = b i.
Definition correct_eigenvalues (eig : nat -> (nat -> nat -> R) -> list R) : Prop :=
  forall n A, diagonal n A -> forall e, In e (eig n A) -> exists i, (i < n)%nat /\ e = A i i.

(** What a k-nearest-neighbour search finds in a map of the given size: as many distinct
    indices as asked for, or all of them if the map is smaller. *)
Definition finds_neighbors {Row : Type} (find : list Row -> Row -> nat -> list nat) : Prop :=
  forall m q n, NoDup (find m q n) /\ (forall i, In i (find m q n) -> (i < length m)%nat) /\
    length (find m q n) = Nat.min n (length m).

(** The sum of J' J over the Jacobians, and the total squared error of a problem. *)
Definition normal_matrix (Js : list (list (list R))) (i j : nat) : R :=
  fold_right Rplus 0%R (map (fun J => fold_right Rplus 0%R (map (fun row => nth i row 0 * nth j row 0)%R J)) Js).
Definition total_error (residuals : list (list R)) : R :=
  fold_right Rplus 0%R (map (fun r => fold_right Rplus 0%R (map (fun x => x * x)%R r)) residuals).
(** As many Jacobians as residuals, each with as many rows as its residual and 7 columns. *)
Definition well_shaped (Js : list (list (list R))) (rs : list (list R)) : Prop :=
  Forall2 (fun J r => length J = length r /\ Forall (fun row => length row = 7%nat) J) Js rs.
