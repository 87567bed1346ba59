(** Vocabulary of the property C87 for whole runs: the iteration that the optimiser is meant
    to perform, with its numbers, in terms of medians, Huber's weights and least squares. *)
From Coq Require Import List ZArith Reals Permutation Sorted.
From Verif Require Import Base PoseModel SpecPose SpecOpt SpecStep.
Import ListNotations.
Open Scope R_scope.

(** The median of a list: the middle of the sorted list, or the mean of the two elements in
    the middle. *)
Definition is_median (v : list R) (m : R) : Prop :=
  exists s, Permutation v s /\ StronglySorted Rle s /\
    ((exists n, (length v = 2 * n + 1)%nat /\ m = nth n s 0) \/
     (exists n, (length v = 2 * n + 2)%nat /\ m = (nth n s 0 + nth (n + 1) s 0) / 2)).

Definition squared (r : list R) : R := fold_right Rplus 0 (map (fun x => x * x) r).

(** Huber's weight with the constant 1.345 of a squared error. *)
Definition huber_weight (a : R) : R := if Rlt_dec a (1.345 * 1.345) then 1 else 1.345 / sqrt a.

(** The weights of residuals: of their squared lengths divided by 1.482602218505602 times
    the median absolute deviation of these (plus 1e-16). *)
Definition huber_weights (rs : list (list R)) (w : list R) : Prop :=
  exists m d, is_median (map squared rs) m /\ is_median (map (fun a => Rabs (a - m)) (map squared rs)) d /\
    w = map (fun r => huber_weight (squared r / (1.482602218505602 * d + 1e-16))) rs.

(** One step from the pose (q, t): none if an eigenvalue of the normal matrix is smaller
    than 0.1, otherwise the one along which the weighted linearised error is least. A
    rotation by less than 1e-8 is not made. *)
Definition moves (eig : nat -> (nat -> nat -> R) -> list R) (q : quat) (t : vec) (Js : list (list (list R))) (rs : list (list R))
    (w : list R) (q' : quat) (t' : vec) : Prop :=
  well_shaped Js rs ->
  ((exists e, In e (eig 7%nat (normal_matrix Js)) /\ Rabs e < 0.1) -> q' = q /\ t' = t) /\
  (eigenvalues_of 7 (normal_matrix Js) (eig 7%nat (normal_matrix Js)) ->
   (forall e, In e (eig 7%nat (normal_matrix Js)) -> 0.1 <= Rabs e) ->
   exists x, let theta := V3 (x 0%nat) (x 1%nat) (x 2%nat) in
     q' = hamilton q (turn theta (if Rlt_dec (vnorm theta) 1e-8 then 0 else 1)) /\
     t' = vadd t (V3 (x 3%nat) (x 4%nat) (x 5%nat)) /\
     forall y, linear_error w Js rs (tangent q x) <= linear_error w Js rs (tangent q y)).

(** n such steps, each for the problem posed at the pose reached before. *)
Inductive descends (eig : nat -> (nat -> nat -> R) -> list R) (problem : pose -> outcome (list mat * list (list R))) :
  nat -> quat -> vec -> quat -> vec -> Prop :=
| stays q t : descends eig problem 0 q t q t
| goes n q t Js rs w q1 t1 q2 t2 :
    problem (Iso (to_rotation q) t) = Ok (Js, rs) -> rs <> [] -> huber_weights rs w -> moves eig q t Js rs w q1 t1 ->
    descends eig problem n q1 t1 q2 t2 -> descends eig problem (S n) q t q2 t2.
