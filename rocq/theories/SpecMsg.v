(** Vocabulary of the properties of messages. *)
From Coq Require Import List Reals.
From Verif Require Import PoseModel SpecPose.
Import ListNotations.
Open Scope R_scope.

(** Distance of two points. *)
Definition dist (a b : vec) : R := vnorm (vsub a b).
(** Two lists of points of the same shape: same length and same distances. *)
Definition same_shape (l l' : list vec) : Prop :=
  length l = length l' /\
  forall i j a b a' b', nth_error l i = Some a -> nth_error l j = Some b ->
    nth_error l' i = Some a' -> nth_error l' j = Some b' -> dist a' b' = dist a b.
(** The quaternion with all components negated, which denotes the same rotation. *)
Definition qopp (q : quat) : quat := Qn (- qw q) (- qx q) (- qy q) (- qz q).
(** A conversion that keeps a quaternion or negates it. *)
Definition up_to_sign (f : quat -> quat) : Prop := forall q, f q = q \/ f q = qopp q.

(** The sum of the squared differences of all pairs of values. *)
Definition pair_sum (v : list R) : R :=
  fold_right Rplus 0 (map (fun x => fold_right Rplus 0 (map (fun y => (x - y) * (x - y)) v)) v).
