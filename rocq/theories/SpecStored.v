(** Vocabulary for C134: where the points of a scan belong and where they are stored. *)
From Coq Require Import List ZArith Reals.
From Flocq Require Import Core IEEE754.BinarySingleNaN.
From Verif Require Import Base Arith PoseModel SpecIeee RoundTripModel TransformModel.
Open Scope R_scope.

Section Stored.
Variable acosf : b64 -> b64.
Notation A := (ieee acosf).
(** The real numbers behind a point, a position and a quaternion. *)
Definition real_point (p : fpoint A) : vec := V3 (B2R (p0 _ p : b32)) (B2R (p1 _ p : b32)) (B2R (p2 _ p : b32)).
Definition real_position (t : dvec A) : vec := V3 (val (e0 _ t)) (val (e1 _ t)) (val (e2 _ t)).
Definition real_quaternion (q : dquat A) : quat := Qn (val (dw _ q)) (val (dx _ q)) (val (dy _ q)) (val (dz _ q)).
(** The coordinates are numbers of size at most [M]. *)
Definition point_within (M : R) (p : fpoint A) : Prop :=
  (is_finite (p0 _ p : b32) = true /\ is_finite (p1 _ p : b32) = true /\ is_finite (p2 _ p : b32) = true) /\
  Rabs (vx (real_point p)) <= M /\ Rabs (vy (real_point p)) <= M /\ Rabs (vz (real_point p)) <= M.
Definition position_within (M : R) (t : dvec A) : Prop :=
  (fin (e0 _ t) /\ fin (e1 _ t) /\ fin (e2 _ t)) /\ Rabs (val (e0 _ t)) <= M /\ Rabs (val (e1 _ t)) <= M /\ Rabs (val (e2 _ t)) <= M.
(** The components of the quaternion are numbers of size at most 2, which includes all unit
    quaternions up to rounding. *)
Definition usual_quaternion (q : dquat A) : Prop :=
  (fin (dw _ q) /\ fin (dx _ q) /\ fin (dy _ q) /\ fin (dz _ q)) /\
  Rabs (val (dw _ q)) <= 2 /\ Rabs (val (dx _ q)) <= 2 /\ Rabs (val (dy _ q)) <= 2 /\ Rabs (val (dz _ q)) <= 2.
(** Where the pose of a message puts a point, without any rounding. *)
Definition belongs (t : dvec A) (q : dquat A) (p : fpoint A) : vec :=
  transform (make_pose (real_quaternion q) (real_position t)) (real_point p).
(** Each coordinate is stored up to a relative error and an absolute one. *)
Definition coordinate_near (rel abs x y : R) : Prop := Rabs (y - x) <= rel * Rabs x + abs.
Definition stored_near (rel abs : R) (x : vec) (p : fpoint A) : Prop :=
  (is_finite (p0 _ p : b32) = true /\ is_finite (p1 _ p : b32) = true /\ is_finite (p2 _ p : b32) = true) /\
  coordinate_near rel abs (vx x) (vx (real_point p)) /\ coordinate_near rel abs (vy x) (vy (real_point p)) /\
  coordinate_near rel abs (vz x) (vz (real_point p)).
End Stored.
