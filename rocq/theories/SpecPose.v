(** Vocabulary of the properties C45-C49: quaternion algebra and rotations, from the
    textbook definitions. *)
From Coq Require Import List Reals.
From Verif Require Import PoseModel.
Import ListNotations.
Open Scope R_scope.

(** Hamilton's product: (a, u)(b, v) = (ab - u.v, a v + b u + u x v). *)
Definition hamilton (p q : quat) : quat :=
  let u := qvec p in let v := qvec q in
  let w := vadd (vadd (vscale (qw p) v) (vscale (qw q) u)) (vcross u v) in
  Qn (qw p * qw q - vdot u v) (vx w) (vy w) (vz w).
Definition qconj (q : quat) : quat := Qn (qw q) (- qx q) (- qy q) (- qz q).
Definition qsum (p q : quat) : quat := Qn (qw p + qw q) (qx p + qx q) (qy p + qy q) (qz p + qz q).
Definition qnorm2 (q : quat) : R := qw q * qw q + qx q * qx q + qy q * qy q + qz q * qz q.
Definition unit (q : quat) : Prop := qnorm2 q = 1.
(** The sandwich q p q*. *)
Definition sandwich (q : quat) (p : vec) : vec :=
  qvec (hamilton (hamilton q (Qn 0 (vx p) (vy p) (vz p))) (qconj q)).
(** Components of a quaternion, and of a quaternion and a vector. *)
Definition coords (q : quat) : list R := [qw q; qx q; qy q; qz q].
Definition coords7 (q : quat) (t : vec) : list R := coords q ++ vlist t.
(** Matrix times column. *)
Definition mat_app (M : mat) (x : list R) : list R :=
  map (fun row => fold_right Rplus 0 (map (fun ab => fst ab * snd ab) (combine row x))) M.

(** 3x3 matrices. *)
Definition mmul3 (a b : mat3) : mat3 :=
  M3 (m00 a * m00 b + m01 a * m10 b + m02 a * m20 b) (m00 a * m01 b + m01 a * m11 b + m02 a * m21 b) (m00 a * m02 b + m01 a * m12 b + m02 a * m22 b)
     (m10 a * m00 b + m11 a * m10 b + m12 a * m20 b) (m10 a * m01 b + m11 a * m11 b + m12 a * m21 b) (m10 a * m02 b + m11 a * m12 b + m12 a * m22 b)
     (m20 a * m00 b + m21 a * m10 b + m22 a * m20 b) (m20 a * m01 b + m21 a * m11 b + m22 a * m21 b) (m20 a * m02 b + m21 a * m12 b + m22 a * m22 b).
Definition transpose3 (a : mat3) : mat3 := M3 (m00 a) (m10 a) (m20 a) (m01 a) (m11 a) (m21 a) (m02 a) (m12 a) (m22 a).
Definition id3 : mat3 := M3 1 0 0 0 1 0 0 0 1.
Definition det3 (a : mat3) : R :=
  m00 a * (m11 a * m22 a - m12 a * m21 a) - m01 a * (m10 a * m22 a - m12 a * m20 a)
  + m02 a * (m10 a * m21 a - m11 a * m20 a).
Definition is_rotation (a : mat3) : Prop := mmul3 (transpose3 a) a = id3 /\ det3 a = 1.
(** Elementary rotations. *)
Definition rot_x (t : R) : mat3 := M3 1 0 0 0 (cos t) (- sin t) 0 (sin t) (cos t).
Definition rot_y (t : R) : mat3 := M3 (cos t) 0 (sin t) 0 1 0 (- sin t) 0 (cos t).
Definition rot_z (t : R) : mat3 := M3 (cos t) (- sin t) 0 (sin t) (cos t) 0 0 0 1.

(** The line through two points; the plane { x | w.x + 1 = 0 }. *)
Definition on_line (p1 p2 p : vec) : Prop := exists s, p = vadd p1 (vscale s (vsub p2 p1)).
Definition on_plane (w p : vec) : Prop := vdot w p + 1 = 0.

(** The vector with the first three components of a list. *)
Definition vec_of (l : list R) : vec := V3 (nth 0 l 0) (nth 1 l 0) (nth 2 l 0).
(** A matrix with m rows of n entries. *)
Definition has_shape (m n : nat) (M : mat) : Prop := length M = m /\ Forall (fun row => length row = n) M.

(** J is the derivative at (q, t) of the vector valued function f of a quaternion and a
    translation: the error of the linear prediction is at most quadratic in the change. *)
Definition has_jacobian (m : nat) (f : quat -> vec -> list R) (q : quat) (t : vec) (J : mat) : Prop :=
  has_shape m 7 J /\ length (f q t) = m /\
  exists C, forall h d i, (i < m)%nat ->
    Rabs (nth i (f (qsum q h) (vadd t d)) 0 - nth i (f q t) 0 - nth i (mat_app J (coords7 h d)) 0) <= C * qnorm2 h.

(** The rotation about theta at constant rate |theta|, at parameter s: the unit quaternion
    of the rotation vector s * theta. *)
Definition turn (theta : vec) (s : R) : quat :=
  let k := vnorm theta in
  Qn (cos (s * k / 2)) (sin (s * k / 2) / k * vx theta) (sin (s * k / 2) / k * vy theta) (sin (s * k / 2) / k * vz theta).
(** First n entries of a matrix given by its entries, times a vector of m entries. *)
Definition entries_app (n m : nat) (M : nat -> nat -> R) (x : list R) : list R :=
  map (fun i => fold_right Rplus 0 (map (fun k => M i k * nth k x 0) (seq 0 m))) (seq 0 n).

(** The identity Jacobian and a residual along the first translation axis. *)
Definition eye7 : mat :=
  [[1;0;0;0;0;0;0];[0;1;0;0;0;0;0];[0;0;1;0;0;0;0];[0;0;0;1;0;0;0];[0;0;0;0;1;0;0];[0;0;0;0;0;1;0];[0;0;0;0;0;0;1]].
Definition along (a : R) : list R := [0;0;0;0;a;0;0].
