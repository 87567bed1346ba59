(** Vocabulary of C121: the same problem seen in a mirror that exchanges left and right. *)
From Coq Require Import List Reals ZArith.
From Verif Require Import Base Arith LibModel LocModel PoseModel OptModel ProblemModel SpecPose SpecFit SpecOpt SpecStep SpecRotMap.
Import ListNotations.
Open Scope R_scope.

(** The y axis points to the left, in the map and on the vehicle; both get mirrored. *)
Definition mirrored_point (p : vec) : vec := V3 (vx p) (- vy p) (vz p).
(** The pose that takes mirrored points where the mirror image of T takes them. *)
Definition mirrored_rotation (m : mat3) : mat3 :=
  M3 (m00 m) (- m01 m) (m02 m) (- m10 m) (m11 m) (- m12 m) (m20 m) (- m21 m) (m22 m).
Definition mirrored_pose (T : pose) : pose := Iso (mirrored_rotation (lin T)) (mirrored_point (tra T)).
(** Turns about the x and the z axis change their sense. *)
Definition mirrored_quat (q : quat) : quat := Qn (qw q) (- qx q) (qy q) (- qz q).
(** An orientation has two quaternions, of opposite signs.  The quaternion that the conversion
    takes for the mirror image of the orientation of q is s times the mirror image of the one
    that it takes for q. *)
Definition mirror_sign (s : R) (q : quat) : Prop :=
  quat_of (mirrored_rotation (to_rotation q)) =
  (let p := mirrored_quat (quat_of (to_rotation q)) in Qn (s * qw p) (s * qx p) (s * qy p) (s * qz p)).

(** The search finds the mirror images of the same points. *)
Definition searches_mirrored (find : list vec -> vec -> nat -> list nat) : Prop :=
  forall m q n, find (map mirrored_point m) (mirrored_point q) n = find m q n.
(** Every neighbourhood found in the map has one principal direction, up to the sign; it and
    the one of the mirrored neighbourhood are computed rightly. *)
Definition elongated_mirrored (principal : mat3 -> vec) (find : list vec -> vec -> nat -> list nat) (m : list vec) (n : nat) : Prop :=
  forall q X, nearest_k_search vec find m q n = Ok X ->
    (forall c C, mean_and_covariance X = Ok (c, C) ->
       principal_direction C (principal C) /\
       forall u, principal_direction C u -> u = principal C \/ u = vscale (-1) (principal C)) /\
    (forall c C, mean_and_covariance (map mirrored_point X) = Ok (c, C) -> principal_direction C (principal C)).
