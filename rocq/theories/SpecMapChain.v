(** Vocabulary of C140. *)
From Coq Require Import List ZArith Reals.
From Verif Require Import PoseModel SpecPose MapModel MsgModel SpecMap.
Import ListNotations.
Open Scope R_scope.

(** A point of a cloud as the pose places it: turned by its quaternion (the sandwich of the quaternion) and shifted by
    its position. *)
Definition placed (m : pose_msg) (p : vec) : vec := vadd (sandwich (orientation m) p) (position m).
(** Two stamped poses a key frame apart: their positions are a metre or more apart, or one is
    turned against the other by an angle whose half has a sine of a tenth or more (about 11.5
    degrees). The cosine of half the angle between unit quaternions is, up to the sign, their
    inner product. *)
Definition inner (p q : quat) : R := qw p * qw q + qx p * qx q + qy p * qy q + qz p * qz q.
Definition apart (m0 m1 : Z * pose_msg) : Prop :=
  1 <= vnorm (vsub (position (snd m1)) (position (snd m0))) \/
  (/ 10) ^ 2 <= 1 - inner (orientation (snd m0)) (orientation (snd m1)) ^ 2.
