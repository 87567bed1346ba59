(** Vocabulary of C131: angles of an orientation, and what the EKF localizer reports. *)
From Coq Require Import Reals List ZArith.
From Verif Require Import Base Arith SpecReal EkfModel PoseModel SpecPose SpecFusion.
Import ListNotations.
Local Open Scope R_scope.

(** An orientation that does not point straight up or down: the forward axis is inclined by
    less than the angle with sine 0.99999 (tf2 treats the rest separately). *)
Definition not_upright (q : quat) : Prop := unit q /\ Rabs (m20 (to_rotation q)) < 99999 / 100000.
(** Functions that read heading, roll and pitch from a quaternion.  The heading is the
    direction of the forward axis seen from above, the pitch the angle of the forward axis
    below the horizon; the roll is the angle of the vertical in the plane across the forward
    axis.  The values are in the usual ranges. *)
Definition reads_angles (get_yaw get_roll get_pitch : quat -> R) : Prop :=
  (forall q, - PI < get_roll q <= PI /\ - PI / 2 <= get_pitch q <= PI / 2) /\
  forall q, not_upright q -> let m := to_rotation q in
    get_yaw q = atan2 (m10 m) (m00 m) /\ get_roll q = atan2 (m21 m) (m22 m) /\ get_pitch q = - asin (m20 m).
(** A direction in the plane is that of the angle a. *)
Definition points_along (a x y : R) : Prop := exists r, 0 < r /\ x = r * cos a /\ y = r * sin a.
(** A message with this position, roll, pitch and heading, and no speed. *)
Definition reports_all (x y z roll pitch yaw : R) (o : output exact) : Prop :=
  let here (p : list R) := exists yaw', p = [x; y; z; roll; pitch; yaw'] /\ same_heading yaw' yaw in
  match o with
  | OutTransform _ _ p => here p
  | OutOdometry _ _ p _ vx wz _ => here p /\ vx = 0 /\ wz = 0
  end.
