(** Vocabulary of C132: which way up. *)
From Coq Require Import Reals List.
From Verif Require Import Arith EkfModel PoseModel PublishModel SpecPublish SpecHeight.
From Verif Require MsgModel.
Local Open Scope R_scope.

(** The upward axis of the vehicle points above (below) the horizon; the forward axis is not
    vertical. *)
Definition wheels_down (q : quat) : Prop := not_upright q /\ 0 < m22 (to_rotation q).
Definition wheels_up (q : quat) : Prop := not_upright q /\ m22 (to_rotation q) < 0.
(** The forward axis is inclined by at most [pitch], and the vehicle leans to the left or to
    the right by at most [roll]: the slope of the line from the left to the right side,
    compared with the upward axis, is at most the tangent. *)
Definition inclined (pitch roll : R) (q : quat) : Prop :=
  wheels_down q /\ Rabs (m20 (to_rotation q)) <= sin pitch /\ Rabs (m21 (to_rotation q)) <= tan roll * m22 (to_rotation q).
(** The orientation in a published message. *)
Definition orientation_in (sign : quat -> quat) (o : output exact) : quat :=
  MsgModel.orientation (published_pose sign (pose_in exact o)).
