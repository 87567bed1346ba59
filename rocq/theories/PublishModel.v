(** The pose that the EKF localizer publishes, as a message: ekf_localizer/src/ekf_localizer.cpp.
    Real arithmetic. *)
From Coq Require Import List Reals.
From Verif Require Import PoseModel.
From Verif Require MsgModel.
Import ListNotations.
Open Scope R_scope.

(** ekf_localizer/src/ekf_localizer.cpp:57-65 MakePoseFromXYZRPY. *)
Definition make_pose_from_xyzrpy (x y z roll pitch yaw : R) : pose :=
  make_pose (rpy_to_quaternion roll pitch yaw) (V3 x y z).
(** ekf_localizer/src/ekf_localizer.cpp:219, 224-232 and 67-94: the pose in the transform and
    in the odometry message, from x, y, z, roll, pitch and yaw as listed in EkfModel.output;
    [sign] as in MsgModel. *)
Definition published_pose (sign : quat -> quat) (p : list R) : MsgModel.pose_msg :=
  MsgModel.make_pose_msg sign (make_pose_from_xyzrpy (nth 0 p 0) (nth 1 p 0) (nth 2 p 0) (nth 3 p 0) (nth 4 p 0) (nth 5 p 0)).
