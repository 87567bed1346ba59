(** The launched localization system: the EKF localizer and the lidar localizer, each of which
    receives what the other publishes.  Real arithmetic.

    Wiring: lidar_feature_launch/launch/localization.launch.py:103-112 and 138-149 (the
    odometry of the EKF localizer is the lidar localizer's optimization_start_odom, the lidar
    localizer's estimated_pose is the EKF localizer's in_pose_with_covariance).  Topics that
    the launch file leaves to others (initialpose, in_twist_with_covariance, the scans) are
    inputs of the system; optimization_start_pose, to which nothing is connected, is left out. *)
From Coq Require Import List ZArith Reals String.
From Verif Require Import Base Arith EkfModel KalmanModel PoseModel PublishModel SpecReal.
From Verif Require MsgModel LocModel.
Import ListNotations.
Open Scope R_scope.
Unset Asymmetric Patterns.

(** localization/include/lidar_feature_localization/subscriber.hpp:158-165: the covariance
    of every pose that the lidar localizer publishes. *)
Definition lidar_covariance : nat -> nat -> R := fun i j =>
  if Nat.eqb i j then nth i [1; 1; 1; 1 / 10; 1 / 10; 1 / 10] 0 else 0.

Section System.
(** Eigen's inverse, uninitialised entries, roundf and the functions of tf2, as in KalmanModel.v,
    EkfModel.v and MsgModel.v; the launch file sets no parameters of the filter, [prm] is any. *)
Variable inverse : nat -> (nat -> nat -> R) -> option (nat -> nat -> R).
Variable junk : nat -> nat -> R.
Variable roundf : R -> option Z.
Variable get_yaw get_roll get_pitch : quat -> R.
Variable sign : quat -> quat.
Variable prm : params exact.
(** Scans, and Init, Update and Get of the lidar localizer (subscriber.hpp:154-157;
    LocNodeModel.localize). *)
Variable Scan : Type.
Variable localize : Scan -> pose -> outcome pose.

(** subscriber.hpp:167-169: the message of a published pose, as the EKF localizer receives
    it (ekf_localizer/src/ekf_localizer.cpp:263). *)
Definition lidar_message (o : LocModel.published pose) : pose_msg exact quat :=
  let m := MsgModel.make_pose_with_covariance_stamped sign (LocModel.pub_pose o) lidar_covariance (LocModel.pub_stamp o) "map" in
  let p := MsgModel.position (fst (snd m)) in
  PoseMsg exact quat (MsgModel.frame_id (fst m)) (MsgModel.stamp (fst m)) (PoseModel.vx p) (PoseModel.vy p) (PoseModel.vz p)
    (MsgModel.orientation (fst (snd m))) (snd (snd m)).
(** ekf_localizer/src/ekf_localizer.cpp:67-94 and subscriber.hpp:111-126: an odometry message
    as the lidar localizer receives it, stamp and pose. *)
Definition odometry_prior (o : output exact) : option (Z * pose) :=
  match o with
  | OutOdometry _ stamp _ p _ _ _ _ => Some (stamp, MsgModel.get_isometry (published_pose sign p))
  | OutTransform _ _ _ _ => None
  end.

(** The two nodes (ekf_localizer/src/ekf_localizer.cpp:116-153, subscriber.hpp:83-109). *)
Record system := System { s_ekf : node exact quat (ekf_kalman exact inverse junk); s_lidar : LocModel.node exact pose }.
(** ekf_localizer/src/ekf_localizer_node.cpp:23-25, localization/app/localization.cpp:85. *)
Definition system_new : system :=
  System (node_new exact quat (ekf_kalman exact inverse junk)) (LocModel.Build_node exact pose [] []).
(** One callback of one node.  A message from the other node is given by its place among all
    messages published by it so far (localization.launch.py:103-112, 138-149): messages may be
    late, lost (the queues hold one or ten), repeated or overtake each other. *)
Inductive system_event :=
| SysTick (t1 t2 t3 t4 t5 : Z)
| SysInitial (m : pose_msg exact quat) (tf : option (transform_msg exact quat))
| SysTwist (m : twist_msg exact)
| SysScan (stamp : Z) (scan : Scan)
| SysOdometry (k : nat)
| SysPose (k : nat).
(** A callback of the EKF localizer (ekf_localizer/src/ekf_localizer.cpp:121-129, 146-148). *)
Definition ekf_does (s : system) (e : event exact quat) : outcome system :=
  n <- node_step exact roundf sin cos atan2 Ropp quat get_yaw get_roll get_pitch (ekf_kalman exact inverse junk) prm (s_ekf s) e ;;
  Ok (System n (s_lidar s)).
(** A callback of the lidar localizer (subscriber.hpp:111-176). *)
Definition lidar_does (s : system) (e : LocModel.event pose Scan) : outcome system :=
  n <- LocModel.node_step exact pose Scan localize (s_lidar s) e ;;
  Ok (System (s_ekf s) n).
(** One callback of the system (localization.launch.py:103-112, 138-149); an index without
    message, or of a transform, is no callback. *)
Definition system_step (s : system) (e : system_event) : outcome system :=
  match e with
  | SysTick t1 t2 t3 t4 t5 => ekf_does s (EvTimer exact quat t1 t2 t3 t4 t5)
  | SysInitial m tf => ekf_does s (EvInitialPose exact quat m tf)
  | SysTwist m => ekf_does s (EvTwist exact quat m)
  | SysScan stamp scan => lidar_does s (LocModel.EvScan stamp scan)
  | SysOdometry k =>
      match nth_error (n_out _ _ _ (s_ekf s)) k with
      | Some o => match odometry_prior o with Some (stamp, T) => lidar_does s (LocModel.EvPrior stamp T) | None => Ok s end
      | None => Ok s
      end
  | SysPose k =>
      match nth_error (LocModel.outs (s_lidar s)) k with
      | Some o => ekf_does s (EvPose exact quat (lidar_message o))
      | None => Ok s
      end
  end.
(** A history of the system (localization.launch.py:151-158). *)
Definition system_run (h : list system_event) : outcome system := foldM system_step system_new h.
End System.
