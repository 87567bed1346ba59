(** Pose messages: lib/src/ros_msg.cpp, and the callbacks of the map builder and of the
    localizer as they receive messages.  Real arithmetic. *)
From Coq Require Import List ZArith Bool Reals String.
From Verif Require Import Base Arith PoseModel MapModel LibModel.
Import ListNotations.
Open Scope R_scope.

(** geometry_msgs::msg::Pose (ros_msg.cpp:33-43); geometry_msgs::msg::Transform has the same
    content with other field names (ros_msg.cpp:78-89). *)
Record pose_msg := PoseMsg { position : vec; orientation : quat }.
(** std_msgs::msg::Header (ros_msg.cpp:50-51); the stamp in nanoseconds. *)
Record header := Header { stamp : Z; frame_id : string }.

Section Messages.
(** tf2::toMsg and tf2::eigenToTransform (ros_msg.cpp:42, 84) take Eigen's quaternion of the
    linear part and may replace it by its opposite; which of the two is left open. *)
Variable sign : quat -> quat.

(** ros_msg.cpp:33-38 GetIsometry3d: tf2::fromMsg makes the matrix of the quaternion without
    normalising it. *)
Definition get_isometry (m : pose_msg) : pose := make_pose (orientation m) (position m).
(** ros_msg.cpp:40-43 MakePose. *)
Definition make_pose_msg (T : pose) : pose_msg := PoseMsg (tra T) (sign (quat_of (lin T))).
(** ros_msg.cpp:45-53 MakePoseStamped. *)
Definition make_pose_stamped (T : pose) (t : Z) (f : string) : header * pose_msg :=
  (Header t f, make_pose_msg T).
(** ros_msg.cpp:55-63 MakePoseWithCovariance. *)
Definition make_pose_with_covariance (T : pose) (C : nat -> nat -> R) : pose_msg * list R :=
  (make_pose_msg T, from_eigen_covariance 0 C).
(** ros_msg.cpp:65-76 MakePoseWithCovarianceStamped. *)
Definition make_pose_with_covariance_stamped (T : pose) (C : nat -> nat -> R) (t : Z) (f : string) :
  header * (pose_msg * list R) := (Header t f, make_pose_with_covariance T C).
(** ros_msg.cpp:78-89 MakeTransformStamped: header, child frame and transform. *)
Definition make_transform_stamped (T : pose) (t : Z) (f child : string) : header * string * pose_msg :=
  (Header t f, child, make_pose_msg T).
End Messages.

(** mapping/include/lidar_feature_mapping/map.hpp:104-133 MapBuilder::Callback over a sequence
    of messages, with the conversion of the pose message (map.hpp:108); points are vectors. *)
Definition build_map (indeterminate : pose) (l : list (pose_msg * cloud vec)) : builder pose vec :=
  builder_run pose vec (fun _ => transform) pose_diff_small indeterminate
    (map (fun m => (get_isometry (fst m), snd m)) l).

(** Eigen's sum of the entries of a vector (random.cpp:47), from the first to the last; Eigen
    may add in another order. *)
Definition sum_entries (A : arith) (v : list (D A)) : outcome (D A) :=
  match v with
  | [] => AssertFail
  | x :: l => Ok (fold_left (d_add A) l x)
  end.
(** lib/src/random.cpp:44-48 SampleStandardDeviation; mean() of the empty vector fails an
    assertion of Eigen. *)
Definition sample_standard_deviation (A : arith) (v : list (D A)) : outcome (D A) :=
  let n := d_of_Z A (zlen v) in
  s <- sum_entries A v ;;
  let m := d_div A s n in
  q <- sum_entries A (map (fun x => let d := d_sub A x m in d_mul A d d) v) ;;
  Ok (d_sqrt A (d_div A q (d_sub A n (d_of_Z A 1)))).
