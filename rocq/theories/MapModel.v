(** Accumulated scans, odometry, map building and the small nodes around the map:
    localization/include/lidar_feature_localization/{recent_scans,point_cloud_map,odometry}.hpp,
    mapping/include/lidar_feature_mapping/map.hpp, path_generator, map_loader and
    map_tf_generator. *)
From Coq Require Import List ZArith Bool Reals String.
From Verif Require Import Base Arith PoseModel.
Import ListNotations.
Open Scope Z_scope.

Section Clouds.
Variable Pose Point : Type.
(** The point function of pcl::transformPointCloud (lib/include/lidar_feature_library/pcl_utils.hpp:76-83):
    for clouds that are not dense it leaves non-finite points alone, hence the flag. *)
Variable move : bool -> Pose -> Point -> Point.

(** pcl::PointCloud (recent_scans.hpp:47): is_dense and points; width, height and header are not modelled. *)
Record cloud := Cloud { dense : bool; points : list Point }.

(** lib/include/lidar_feature_library/pcl_utils.hpp:76-83 TransformPointCloud. *)
Definition transform_cloud (T : Pose) (c : cloud) : cloud :=
  Cloud (dense c) (map (move (dense c) T) (points c)).
(** A default constructed cloud (recent_scans.hpp:47, map.hpp:66). *)
Definition empty_cloud : cloud := Cloud true [].
(** pcl::PointCloud::operator+= (recent_scans.hpp:49, map.hpp:73). *)
Definition append (a b : cloud) : cloud := Cloud (dense a && dense b) (points a ++ points b).

(** recent_scans.hpp:43-52 MergeClouds. *)
Definition merge_clouds (scans : list cloud) : cloud := fold_left append scans empty_cloud.

(** recent_scans.hpp:61-67 RecentScans::Add; the state is scans_. *)
Definition scans_add (scans : list cloud) (T : Pose) (scan : cloud) : list cloud :=
  scans ++ [transform_cloud T scan].
(** recent_scans.hpp:69-72 RecentScans::IsEmpty. *)
Definition scans_empty (scans : list cloud) : bool := Nat.eqb (length scans) 0.
(** recent_scans.hpp:74-79 RecentScans::GetRecent; a negative n moves past end(). *)
Definition get_recent (scans : list cloud) (n : Z) : outcome cloud :=
  let n_recent := Z.min n (zlen scans) in
  if n_recent <? 0 then UB
  else Ok (merge_clouds (skipn (length scans - Z.to_nat n_recent) scans)).
(** recent_scans.hpp:81-84 RecentScans::GetAll. *)
Definition get_all (scans : list cloud) : cloud := merge_clouds scans.

Section Odometry.
(** point_cloud_map.hpp:42-43: n_local_scans_. *)
Variable n_local : Z.
Variable identity : Pose.
(** The pose updater built from the local map (odometry.hpp:59-60). *)
Variable updater : cloud -> cloud -> Pose -> outcome Pose.

(** odometry.hpp:52-63 Odometry::Update on a PointCloudMap (point_cloud_map.hpp:45-60);
    the state is pose_ and the scans_ of the map. *)
Definition odometry_update (s : Pose * list cloud) (scan : cloud) : outcome (Pose * list cloud) :=
  let '(pose, scans) := s in
  if scans_empty scans then Ok (pose, scans_add scans pose scan)
  else
    local <- get_recent scans n_local ;;
    pose' <- updater local scan pose ;;
    Ok (pose', scans_add scans pose' scan).

(** odometry.hpp:46-50: the constructor, with an empty map. *)
Definition odometry_init : Pose * list cloud := (identity, []).
(** odometry.hpp:65-68 CurrentPose. *)
Definition current_pose (s : Pose * list cloud) : Pose := fst s.
(** A sequence of calls of Update (driver of odometry.hpp:52). *)
Definition odometry_run (s : Pose * list cloud) (l : list cloud) : outcome (Pose * list cloud) :=
  foldM odometry_update s l.
End Odometry.

Section Builder.
(** map.hpp:49-59 PoseDiffIsSufficientlySmall with the thresholds of map.hpp:89-90. *)
Variable small : Pose -> Pose -> bool.

(** map.hpp:97-153 MapBuilder: map_ and prev_transform_. *)
Record builder := Builder { map_ : cloud; prev : Pose }.
(** map.hpp:101-102: prev_transform_ is not initialised; its indeterminate value is the
    parameter. *)
Definition builder_init (indeterminate : Pose) : builder := Builder empty_cloud indeterminate.
(** map.hpp:76-79 Map::IsEmpty. *)
Definition map_empty (b : builder) : bool := Nat.eqb (length (points (map_ b))) 0.
(** map.hpp:104-133 MapBuilder::Callback (logging left out); conversion of the messages is
    done before. *)
Definition builder_callback (b : builder) (m : Pose * cloud) : builder :=
  let '(T, c) := m in
  if Nat.eqb (length (points c)) 0 then b
  else if negb (map_empty b) && small (prev b) T then b
  else Builder (append (map_ b) (transform_cloud T c)) T.
(** The callback over a sequence of messages; both subscribers are in one mutually
    exclusive callback group (mapping/src/mapping.cpp:67-76), so it runs one at a time. *)
Definition builder_run (indeterminate : Pose) (l : list (Pose * cloud)) : builder :=
  fold_left builder_callback l (builder_init indeterminate).
(** map.hpp:135-149 SaveMap: what pcl::io::save is given, if it is called. *)
Definition save_map (b : builder) : option cloud := if map_empty b then None else Some (map_ b).
End Builder.
(** localization/include/lidar_feature_localization/map_io.hpp:39-56 SaveMapIfNotEmpty. *)
Definition save_if_not_empty (c : cloud) : option cloud :=
  if Nat.eqb (length (points c)) 0 then None else Some c.
End Clouds.
Arguments Cloud {Point} dense points.
Arguments dense {Point} c.
Arguments points {Point} c.
Arguments map_ {Pose Point} b.
Arguments prev {Pose Point} b.

Open Scope R_scope.
(** Eigen::Isometry3d::inverse: transpose and rotated negated translation (map.hpp:55). *)
Definition inverse (T : pose) : pose :=
  let a := lin T in
  let b := M3 (m00 a) (m10 a) (m20 a) (m01 a) (m11 a) (m21 a) (m02 a) (m12 a) (m22 a) in
  Iso b (vscale (-1) (mapply b (tra T))).
(** Eigen product of two isometries (map.hpp:55). *)
Definition compose (S T : pose) : pose :=
  let a := lin S in let b := lin T in
  Iso (M3 (m00 a * m00 b + m01 a * m10 b + m02 a * m20 b) (m00 a * m01 b + m01 a * m11 b + m02 a * m21 b) (m00 a * m02 b + m01 a * m12 b + m02 a * m22 b)
          (m10 a * m00 b + m11 a * m10 b + m12 a * m20 b) (m10 a * m01 b + m11 a * m11 b + m12 a * m21 b) (m10 a * m02 b + m11 a * m12 b + m12 a * m22 b)
          (m20 a * m00 b + m21 a * m10 b + m22 a * m20 b) (m20 a * m01 b + m21 a * m11 b + m22 a * m21 b) (m20 a * m02 b + m21 a * m12 b + m22 a * m22 b))
      (vadd (mapply a (tra T)) (tra S)).
(** map.hpp:49-59 PoseDiffIsSufficientlySmall with the thresholds of map.hpp:89-90, in real
    arithmetic; rotation() of an isometry is its linear part. *)
Definition pose_diff_small (p0 p1 : pose) : bool :=
  let d := compose (inverse p0) p1 in
  let dq := quat_of (lin d) in
  let dt := tra d in
  Rltb (vnorm dt) 1 && Rltb (vnorm (qvec dq)) (/ 10).

(** ** path_generator/include/path_generator/path_generator.hpp *)
Section Path.
Variable Header PoseMsg Cov : Type.
(** nav_msgs::msg::Path (path_generator.hpp:67): header and stamped poses. *)
Record path := Path { path_header : Header; path_poses : list (Header * PoseMsg) }.
(** path_generator.hpp:54-64 Publish: the new path_, which is also the message. *)
Definition path_publish (p : path) (header : Header) (pose : PoseMsg) : path :=
  Path header (path_poses p ++ [(header, pose)]).
(** path_generator.hpp:85-88 FromPose::Callback. *)
Definition from_pose (p : path) (m : Header * PoseMsg) : path := path_publish p (fst m) (snd m).
(** path_generator.hpp:108-111 FromPoseWithCovariance::Callback; the covariance is dropped. *)
Definition from_pose_with_covariance (p : path) (m : Header * (PoseMsg * Cov)) : path :=
  path_publish p (fst m) (fst (snd m)).
(** The messages published over a sequence of received messages (rclcpp callback
    loop around path_generator.hpp:85-88, 108-111). *)
Fixpoint published {M : Type} (callback : path -> M -> path) (p : path) (l : list M) : list path :=
  match l with
  | [] => []
  | m :: l' => let p' := callback p m in p' :: published callback p' l'
  end.
End Path.
Arguments path_header {Header PoseMsg} p.
Arguments path_poses {Header PoseMsg} p.
Arguments Path {Header PoseMsg}.

(** ** map_loader/src/map_loader.cpp *)
Section Loader.
Variable Content : Type.
(** sensor_msgs::msg::PointCloud2 (map_loader.cpp:46): frame and everything else. *)
Record cloud_msg := CloudMsg { frame : string; content : Content }.
(** pcl::io::loadPCDFile: the return code and the message it leaves (map_loader.cpp:47). *)
Variable load_pcd : string -> Z * cloud_msg.
(** map_loader.cpp:44-50 LoadMap: the return code is dropped. *)
Definition load_map (file : string) : cloud_msg := CloudMsg "map" (content (snd (load_pcd file))).
(** map_loader.cpp:55-76 the constructor: the messages published. *)
Definition map_loader (file : string) : outcome (list cloud_msg) :=
  if Nat.eqb (String.length file) 0 then ThrowInvalid else Ok [load_map file].
End Loader.
Arguments frame {Content} c.
Arguments content {Content} c.

(** ** map_tf_generator/src/map_tf_generator_node.cpp *)
Section Viewer.
Variable A : arith.
(** geometry_msgs TransformStamped (map_tf_generator_node.cpp:70-82) without the stamp: frames, translation and rotation
    (x, y, z, w). *)
Record tf_msg := Tf { tf_frame : string; tf_child : string; tf_translation : D A * D A * D A; tf_rotation : Z * Z * Z * Z }.
(** map_tf_generator_node.cpp:59-68: one coordinate.  The count is truncated to unsigned
    int and bounds the loop. *)
Definition coordinate (l : list (F A)) : D A :=
  let sum := zlen l mod 2 ^ 32 in
  d_div A (fold_left (fun acc x => d_add A acc (f2d A x)) (firstn (Z.to_nat sum) l) (d_of_Z A 0)) (d_of_Z A sum).
(** map_tf_generator_node.cpp:54-90 onPointCloud: the transform sent. *)
Definition on_point_cloud (map_frame viewer_frame : string) (points : list (F A * F A * F A)) : tf_msg :=
  Tf map_frame viewer_frame
     (coordinate (map (fun p => fst (fst p)) points), coordinate (map (fun p => snd (fst p)) points),
      coordinate (map snd points))
     (0%Z, 0%Z, 0%Z, 1%Z).
End Viewer.
