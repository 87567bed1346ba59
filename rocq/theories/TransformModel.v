(** Points as they are stored: pcl::transformPointCloud with a pose in doubles on points in
    floats, in any arithmetic, and the map builder and the accumulated scans on top of it. *)
From Coq Require Import List ZArith.
From Verif Require Import Base Arith MapModel RoundTripModel.
Import ListNotations.

Section Transform.
Variable A : arith.
Local Notation "x * y" := (d_mul A x y).
Local Notation "x + y" := (d_add A x y).

(** The coordinates of a point (lib/include/lidar_feature_library/point_type.hpp:62-81). *)
Record fpoint := FP { p0 : F A; p1 : F A; p2 : F A }.

(** PCL adds the terms of a coordinate from the left, or from the right in its vectorised
    version; which one depends on the platform. *)
Variable from_right : bool.
(** One coordinate in pcl::transformPointCloud (lib/include/lidar_feature_library/pcl_utils.hpp:76-83):
    computed in doubles from the row of the matrix, then converted to float. *)
Definition moved_coordinate (a b c t : D A) (p : fpoint) : F A :=
  let x := a * f2d A (p0 p) in let y := b * f2d A (p1 p) in let z := c * f2d A (p2 p) in
  d2f A (if from_right then x + (y + (z + t)) else x + y + z + t).
(** pcl_utils.hpp:76-83 TransformPointCloud, one point. *)
Definition moved_point (T : dpose A) (p : fpoint) : fpoint :=
  let m := dlin A T in let t := dtra A T in
  FP (moved_coordinate (d00 A m) (d01 A m) (d02 A m) (e0 A t) p)
     (moved_coordinate (d10 A m) (d11 A m) (d12 A m) (e1 A t) p)
     (moved_coordinate (d20 A m) (d21 A m) (d22 A m) (e2 A t) p).
(** std::isfinite of the coordinates, for clouds that are not dense. *)
Variable finite : F A -> bool.
(** pcl_utils.hpp:76-83: points that are not finite stay as they are in clouds that are not dense. *)
Definition d_move (dense : bool) (T : dpose A) (p : fpoint) : fpoint :=
  if orb dense (andb (finite (p0 p)) (andb (finite (p1 p)) (finite (p2 p)))) then moved_point T p else p.

(** The decision about key frames, mapping/include/lidar_feature_mapping/map.hpp:49-59; left
    open, see MapModel.v. *)
Variable small : dpose A -> dpose A -> bool.
(** mapping/include/lidar_feature_mapping/map.hpp:104-133 MapBuilder::Callback over a sequence
    of messages; the pose is made from position and quaternion of the message
    (lib/src/ros_msg.cpp:33-38). *)
Definition d_build_map (indeterminate : dpose A) (l : list ((dvec A * dquat A) * cloud fpoint)) : builder (dpose A) fpoint :=
  builder_run (dpose A) fpoint d_move small indeterminate
    (map (fun m => (d_make_pose A (snd (fst m)) (fst (fst m)), snd m)) l).
(** localization/include/lidar_feature_localization/recent_scans.hpp:61-67 Add for each of a
    list of poses and scans, then recent_scans.hpp:81-84 GetAll. *)
Definition d_accumulated (l : list (dpose A * cloud fpoint)) : cloud fpoint :=
  get_all fpoint (fold_left (fun s a => scans_add (dpose A) fpoint d_move s (fst a) (snd a)) l []).
End Transform.
