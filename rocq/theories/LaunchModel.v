(** Who is connected with whom when the nodes are started by the launch files of
    lidar_feature_launch/launch, and which files they hand to each other. *)
From Coq Require Import List String Ascii Bool ZArith.
From Verif Require Import Base MapModel.
Import ListNotations.
Open Scope string_scope.

(** ** Names *)
(** An absolute topic name (point_type_converter/point_type_converter/convert.py:177 uses one,
    extraction/app/feature_extraction.cpp:74 a relative one). *)
Definition absolute (name : string) : bool :=
  match name with String c _ => Ascii.eqb c "/"%char | EmptyString => false end.
(** The expansion of a name by rcl (used by every create_subscription and create_publisher,
    for example extraction/app/feature_extraction.cpp:73-82); private names (~) and
    substitutions ({}) do not occur in the repository and are not modelled. *)
Definition expand (namespace name : string) : string :=
  if absolute name then name
  else if String.eqb namespace "/" then "/" ++ name else namespace ++ "/" ++ name.
(** The remappings of a launched node (lidar_feature_launch/launch/localization.launch.py:81-84):
    rcl expands both sides and takes the first rule whose left side is the topic. *)
Fixpoint remap (namespace : string) (rules : list (string * string)) (topic : string) : string :=
  match rules with
  | [] => topic
  | (from, to) :: rules' =>
    if String.eqb (expand namespace from) topic then expand namespace to else remap namespace rules' topic
  end.

(** ** Programs *)
(** The types of the messages of extraction/app/feature_extraction.cpp:73-82,
    localization/include/lidar_feature_localization/subscriber.hpp:86-103 and
    path_generator/include/path_generator/path_generator.hpp:70-111. *)
Inductive msg_type := PointCloud2 | Odometry | PoseStamped | PoseWithCovarianceStamped | TwistWithCovarianceStamped | PathMsg.
(** The part of the quality of service that decides whether two endpoints are matched
    (lib/include/lidar_feature_library/qos.hpp:34-37); history and depth are left out. *)
Record qos := Qos { reliable : bool; transient_local : bool }.
(** A publisher or a subscription: name, type and quality of service
    (extraction/app/feature_extraction.cpp:73-82). *)
Record endpoint := Endpoint { ep_name : string; ep_type : msg_type; ep_qos : qos }.
(** What a node creates (extraction/app/feature_extraction.cpp:66-83); the topics of tf2,
    of parameters and of the clock are left out. *)
Record program := Program { subscriptions : list endpoint; publications : list endpoint }.

(** QOS_RELIABLE_VOLATILE (lib/include/lidar_feature_library/qos.hpp:34-35); the default of
    rclcpp for a depth (ekf_localizer/src/ekf_localizer.cpp:120-129) and of rclpy
    (convert.py:155-159) have the same reliability and durability. *)
Definition reliable_volatile : qos := Qos true false.
(** QOS_RELIABLE_TRANSIENT_LOCAL (lib/include/lidar_feature_library/qos.hpp:36-37). *)
Definition reliable_transient_local : qos := Qos true true.
(** convert.py:148-152 best_effort_keep_all. *)
Definition best_effort : qos := Qos false false.

(** point_type_converter/point_type_converter/convert.py:172-181. *)
Definition converter_program : program :=
  Program [Endpoint "/points_raw" PointCloud2 best_effort] [Endpoint "/points_converted" PointCloud2 reliable_volatile].
(** extraction/app/feature_extraction.cpp:66-83. *)
Definition extraction_program : program :=
  Program [Endpoint "points_raw" PointCloud2 reliable_volatile]
          [Endpoint "colored_scan" PointCloud2 reliable_volatile; Endpoint "scan_edge" PointCloud2 reliable_volatile;
           Endpoint "scan_surface" PointCloud2 reliable_volatile].
(** localization/include/lidar_feature_localization/subscriber.hpp:77-104. *)
Definition localization_program : program :=
  Program [Endpoint "scan_edge" PointCloud2 reliable_volatile; Endpoint "scan_surface" PointCloud2 reliable_volatile;
           Endpoint "optimization_start_odom" Odometry reliable_volatile; Endpoint "optimization_start_pose" PoseStamped reliable_volatile]
          [Endpoint "estimated_pose" PoseWithCovarianceStamped reliable_volatile].
(** map_loader/src/map_loader.cpp:71-72. *)
Definition map_loader_program : program := Program [] [Endpoint "map_topic" PointCloud2 reliable_transient_local].
(** ekf_localizer/src/ekf_localizer.cpp:120-129. *)
Definition ekf_program : program :=
  Program [Endpoint "initialpose" PoseWithCovarianceStamped reliable_volatile;
           Endpoint "in_pose_with_covariance" PoseWithCovarianceStamped reliable_volatile;
           Endpoint "in_twist_with_covariance" TwistWithCovarianceStamped reliable_volatile]
          [Endpoint "ekf_odom" Odometry reliable_volatile].
(** mapping/src/mapping.cpp:62-70, 92-93. *)
Definition mapping_program : program :=
  Program [Endpoint "scan_edge" PointCloud2 reliable_volatile; Endpoint "pose" PoseStamped reliable_volatile] [].
(** path_generator/src/node.cpp:36-42 with path_generator.hpp:47-52, 99-106. *)
Definition path_program : program :=
  Program [Endpoint "pose" PoseWithCovarianceStamped reliable_volatile] [Endpoint "path" PathMsg reliable_transient_local].

(** ** Launched nodes *)
(** A launch action Node (localization.launch.py:77-85): its name, the namespace it ends up
    in, its remappings and the program it runs. *)
Record node := Node { label : string; namespace : string; rules : list (string * string); runs : program }.
(** The topic an endpoint of a launched node ends up with (localization.launch.py:81-84). *)
Definition topic (n : node) (e : endpoint) : string := remap (namespace n) (rules n) (expand (namespace n) (ep_name e)).

(** The launch arguments of localization.launch.py:42-73; estimated_path_topic is not used
    by any node. *)
Record localization_args := LocalizationArgs { a_initial_pose : string; a_twist : string; a_points : string; a_lidar_pose : string;
  a_edge_map : string; a_surface_map : string; a_odom : string }.
(** Their defaults (localization.launch.py:42-73). *)
Definition localization_defaults : localization_args :=
  LocalizationArgs "/initialpose3d" "/twist" "/points_raw" "/lidar_feature_pose" "/edge_map" "/surface_map" "/ekf_odom".
(** localization.launch.py:77-85, the same in mapping.launch.py:53-62. *)
Definition converter_node (group points : string) : node :=
  Node "point_type_converter" group [("points_raw", points); ("points_converted", "/points_converted")] converter_program.
(** localization.launch.py:76-158 generate_launch_description; group is the namespace the file
    is included in, "/" if it is launched by itself. *)
Definition localization_launch (group : string) (a : localization_args) : list node :=
  [converter_node group (a_points a);
   Node "lidar_feature_extraction" group
     [("points_raw", "/points_converted"); ("colored_scan", "/colored_scan"); ("curvature_scan", "/curvature_scan");
      ("scan_edge", "/scan_edge"); ("scan_surface", "/scan_surface")] extraction_program;
   Node "lidar_feature_localization" group
     [("scan_edge", "/scan_edge"); ("optimization_start_odom", a_odom a); ("estimated_pose", a_lidar_pose a)] localization_program;
   Node "edge_map_loader" group [("map_topic", a_edge_map a)] map_loader_program;
   Node "surface_map_loader" group [("map_topic", a_surface_map a)] map_loader_program;
   Node "ekf_localizer" group
     [("initialpose", a_initial_pose a); ("ekf_odom", a_odom a); ("in_pose_with_covariance", a_lidar_pose a);
      ("in_twist_with_covariance", a_twist a)] ekf_program].

(** launch_ros puts the namespace of a node (mapping.launch.py:83) below that of its group. *)
Definition below (group namespace : string) : string := expand group namespace.
(** mapping.launch.py:52-95 generate_launch_description: extraction without a rule for
    scan_surface; the arguments are input_sensor_points_topic and input_pose_topic. *)
Definition mapping_launch (group points pose : string) : list node :=
  [converter_node group points;
   Node "lidar_feature_extraction" group
     [("points_raw", "/points_converted"); ("colored_scan", "/colored_scan"); ("curvature_scan", "/curvature_scan");
      ("scan_edge", "/scan_edge")] extraction_program;
   Node "edge_map_builder" (below group "lidar_feature_mapping") [("scan_edge", "/scan_edge"); ("pose", pose)] mapping_program].
(** odometry.launch.py:52-99 generate_launch_description without the node of line 74-82,
    whose executable is not built (localization/CMakeLists.txt builds localization only). *)
Definition odometry_launch (group points out_pose out_path : string) : list node :=
  [Node "point_type_converter" group [] converter_program;
   Node "lidar_feature_extraction" group
     [("points_raw", points); ("colored_scan", "/colored_scan"); ("curvature_scan", "/curvature_scan");
      ("scan_edge", "/scan_edge")] extraction_program;
   Node "path_generator" group [("pose", out_pose); ("path", out_path)] path_program].

(** ** Files *)
Section Files.
Variable Content : Type.
(** The files below the working directory (mapping/src/mapping.cpp:99,
    localization/app/localization.cpp:51-52). *)
Definition files : Type := string -> option Content.
(** pcl::io::save on an existing or a new file (mapping/include/lidar_feature_mapping/map.hpp:81-84);
    a failing write is not modelled. *)
Definition write (f : files) (path : string) (c : Content) : files := fun p => if String.eqb p path then Some c else f p.
(** mapping/src/mapping.cpp:84-104 main, from the moment the executor returns: what SaveMap
    (map.hpp:135-149) is given, if it is called, goes to maps/edge.pcd. *)
Definition mapping_exit (saved : option Content) (f : files) : files :=
  match saved with None => f | Some c => write f "maps/edge.pcd" c end.
(** localization/app/localization.cpp:67-89 main: the exit status if it gives up, or the two
    maps the localizer is built with; reading a file that exists is assumed to succeed. *)
Definition localization_start (f : files) : Z + Content * Content :=
  match f "maps/edge.pcd" with
  | None => inl (-1)%Z
  | Some edge => match f "maps/surface.pcd" with None => inl (-1)%Z | Some surface => inr (edge, surface) end
  end.
End Files.
