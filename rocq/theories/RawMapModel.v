(** From the messages of the sensor's driver to the map: the converter, the extraction and the
    mapping process (lidar_feature_launch/launch/mapping.launch.py; which topics connect them
    is C136).  The header of a message is represented by its stamp. *)
From Coq Require Import String List ZArith.
From Verif Require Import Base Arith ExtractModel NodeModel ConvertModel DriverModel ChainModel.
Import ListNotations.

Section RawMap.
Variable to_f32 to_f64 : value -> option Z.
(** The converter process over the messages it receives
    (point_type_converter/point_type_converter/convert.py:183-212): one message each; an
    exception in the callback leaves rclpy.spin and main (convert.py:215-223), so the process
    takes no further message. *)
Fixpoint converter (raws : list cloud2) : list cloud2 :=
  match raws with
  | [] => []
  | c :: r => match ConvertModel.callback to_f32 to_f64 c with Ok o => o :: converter r | _ => [] end
  end.

Variable acosf : b64 -> b64.
Notation A := (ieee acosf).
Variable srt : sorter.
Variable ord : list (Z * list Z) -> list (Z * list Z).
Variable prm : params A.
(** The scan in a message (lib/include/lidar_feature_library/ros_msg.hpp:74-79), with the names
    of the fields and the flag that the callback looks at
    (extraction/app/feature_extraction.cpp:94-111). *)
Definition scan_of (c : cloud2) : outcome (lidar_scan A) :=
  pts <- from_ros_msg acosf c ;;
  Ok {| s_stamp := header c; s_dense := is_dense c; s_fields := map fname (cfields c); s_points := pts |}.
(** The extraction process over the messages it receives (feature_extraction.cpp:92-171), as in
    ChainModel.v, with the reading of the message. *)
Fixpoint extraction_process (l : list cloud2) : list (Z * ChainModel.cloud A * ChainModel.cloud A) :=
  match l with
  | [] => []
  | c :: r =>
      match s <- scan_of c ;; extract A srt ord prm s with
      | Ok out => (header c, o_edge A out, o_surface A out) :: (if o_shutdown A out then [] else extraction_process r)
      | _ => []
      end
  end.
End RawMap.
