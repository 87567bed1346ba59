(** From the cloud of the sensor's driver to the features: the point type converter and the
    extraction node one behind the other, as the launch files start them
    (lidar_feature_launch/launch/localization.launch.py:77-101, C136). *)
From Coq Require Import String List ZArith Bool.
From Flocq Require IEEE754.Binary IEEE754.Bits.
From Verif Require Import Base Arith ExtractModel NodeModel ConvertModel.
Import ListNotations.
Open Scope Z_scope.

(** The float with the given pattern of 32 bits (lib/include/lidar_feature_library/point_type.hpp:76-79:
    pcl copies bytes into the float members); all NaNs are one. *)
Definition float_of_bits (z : Z) : b32 := Binary.B2BSN 24 128 (Bits.b32_of_bits z).

(** The field of the message that pcl::fromROSMsg (lib/include/lidar_feature_library/ros_msg.hpp:77)
    takes for a member of the point: the first with the name and the type of
    POINT_CLOUD_REGISTER_POINT_STRUCT (point_type.hpp:83-86) and one element (pcl's
    FieldMatches also accepts a count of 0). *)
Definition field_of (fields : list field) (name : string) (ty : Z) : option Z :=
  option_map offset (find (fun f => String.eqb (fname f) name && (datatype f =? ty) && ((count f =? 1) || (count f =? 0))) fields).
(** The number in n bytes from a position on; pcl copies them whatever the byte order of the
    message (ros_msg.hpp:77), the host is little endian. A member without a field keeps the
    value of the constructor, 0 (point_type.hpp:71-74). Reading outside of the data is undefined. *)
Definition read (bytes : list Z) (start : Z) (n : Z) (off : option Z) : outcome Z :=
  match off with
  | None => Ok 0
  | Some o =>
      let s := start + o in
      if (0 <=? s) && (s + n <=? zlen bytes) then Ok (from_bytes (firstn (Z.to_nat n) (skipn (Z.to_nat s) bytes))) else UB
  end.
Section Driver.
Variable acosf : b64 -> b64.
Notation A := (ieee acosf).
(** One point of pcl::fromROSMsg (ros_msg.hpp:77, point_type.hpp:83-86). *)
Definition read_point (c : cloud2) (start : Z) : outcome (point A) :=
  x <- read (data c) start 4 (field_of (cfields c) "x" 7) ;;
  y <- read (data c) start 4 (field_of (cfields c) "y" 7) ;;
  z <- read (data c) start 4 (field_of (cfields c) "z" 7) ;;
  i <- read (data c) start 4 (field_of (cfields c) "intensity" 7) ;;
  r <- read (data c) start 2 (field_of (cfields c) "ring" 4) ;;
  Ok {| px := float_of_bits x : F A; py := float_of_bits y; pz := float_of_bits z; pintensity := float_of_bits i; pring := r |}.
(** pcl::fromROSMsg (ros_msg.hpp:74-79): height rows of width points. *)
Definition from_ros_msg (c : cloud2) : outcome (list (point A)) :=
  mapM (read_point c)
    (flat_map (fun row => map (fun col => row * row_step c + col * point_step c) (zrange (Z.to_nat (width c)))) (zrange (Z.to_nat (height c)))).

Variable srt : sorter.
Variable ord : list (Z * list Z) -> list (Z * list Z).
Variable prm : params A.
Variable to_f32 to_f64 : value -> option Z.
(** The extraction's callback on a message (extraction/app/feature_extraction.cpp:92-171). *)
Definition extraction (c : cloud2) : outcome (published A) :=
  pts <- from_ros_msg c ;;
  NodeModel.on_scan A srt ord prm (is_dense c) (map fname (cfields c)) pts.
(** Converter (convert.py:183-212) and extraction one behind the other. *)
Definition drive (input : cloud2) : outcome (published A) :=
  c <- ConvertModel.callback to_f32 to_f64 input ;; extraction c.
End Driver.
