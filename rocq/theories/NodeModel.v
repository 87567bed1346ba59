(** The entry point of the extraction node: the checks made on the message. *)
From Coq Require Import List ZArith Bool String.
From Verif Require Import Base Arith ExtractModel.

(** ring.cpp:36-44 RingIsAvailable: [fields] are the names of the fields of the message. *)
Definition ring_is_available (fields : list string) : bool :=
  existsb (fun name => String.eqb name "ring") fields.

(** feature_extraction.cpp:92-171 Callback on a message: [dense] and [cloud] are what
    GetPointCloud (ros_msg.hpp:48-53, pcl::fromROSMsg) yields, [fields] the field names
    of the message (lines 103-108). What pcl puts into the ring member of the points when the
    message has no such field is not modelled; it is part of [cloud]. *)
Definition on_scan (A : arith) (srt : sorter) (ord : list (Z * list Z) -> list (Z * list Z))
    (P : params A) (dense : bool) (fields : list string) (cloud : list (point A))
    : outcome (published A) :=
  callback A srt ord P dense (ring_is_available fields) cloud.
