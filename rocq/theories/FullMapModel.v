(** From the scans the extraction node receives to the map file: the edge messages of the
    extraction process are the clouds of the mapping process
    (extraction/app/feature_extraction.cpp:160-170,
    mapping/include/lidar_feature_mapping/map.hpp:104-116; that the topics are the same is
    C136). *)
From Coq Require Import List ZArith Reals.
From Verif Require Import Base Arith ExtractModel ChainModel PoseModel MapModel.
Import ListNotations.

Section FullMap.
Variable A : arith.
(** The number a coordinate stands for (pcl::PointXYZ holds floats, map.hpp:109). *)
Variable val : F A -> R.
(** A point of the message (feature_extraction.cpp:163) as the mapping sees it. *)
Definition as_vec (q : F A * F A * F A) : vec := V3 (val (fst (fst q))) (val (snd (fst q))) (val (snd q)).
(** An edge message (feature_extraction.cpp:163, 165) as the mapping receives it
    (map.hpp:109): pcl::toROSMsg and pcl::fromROSMsg keep the points; a cloud filled with
    push_back says that it is dense. *)
Definition as_cloud (c : ChainModel.cloud A) : MapModel.cloud vec := Cloud true (map as_vec c).
(** The edge topic of the extraction process (feature_extraction.cpp:169). *)
Definition edge_topic (m : list (Z * ChainModel.cloud A * ChainModel.cloud A)) : list (Z * MapModel.cloud vec) :=
  map (fun x => (fst (fst x), as_cloud (snd (fst x)))) m.
End FullMap.
