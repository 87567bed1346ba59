(** The mapping process: the synchroniser of clouds and poses, and the map builder behind it
    (mapping/src/mapping.cpp:52-104, mapping/include/lidar_feature_mapping/map.hpp:97-149). *)
From Coq Require Import List ZArith Bool Reals.
From Verif Require Import Base Arith PoseModel MapModel MsgModel SyncModel.
Import ListNotations.

(** The state of the process (mapping.cpp:78-81, map.hpp:151-152): the tuples waiting in the
    synchroniser, and the map builder. *)
Definition mapper : Type := waiting_set (cloud vec) pose_msg * builder pose vec.
(** One callback of the builder (map.hpp:104-133) with the conversion of the pose message
    (map.hpp:108); points are vectors. *)
Definition map_callback (b : builder pose vec) (c : Z * cloud vec * pose_msg) : builder pose vec :=
  builder_callback pose vec (fun _ => transform) pose_diff_small b (get_isometry (snd c), snd (fst c)).
(** One arriving message (mapping.cpp:68-76): the cloud is the first topic, the pose the second. *)
Definition mapper_step (st : mapper) (e : arrival (cloud vec) pose_msg) : mapper :=
  let '(w, b) := st in
  let '(w', out) := sync_add mapping_queue w e in
  (w', fold_left map_callback out b).
(** The process from its start (mapping.cpp:84-97); the previous pose is not initialised
    (map.hpp:101-102), its indeterminate value is the parameter. *)
Definition mapper_run (indeterminate : pose) (l : list (arrival (cloud vec) pose_msg)) : mapper :=
  fold_left mapper_step l ([], builder_init pose vec indeterminate).
(** mapping.cpp:99: what is saved when the executor returns, if anything. *)
Definition mapper_saved (st : mapper) : option (cloud vec) := save_map pose vec (snd st).
