(** From the scans the extraction node receives to the poses the lidar localizer publishes:
    the extraction callback, the two topics between the processes, the synchroniser and the
    localization callback put together
    (extraction/app/feature_extraction.cpp:92-171,
    localization/include/lidar_feature_localization/subscriber.hpp:83-176). *)
From Coq Require Import List ZArith Bool String.
From Verif Require Import Base Arith ExtractModel NodeModel SyncModel LocModel.
Import ListNotations.
Open Scope Z_scope.

Section Chain.
(** The arithmetic of the extraction and of the localization process. *)
Variable A L : arith.
Variable srt : sorter.
Variable ord : list (Z * list Z) -> list (Z * list Z).
Variable prm : params A.
Variable Pose : Type.
(** A cloud as it is sent (ToPointXYZ and ToRosMsg, feature_extraction.cpp:163-166): the
    coordinates of its points. *)
Definition cloud : Type := list (F A * F A * F A).
(** localizer_.Init, Update, Get (subscriber.hpp:154-157). *)
Variable localize : cloud * cloud -> Pose -> outcome Pose.

(** A message of the lidar (feature_extraction.cpp:92-110): the stamp of its header, and what
    the callback looks at. *)
Record lidar_scan := { s_stamp : Z; s_dense : bool; s_fields : list string; s_points : list (point A) }.

(** feature_extraction.cpp:92-171 on one message. *)
Definition extract (s : lidar_scan) : outcome (ExtractModel.published A) :=
  NodeModel.on_scan A srt ord prm (s_dense s) (s_fields s) (s_points s).

(** The messages of the extraction process over the scans it receives: each callback publishes
    one edge and one surface message, both with the stamp of the scan
    (feature_extraction.cpp:159-170). The process takes no further scan after a callback
    that does not return, or that requested the shutdown (lines 96-108). *)
Fixpoint extractor (scans : list lidar_scan) : list (Z * cloud * cloud) :=
  match scans with
  | [] => []
  | s :: r =>
      match extract s with
      | Ok out => (s_stamp s, o_edge A out, o_surface A out) :: (if o_shutdown A out then [] else extractor r)
      | _ => []
      end
  end.

(** What arrives at the localization process (subscriber.hpp:86-102): a message of one of the two
    topics, or a prior pose. *)
Inductive input := Feature (e : arrival cloud cloud) | Prior (stamp : Z) (pose : Pose).

(** The state of the localization process: the tuples waiting in the synchroniser, and the node
    (subscriber.hpp:178-190). *)
Definition localizer : Type := waiting_set cloud cloud * node L Pose.

(** One arrival: subscriber.hpp:105-108 and 128-176 for a feature message (the callback is made by
    the synchroniser, at once), 111-126 for a prior. *)
Definition localizer_step (st : localizer) (i : input) : outcome localizer :=
  let '(w, n) := st in
  match i with
  | Feature e =>
      let '(w', out) := sync_add localizer_queue w e in
      n' <- foldM (fun n c => let '(t, edge, surface) := c in LocModel.on_scan L Pose (cloud * cloud) localize n t (edge, surface)) n out ;;
      Ok (w', n')
  | Prior t p => Ok (w, on_prior L Pose n t p)
  end.
(** The localization process from its start (subscriber.hpp:83-109). *)
Definition localizer_run (h : list input) : outcome localizer :=
  foldM localizer_step ([], {| priors := []; outs := [] |}) h.
End Chain.
Arguments Feature {A Pose} e.
Arguments Prior {A Pose} stamp pose.
Arguments s_stamp {A} l.
Arguments s_dense {A} l.
Arguments s_fields {A} l.
Arguments s_points {A} l.
