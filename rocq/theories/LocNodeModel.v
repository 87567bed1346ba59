(** The localization node with the localizer of the repository: LocModel.v's node on the
    problem of ProblemModel.v. *)
From Coq Require Import List ZArith Reals.
From Verif Require Import Base Arith LibModel LocModel PoseModel OptModel ProblemModel.
Import ListNotations.

Section LocNode.
(** The arithmetic of the stamps (subscriber.hpp:67-70). *)
Variable A : arith.
(** Eigen's solvers, nanoflann, pcl::VoxelGrid and std::nth_element, as in ProblemModel.v and
    OptModel.v. *)
Variable principal : mat3 -> vec.
Variable qr_solve : list vec -> list R -> vec.
Variable find_neighbors : list vec -> vec -> nat -> list nat.
Variable downsample : list vec -> list vec.
Variable eigenvalues : nat -> (nat -> nat -> R) -> list R.
Variable llt_solve : nat -> (nat -> nat -> R) -> (nat -> R) -> (nat -> R).
Variable sel : selector exact.

(** subscriber.hpp:154-157 with localizer.hpp:56-85: Init, Update and Get of a localizer made
    from the two maps (localization/app/localization.cpp:85). *)
Definition localize (edge_map surface_map : list vec) (max_iter : Z) (scan : list vec * list vec) (prior : pose) : outcome pose :=
  r <- localizer_result principal qr_solve find_neighbors downsample eigenvalues llt_solve sel edge_map surface_map max_iter scan prior ;;
  Ok (r_pose r).
(** The node of localization/app/localization.cpp:67-89 over a history of callbacks. *)
Definition localization_node (edge_map surface_map : list vec) (max_iter : Z) (h : list (event pose (list vec * list vec)))
    : outcome (node A pose) :=
  node_run A pose (list vec * list vec) (localize edge_map surface_map max_iter) h.
End LocNode.
