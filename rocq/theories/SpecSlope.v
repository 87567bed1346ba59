(** Vocabulary of the property C118: small motions of a pose, and how a computed slope of a
    residual is meant. *)
From Coq Require Import List Reals.
From Coquelicot Require Import Coquelicot.
From Verif Require Import PoseModel SpecPose.
Import ListNotations.
Open Scope R_scope.

(** The pose with orientation q and position t after turning with the body angular velocity
    theta and moving with the velocity d for the time s. *)
Definition moved (q : quat) (t theta d : vec) (s : R) : pose :=
  make_pose (qmul q (turn theta s)) (vadd t (vscale s d)).

(** The change of a term of the problem that the optimiser expects of the step (theta, d):
    the Jacobian of the term (a function of the pose only), times the matrix of the chart
    at the quaternion that the optimiser keeps, times the step. *)
Definition expected (J : pose -> mat) (q : quat) (t theta d : vec) : list R :=
  mat_app (J (make_pose q t)) (entries_app 7 6 (make_m q) (vlist theta ++ vlist d)).

(** Jacobians of the three kinds of terms as the problems compute them from the pose. *)
Definition edge_slope (p0 p1 p2 : vec) (T : pose) : mat := edge_jacobian (quat_of (lin T)) p0 p1 p2.
Definition surface_slope (w p : vec) (T : pose) : mat := surface_jacobian w (quat_of (lin T)) p.
Definition alignment_slope (x : vec) (T : pose) : mat := nth 0 (alignment_jacobian (quat_of (lin T)) [x]) [].

(** For the motion (theta, d) of the pose (q, t) the expected changes of all the terms are
    the slopes of their residuals along the motion (theta', d). *)
Definition slopes_along (q : quat) (t theta d theta' : vec) : Prop :=
  (forall p0 p1 p2 i, (i < 3)%nat ->
     is_derive (fun s => nth i (vlist (edge_residual (moved q t theta' d s) p0 p1 p2)) 0) 0
       (nth i (expected (edge_slope p0 p1 p2) q t theta d) 0)) /\
  (forall w p,
     is_derive (fun s => signed_distance w (transform (moved q t theta' d s) p)) 0
       (nth 0 (expected (surface_slope w p) q t theta d) 0)) /\
  (forall x y i, (i < 3)%nat ->
     is_derive (fun s => nth i (vlist (vsub (transform (moved q t theta' d s) x) y)) 0) 0
       (nth i (expected (alignment_slope x) q t theta d) 0)).
