(** Rotation matrices and quaternions in any arithmetic, in the order of operations of Eigen:
    what the optimiser does to the orientation before and after its iterations.  PoseModel.v
    has the same functions over the reals; DriftFloatProofs.v shows that they agree. *)
From Coq Require Import List ZArith.
From Verif Require Import Base Arith LibModel LocModel.
Import ListNotations.

Section RoundTrip.
Variable A : arith.
Notation T := (D A).
Local Notation "x * y" := (d_mul A x y).
Local Notation "x + y" := (d_add A x y).
Local Notation "x - y" := (d_sub A x y).
Local Notation "x / y" := (d_div A x y).

(** Eigen::Quaterniond (localization/include/lidar_feature_localization/optimizer.hpp:84). *)
Record dquat := DQ { dw : T; dx : T; dy : T; dz : T }.
(** The linear part of Eigen::Isometry3d (localization/src/posevec.cpp:50-51). *)
Record dmat3 := DM { d00 : T; d01 : T; d02 : T; d10 : T; d11 : T; d12 : T; d20 : T; d21 : T; d22 : T }.
(** Eigen::Vector3d (localization/include/lidar_feature_localization/optimizer.hpp:85). *)
Record dvec := DV { e0 : T; e1 : T; e2 : T }.
(** Eigen::Isometry3d (localization/src/posevec.cpp:50). *)
Record dpose := DP { dlin : dmat3; dtra : dvec }.
(** The literal 0.5 of Eigen's Quaternion.h, exact in binary. *)
Definition dhalf : T := d_of_Z A 1 / d_of_Z A 2.

(** localization/src/posevec.cpp:51, Eigen's toRotationMatrix (Eigen/src/Geometry/Quaternion.h). *)
Definition d_to_rotation (q : dquat) : dmat3 :=
  let two := d_of_Z A 2 in let one := d_of_Z A 1 in
  let tx := two * dx q in let ty := two * dy q in let tz := two * dz q in
  let twx := tx * dw q in let twy := ty * dw q in let twz := tz * dw q in
  let txx := tx * dx q in let txy := ty * dx q in let txz := tz * dx q in
  let tyy := ty * dy q in let tyz := tz * dy q in let tzz := tz * dz q in
  DM (one - (tyy + tzz)) (txy - twz) (txz + twy)
     (txy + twz) (one - (txx + tzz)) (tyz - twx)
     (txz - twy) (tyz + twx) (one - (txx + tyy)).

(** The order in which Eigen adds the three diagonal entries depends on its version. *)
Variable sum_right : bool.
(** Matrix3d::trace() inside the constructor used in optimizer.hpp:84. *)
Definition d_trace (m : dmat3) : T :=
  if sum_right then d00 m + (d11 m + d22 m) else (d00 m + d11 m) + d22 m.

(** optimizer.hpp:84, Eigen's Quaterniond(Matrix3d) (Eigen/src/Geometry/Quaternion.h). *)
Definition d_quat_of (m : dmat3) : dquat :=
  let one := d_of_Z A 1 in
  let t := d_trace m in
  if d_ltb A (d_of_Z A 0) t then
    let t1 := d_sqrt A (t + one) in
    let h := dhalf / t1 in
    DQ (dhalf * t1) ((d21 m - d12 m) * h) ((d02 m - d20 m) * h) ((d10 m - d01 m) * h)
  else if d_ltb A (if d_ltb A (d00 m) (d11 m) then d11 m else d00 m) (d22 m) then
    let t1 := d_sqrt A (d22 m - d00 m - d11 m + one) in
    let h := dhalf / t1 in
    DQ ((d10 m - d01 m) * h) ((d02 m + d20 m) * h) ((d12 m + d21 m) * h) (dhalf * t1)
  else if d_ltb A (d00 m) (d11 m) then
    let t1 := d_sqrt A (d11 m - d22 m - d00 m + one) in
    let h := dhalf / t1 in
    DQ ((d02 m - d20 m) * h) ((d01 m + d10 m) * h) (dhalf * t1) ((d21 m + d12 m) * h)
  else
    let t1 := d_sqrt A (d00 m - d11 m - d22 m + one) in
    let h := dhalf / t1 in
    DQ ((d21 m - d12 m) * h) (dhalf * t1) ((d10 m + d01 m) * h) ((d20 m + d02 m) * h).

(** localization/src/posevec.cpp:46-54 MakePose. *)
Definition d_make_pose (q : dquat) (t : dvec) : dpose := DP (d_to_rotation q) t.
(** optimizer.hpp:84-85. *)
Definition d_of_pose (p : dpose) : dquat * dvec := (d_quat_of (dlin p), dtra p).

(** The rest of the optimiser, as in LocModel.v. *)
Variable Jac Res : Type.
Variable dot : Res -> T.
Variable calc_update : dquat -> list T -> list Jac -> list Res -> outcome (dquat * dvec).
Variable qmul : dquat -> dquat -> dquat.
Variable vadd : dvec -> dvec -> dvec.
Variable converged : dquat -> dvec -> bool.
Variable sel : selector A.
Variable b_scale k_huber tiny dmax : T.

(** localizer.hpp:74-80 Localizer::Update with a scan (optimizer.hpp:92 is [scan]): pose
    afterwards and return value. *)
Definition d_update (max_iter : Z) (scan : dpose -> outcome (list Jac * list Res)) (before : dpose) : outcome (dpose * bool) :=
  localizer_update A dquat dvec dpose Jac Res scan d_of_pose d_make_pose dot calc_update qmul vadd converged sel
    b_scale k_huber tiny dmax max_iter before.
(** What Localizer::Get returns, and what the Updates returned, after an Update for each
    scan (localizer.hpp:74-85). *)
Fixpoint d_updates (max_iter : Z) (scans : list (dpose -> outcome (list Jac * list Res))) (before : dpose) : outcome (dpose * list bool) :=
  match scans with
  | [] => Ok (before, [])
  | scan :: rest =>
      ' (after, success) <- d_update max_iter scan before ;;
      ' (last, successes) <- d_updates max_iter rest after ;;
      Ok (last, success :: successes)
  end.
End RoundTrip.
