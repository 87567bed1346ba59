(** Model of rotationlib and of the residuals, Jacobians and increments of the localizer,
    in real arithmetic (Eigen's evaluation order is not modelled).  Matrices are lists of
    rows. *)
From Coq Require Import List ZArith Bool Reals.
From Verif Require Import Base Arith.
Import ListNotations.
Open Scope R_scope.

(** Eigen::Vector3d (localization/src/posevec.cpp:46-54). *)
Record vec := V3 { vx : R; vy : R; vz : R }.
(** Eigen::Quaterniond, constructor order w, x, y, z (localization/src/posevec.cpp:32-44). *)
Record quat := Qn { qw : R; qx : R; qy : R; qz : R }.
(** Eigen::Matrix3d by rows (rotationlib/src/hat.cpp:35-43). *)
Record mat3 := M3 { m00 : R; m01 : R; m02 : R; m10 : R; m11 : R; m12 : R; m20 : R; m21 : R; m22 : R }.
(** Eigen::Isometry3d: linear() and translation() (localization/src/posevec.cpp:50-52). *)
Record pose := Iso { lin : mat3; tra : vec }.
(** Eigen::MatrixXd by rows (localization/src/optimizer.cpp:58). *)
Definition mat := list (list R).

(** Eigen vector operations, as used in localization/src/edge.cpp:51-57 and
    rotationlib/src/jacobian/quaternion.cpp:45-49. *)
Definition vadd (a b : vec) : vec := V3 (vx a + vx b) (vy a + vy b) (vz a + vz b).
(** Vector difference (localization/src/edge.cpp:56, 84). *)
Definition vsub (a b : vec) : vec := V3 (vx a - vx b) (vy a - vy b) (vz a - vz b).
(** Scalar product of a vector (localization/src/posevec.cpp:38-41). *)
Definition vscale (s : R) (a : vec) : vec := V3 (s * vx a) (s * vy a) (s * vz a).
(** dot (rotationlib/src/jacobian/quaternion.cpp:49). *)
Definition vdot (a b : vec) : R := vx a * vx b + vy a * vy b + vz a * vz b.
(** cross (rotationlib/src/jacobian/quaternion.cpp:48, localization/src/edge.cpp:84). *)
Definition vcross (a b : vec) : vec :=
  V3 (vy a * vz b - vz a * vy b) (vz a * vx b - vx a * vz b) (vx a * vy b - vy a * vx b).
(** norm (localization/src/posevec.cpp:34, localization/src/optimizer.cpp:37). *)
Definition vnorm (a : vec) : R := sqrt (vdot a a).
(** Component i of a vector, for the outer products of
    rotationlib/src/jacobian/quaternion.cpp:49. *)
Definition vnth (i : nat) (a : vec) : R := nth i [vx a; vy a; vz a] 0.

(** Eigen's quaternion product (localization/include/lidar_feature_localization/optimizer.hpp:115). *)
Definition qmul (a b : quat) : quat :=
  Qn (qw a * qw b - qx a * qx b - qy a * qy b - qz a * qz b)
     (qw a * qx b + qx a * qw b + qy a * qz b - qz a * qy b)
     (qw a * qy b + qy a * qw b + qz a * qx b - qx a * qz b)
     (qw a * qz b + qz a * qw b + qx a * qy b - qy a * qx b).
(** Quaterniond::Identity() (localization/src/posevec.cpp:36). *)
Definition qid : quat := Qn 1 0 0 0.
(** vec() (localization/src/optimizer.cpp:37). *)
Definition qvec (q : quat) : vec := V3 (qx q) (qy q) (qz q).

(** Eigen's toRotationMatrix (localization/src/posevec.cpp:51), which does not normalise. *)
Definition to_rotation (q : quat) : mat3 :=
  let '(Qn w x y z) := q in
  M3 (1 - (2 * y * y + 2 * z * z)) (2 * x * y - 2 * w * z) (2 * x * z + 2 * w * y)
     (2 * x * y + 2 * w * z) (1 - (2 * x * x + 2 * z * z)) (2 * y * z - 2 * w * x)
     (2 * x * z - 2 * w * y) (2 * y * z + 2 * w * x) (1 - (2 * x * x + 2 * y * y)).

(** Eigen's Quaterniond(Matrix3d) (optimizer.hpp:84, edge.hpp:95, surface.hpp:121), the
    algorithm of Eigen/src/Geometry/Quaternion.h. *)
Definition quat_of (m : mat3) : quat :=
  let t := m00 m + m11 m + m22 m in
  if Rltb 0 t then
    let t1 := sqrt (t + 1) in
    let h := / 2 / t1 in
    Qn (/ 2 * t1) ((m21 m - m12 m) * h) ((m02 m - m20 m) * h) ((m10 m - m01 m) * h)
  else if Rltb (if Rltb (m00 m) (m11 m) then m11 m else m00 m) (m22 m) then
    let t1 := sqrt (m22 m - m00 m - m11 m + 1) in
    let h := / 2 / t1 in
    Qn ((m10 m - m01 m) * h) ((m02 m + m20 m) * h) ((m12 m + m21 m) * h) (/ 2 * t1)
  else if Rltb (m00 m) (m11 m) then
    let t1 := sqrt (m11 m - m22 m - m00 m + 1) in
    let h := / 2 / t1 in
    Qn ((m02 m - m20 m) * h) ((m01 m + m10 m) * h) (/ 2 * t1) ((m21 m + m12 m) * h)
  else
    let t1 := sqrt (m00 m - m11 m - m22 m + 1) in
    let h := / 2 / t1 in
    Qn ((m21 m - m12 m) * h) (/ 2 * t1) ((m10 m + m01 m) * h) ((m20 m + m02 m) * h).

(** Matrix times vector (the linear part of localization/src/edge.cpp:83). *)
Definition mapply (m : mat3) (v : vec) : vec :=
  V3 (m00 m * vx v + m01 m * vy v + m02 m * vz v)
     (m10 m * vx v + m11 m * vy v + m12 m * vz v)
     (m20 m * vx v + m21 m * vy v + m22 m * vz v).
(** Isometry3d times Vector3d (localization/src/edge.cpp:83). *)
Definition transform (T : pose) (v : vec) : vec := vadd (mapply (lin T) v) (tra T).

(** localization/src/posevec.cpp:46-54 MakePose. *)
Definition make_pose (q : quat) (t : vec) : pose := Iso (to_rotation q) t.
(** optimizer.hpp:84-85: orientation and translation of the initial pose. *)
Definition of_pose (p : pose) : quat * vec := (quat_of (lin p), tra p).

(** localization/src/posevec.cpp:32-44 AngleAxisToQuaternion. *)
Definition angle_axis_to_quaternion (theta : vec) : quat :=
  let k := vnorm theta in
  if Rltb k (/ 100000000) then qid
  else
    let u := vscale (/ k) theta in
    let w := cos (k / 2) in
    let xyz := vscale (sin (k / 2)) u in
    Qn w (vx xyz) (vy xyz) (vz xyz).

(** rotationlib/src/quaternion.cpp:35-38 FromWXYZ. *)
Definition from_wxyz (l : R * R * R * R) : quat := let '(a, b, c, d) := l in Qn a b c d.
(** rotationlib/src/quaternion.cpp:40-43 ToWXYZ. *)
Definition to_wxyz (q : quat) : R * R * R * R := (qw q, qx q, qy q, qz q).
(** rotationlib/src/quaternion.cpp:45-60 LeftMultiplicationMatrix. *)
Definition left_mul_matrix (q : quat) : mat :=
  let '(Qn w x y z) := q in
  [[w; - x; - y; - z]; [x; w; - z; y]; [y; z; w; - x]; [z; - y; x; w]].
(** rotationlib/src/quaternion.cpp:62-77 RightMultiplicationMatrix. *)
Definition right_mul_matrix (q : quat) : mat :=
  let '(Qn w x y z) := q in
  [[w; - x; - y; - z]; [x; w; z; - y]; [y; - z; w; x]; [z; y; - x; w]].
(** Eigen's Quaterniond(AngleAxisd(angle, axis)) (rotationlib/src/quaternion.cpp:82-84). *)
Definition angle_axis (angle : R) (axis : vec) : quat :=
  Qn (cos (angle / 2)) (sin (angle / 2) * vx axis) (sin (angle / 2) * vy axis) (sin (angle / 2) * vz axis).
(** rotationlib/src/quaternion.cpp:79-86 RPYToQuaternionXYZ. *)
Definition rpy_to_quaternion (roll pitch yaw : R) : quat :=
  qmul (qmul (angle_axis yaw (V3 0 0 1)) (angle_axis pitch (V3 0 1 0))) (angle_axis roll (V3 1 0 0)).
(** rotationlib/src/hat.cpp:35-43 Hat. *)
Definition hat (v : vec) : mat :=
  [[0; - vz v; vy v]; [vz v; 0; - vx v]; [- vy v; vx v; 0]].

(** rotationlib/src/jacobian/quaternion.cpp:35-52 DRpDq, rows of the 3x4 matrix. *)
Definition drpdq (q : quat) (p : vec) : mat :=
  let w := qw q in let v := qvec q in let K := hat p in
  map (fun i =>
    map (Rmult 2)
      ((w * vnth i p + vnth i (vcross v p)) ::
       map (fun j => vdot v p * (if Nat.eqb i j then 1 else 0) + vnth i v * vnth j p
                     - vnth i p * vnth j v - w * nth j (nth i K []) 0) [0; 1; 2]%nat)) [0; 1; 2]%nat.

(** Row vector times matrix with n columns (Eigen's product in surface.hpp:92). *)
Definition row_mul (n : nat) (r : list R) (B : mat) : list R :=
  map (fun j => fold_right Rplus 0 (map (fun ab => fst ab * nth j (snd ab) 0) (combine r B))) (seq 0 n).
(** Matrix product (Eigen's product in localization/src/edge.cpp:74). *)
Definition mat_mul (n : nat) (A B : mat) : mat := map (fun r => row_mul n r B) A.
(** Matrices side by side, the comma initialiser of localization/src/edge.cpp:74. *)
Definition beside (A B : mat) : mat := map (fun ab => fst ab ++ snd ab) (combine A B).
(** A vector as a list, Vector3d to VectorXd (edge.hpp:120). *)
Definition vlist (v : vec) : list R := [vx v; vy v; vz v].

(** localization/src/edge.cpp:66-75 MakeEdgeJacobianRow. *)
Definition edge_jacobian (q : quat) (p0 p1 p2 : vec) : mat :=
  let K := hat (vsub p2 p1) in beside (mat_mul 4 K (drpdq q p0)) K.
(** localization/src/edge.cpp:77-85 MakeEdgeResidual. *)
Definition edge_residual (T : pose) (p0 p1 p2 : vec) : vec :=
  let p := transform T p0 in vcross (vsub p p1) (vsub p p2).

(** surface.hpp:49-53 SignedPointPlaneDistance with plane_bias = 1 (surface.hpp:47); a zero
    w divides by zero in the code (infinite or NaN), here x / 0 = x * / 0. *)
Definition signed_distance (w x : vec) : R := (vdot w x + 1) / vnorm w.
(** surface.hpp:85-93 MakeJacobianRow. *)
Definition surface_jacobian (w : vec) (q : quat) (p : vec) : mat :=
  let u := vscale (/ vnorm w) w in [row_mul 4 (vlist u) (drpdq q p) ++ vlist u].

Section Problem.
(** kdtree_->NearestKSearch and the eigenvector of the covariance of the result: the
    centre and principal direction found for a query (edge.hpp:106-114). *)
Variable edge_line : vec -> vec * vec.
(** NearestKSearch followed by EstimatePlaneCoefficients (surface.hpp:130-132). *)
Variable plane_of : vec -> vec.
(** Downsample with leaf size 1 (surface.hpp:111), pcl::VoxelGrid. *)
Variable downsample : list vec -> list vec.

(** edge.hpp:88-124 Edge::Make; PointXYZToVector has dimension 3, so TransformXYZ is the
    transform and head(3) the point.  The result vectors are written at index i, which is
    a map. *)
Definition edge_make (scan : list vec) (T : pose) : list mat * list (list R) :=
  let q := quat_of (lin T) in
  let line p0 := let '(mean, principal) := edge_line (transform T p0) in
                 (vsub mean principal, vadd mean principal) in
  (map (fun p0 => edge_jacobian q p0 (fst (line p0)) (snd (line p0))) scan,
   map (fun p0 => vlist (edge_residual T p0 (fst (line p0)) (snd (line p0)))) scan).

(** surface.hpp:106-139 Surface::Make and MakeFromDownsampled. *)
Definition surface_make (scan : list vec) (T : pose) : list mat * list (list R) :=
  let pts := downsample scan in
  let q := quat_of (lin T) in
  (map (fun p => surface_jacobian (plane_of (transform T p)) q p) pts,
   map (fun p => [signed_distance (plane_of (transform T p)) (transform T p)]) pts).

(** loam_optimization_problem.hpp:62-84 LOAMOptimizationProblem::Make. *)
Definition loam_make (scan : list vec * list vec) (T : pose) : list mat * list (list R) :=
  let '(ej, er) := edge_make (fst scan) T in
  let '(sj, sr) := surface_make (snd scan) T in
  (ej ++ sj, er ++ sr).
End Problem.

(** localization/src/alignment.cpp:34-46 MakeJacobian. *)
Definition alignment_jacobian (q : quat) (points : list vec) : list mat :=
  map (fun p => beside (drpdq q p) [[1; 0; 0]; [0; 1; 0]; [0; 0; 1]]) points.
(** localization/src/alignment.cpp:48-64 MakeResidual; the row assertion is live. *)
Definition alignment_residual (T : pose) (source target : list vec) : outcome (list (list R)) :=
  assert_ (Nat.eqb (length source) (length target))
    (Ok (map (fun xy => vlist (vsub (transform T (fst xy)) (snd xy))) (combine source target))).
(** localization/src/alignment.cpp:66-76 AlignmentProblem::Make. *)
Definition alignment_make (points : list vec * list vec) (T : pose) : outcome (list mat * list (list R)) :=
  let jac := alignment_jacobian (quat_of (lin T)) (fst points) in
  res <- alignment_residual T (fst points) (snd points) ;; Ok (jac, res).

Section Update.
(** SelfAdjointEigenSolver(C).eigenvalues() and (.).llt().solve(.) on n x n matrices,
    given as functions of the indices below n. *)
Variable eigenvalues : nat -> (nat -> nat -> R) -> list R.
Variable llt_solve : nat -> (nat -> nat -> R) -> (nat -> R) -> (nat -> R).

(** localization/src/degenerate.cpp:32-37 IsDegenerate, threshold 0.1 by default
    (degenerate.hpp:34). *)
Definition is_degenerate (n : nat) (C : nat -> nat -> R) : bool :=
  existsb (fun e => Rltb (Rabs e) (/ 10)) (eigenvalues n C).

(** localization/src/optimizer.cpp:35-38 CheckConvergence. *)
Definition check_convergence (dq : quat) (dt : vec) : bool :=
  (Rltb (vnorm (qvec dq)) (/ 1000) && Rltb (vnorm dt) (/ 1000))%bool.

(** Entry (i, j) of J' J (localization/src/optimizer.cpp:60). *)
Definition jtj (J : mat) (i j : nat) : R :=
  fold_right Rplus 0 (map (fun row => nth i row 0 * nth j row 0) J).
(** Entry i of J' r (localization/src/optimizer.cpp:64). *)
Definition jtr (J : mat) (r : list R) (i : nat) : R :=
  fold_right Rplus 0 (map (fun ab => nth i (fst ab) 0 * snd ab) (combine J r)).
(** Sum over indices below n (the products of localization/src/optimizer.cpp:71). *)
Definition sum_n (n : nat) (f : nat -> R) : R := fold_right Rplus 0 (map f (seq 0 n)).

(** localization/src/optimizer.cpp:40-72 WeightedUpdate; M is 7x6.  The product J' r
    requires matching sizes (an Eigen assertion). *)
Definition weighted_update (M : nat -> nat -> R) (weights : list R) (jacobians : list mat)
    (residuals : list (list R)) : outcome (nat -> R) :=
  assert_ (Nat.eqb (length weights) (length jacobians)) (
  assert_ (Nat.eqb (length weights) (length residuals)) (
  assert_ (forallb (fun J => forallb (fun row => Nat.eqb (length row) 7) J) jacobians) (
  assert_ (forallb (fun Jr => Nat.eqb (length (fst Jr)) (length (snd Jr))) (combine jacobians residuals)) (
  let D i j := fold_right Rplus 0 (map (fun J => jtj J i j) jacobians) in
  let A i j := fold_right Rplus 0 (map (fun wJ => fst wJ * jtj (snd wJ) i j) (combine weights jacobians)) in
  let b i := fold_right Rplus 0
    (map (fun wJr => fst wJr * jtr (fst (snd wJr)) (snd (snd wJr)) i) (combine weights (combine jacobians residuals))) in
  if is_degenerate 7 D then Ok (fun _ => 0)
  else
    let MtAM k l := sum_n 7 (fun i => sum_n 7 (fun j => M i k * A i j * M j l)) in
    let Mtb k := sum_n 7 (fun i => M i k * b i) in
    let x := llt_solve 6 MtAM Mtb in
    Ok (fun k => - x k))))).

(** localization/src/optimizer.cpp:74-85 MakeM. *)
Definition make_m (q : quat) (i k : nat) : R :=
  if (i <? 4)%nat then
    if (k <? 3)%nat then / 2 * nth (k + 1) (nth i (left_mul_matrix q) []) 0 else 0
  else if (k <? 3)%nat then 0 else if Nat.eqb (i - 4) (k - 3) then 1 else 0.

(** localization/src/optimizer.cpp:87-98 CalcUpdate. *)
Definition calc_update (q : quat) (weights : list R) (jacobians : list mat) (residuals : list (list R))
    : outcome (quat * vec) :=
  dx <- weighted_update (make_m q) weights jacobians residuals ;;
  Ok (angle_axis_to_quaternion (V3 (dx 0%nat) (dx 1%nat) (dx 2%nat)), V3 (dx 3%nat) (dx 4%nat) (dx 5%nat)).
End Update.
(** r.dot(r) (localization/src/optimizer.cpp:105). *)
Definition rdot (r : list R) : R := fold_right Rplus 0 (map (fun x => x * x) r).
