(** Stacking of vectors and matrices (lib/include/lidar_feature_library/eigen.hpp) and the
    conversions between points and Eigen (lib/src/pcl_utils.cpp). *)
From Coq Require Import List ZArith Bool.
From Verif Require Import Base Arith.
Import ListNotations.
Open Scope Z_scope.

(** Eigen::MatrixXd (eigen.hpp:50, 60; pcl_utils.cpp:41): numbers of rows and columns and the
    entries, [None] where nothing has been written. *)
Record matrix (T : Type) := Matrix { rows : Z; cols : Z; entry : Z -> Z -> option T }.
Arguments Matrix {T}. Arguments rows {T}. Arguments cols {T}. Arguments entry {T}.
(** The constructor of Eigen::MatrixXd from its size (eigen.hpp:50, 60; pcl_utils.cpp:41): the
    entries are indeterminate. *)
Definition fresh {T} (r c : Z) : matrix T := Matrix r c (fun _ _ => None).
(** Assignment to a block of h x w entries at row r and column c (X.row(i) = ..., eigen.hpp:52 and
    pcl_utils.cpp:43; X.block<N, M>(i * N, 0) = ..., eigen.hpp:62); Eigen asserts that the block is
    inside the matrix. *)
Definition set_block {T} (X : matrix T) (r c h w : Z) (B : Z -> Z -> T) : outcome (matrix T) :=
  assert_ ((0 <=? r) && (0 <=? c) && (r + h <=? rows X) && (c + w <=? cols X))
  (Ok (Matrix (rows X) (cols X) (fun i j =>
     if (r <=? i) && (i <? r + h) && (c <=? j) && (j <? c + w) then Some (B (i - r) (j - c)) else entry X i j))).

(** The loop (unsigned int i = 0; i < size; i++) of eigen.hpp:51-53 and 61-63, from i on. More
    than 2^32 - 1 elements, where i wraps, are not modelled. *)
Fixpoint loop {T E} (step : matrix T -> Z -> E -> outcome (matrix T)) (X : matrix T) (i : Z) (l : list E) : outcome (matrix T) :=
  match l with
  | [] => Ok X
  | e :: l' => Y <- step X i e ;; loop step Y (i + 1) l'
  end.
(** eigen.hpp:47-55 VectorsToEigen; a vector of N entries is a function of the index. *)
Definition vectors_to_eigen {T} (N : Z) (vectors : list (Z -> T)) : outcome (matrix T) :=
  loop (fun X i v => set_block X i 0 1 (cols X) (fun _ j => v j)) (fresh (zlen vectors) N) 0 vectors.
(** eigen.hpp:57-65 HorizontalStack; i * N is of type unsigned int. *)
Definition horizontal_stack {T} (N M : Z) (matrices : list (Z -> Z -> T)) : outcome (matrix T) :=
  loop (fun X i B => set_block X (i * N mod 2 ^ 32) 0 N M B) (fresh (N * zlen matrices) M) 0 matrices.

(** pcl::PointXYZ (pcl_utils.hpp:54-58). *)
Record pointxyz := PointXYZ { px : b32; py : b32; pz : b32 }.
(** pcl_utils.hpp:54-58 GetXYZ. *)
Definition get_xyz (p : pointxyz) : Z -> b64 :=
  fun j => if j =? 0 then conv64 (px p) else if j =? 1 then conv64 (py p) else conv64 (pz p).
(** pcl_utils.cpp:32-35 MakePointXYZ. *)
Definition make_point_xyz (v : Z -> b64) : pointxyz := PointXYZ (conv32 (v 0)) (conv32 (v 1)) (conv32 (v 2)).
(** pcl_utils.cpp:37-46 Get: at checks the index. *)
Definition get_points (cloud : list pointxyz) (indices : list Z) : outcome (matrix b64) :=
  loop (fun A j index => p <- vat cloud index ;; set_block A j 0 1 (cols A) (fun _ k => get_xyz p k)) (fresh (zlen indices) 3) 0 indices.

(** PointXYZCR (lib/include/lidar_feature_library/point_type.hpp:36-55). *)
Record pointxyzcr := PointXYZCR { cx : b32; cy : b32; cz : b32; ccurvature : b32; cring : Z }.
(** localization/include/lidar_feature_localization/point_to_vector.hpp:38-84: the points, Convert
    and NumDimension of a class that turns points into vectors. *)
Record point_to_vector := PointToVector { point : Type; convert : point -> list b64; num_dimension : Z }.
(** point_to_vector.hpp:38-52 PointXYZCRToVector. *)
Definition xyzcr_to_vector : point_to_vector :=
  PointToVector pointxyzcr (fun p => [conv64 (cx p); conv64 (cy p); conv64 (cz p); conv64 (ccurvature p)]) 4.
(** point_to_vector.hpp:54-68 PointXYZCRToXYZVector. *)
Definition xyzcr_to_xyz_vector : point_to_vector :=
  PointToVector pointxyzcr (fun p => [conv64 (cx p); conv64 (cy p); conv64 (cz p)]) 3.
(** point_to_vector.hpp:70-84 PointXYZToVector. *)
Definition xyz_to_vector : point_to_vector :=
  PointToVector pointxyz (fun p => [conv64 (px p); conv64 (py p); conv64 (pz p)]) 3.
(** Assignment of a dynamic vector to a row (localization/include/lidar_feature_localization/pointcloud_to_matrix.hpp:44):
    Eigen asserts that it has as many entries as the row; an empty vector is written nowhere, and the
    default of [nth] is not reached. *)
Definition set_row {T} (X : matrix T) (i : Z) (v : list T) : outcome (matrix T) :=
  assert_ (zlen v =? cols X)
  match v with
  | [] => Ok X
  | d :: _ => set_block X i 0 1 (cols X) (fun _ j => nth (Z.to_nat j) v d)
  end.
(** localization/include/lidar_feature_localization/pointcloud_to_matrix.hpp:38-47 PointCloudToMatrix;
    i is of type size_t, so it does not wrap. *)
Definition pointcloud_to_matrix (C : point_to_vector) (map_ : list (point C)) : outcome (matrix b64) :=
  loop (fun X i _ => p <- vat map_ i ;; set_row X i (convert C p)) (fresh (zlen map_) (num_dimension C)) 0 map_.
