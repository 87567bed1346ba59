(** How the optimisation problem is built from the maps: nearest neighbours, the line and
    the plane fitted to them, residuals and Jacobians; real arithmetic. *)
From Coq Require Import List ZArith Bool Reals.
From Verif Require Import Base Arith LibModel LocModel PoseModel OptModel.
Import ListNotations.
Open Scope R_scope.

(** The column sums of a matrix with 3 columns (localization/src/edge.cpp:40). *)
Definition vsum (X : list vec) : vec := fold_right vadd (V3 0 0 0) X.
(** localization/src/edge.cpp:38-41 Center; the mean of an empty matrix is an Eigen
    assertion. *)
Definition center (X : list vec) : outcome vec :=
  assert_ (negb (Nat.eqb (length X) 0)) (Ok (vscale (/ INR (length X)) (vsum X))).
(** One entry of D' D / rows: the mean of f(d) g(d) over the rows d
    (localization/src/edge.cpp:47). *)
Definition moment (f g : vec -> R) (D : list vec) : R :=
  fold_right Rplus 0 (map (fun d => f d * g d) D) / INR (length D).
(** localization/src/edge.cpp:43-49 CalcMeanAndCovariance. *)
Definition mean_and_covariance (X : list vec) : outcome (vec * mat3) :=
  mean <- center X ;;
  let D := map (fun x => vsub x mean) X in
  Ok (mean, M3 (moment vx vx D) (moment vx vy D) (moment vx vz D)
               (moment vy vx D) (moment vy vy D) (moment vy vz D)
               (moment vz vx D) (moment vz vy D) (moment vz vz D)).

Section Fit.
(** SelfAdjointEigenSolver::computeDirect(.).eigenvectors().col(2) (edge.hpp:111-114): the
    eigenvalues are sorted in increasing order. *)
Variable principal : mat3 -> vec.
(** A.householderQr().solve(b) (localization math.hpp:39); A by its rows. *)
Variable qr_solve : list vec -> list R -> vec.
(** nanoflann's search. *)
Variable find_neighbors : list vec -> vec -> nat -> list nat.
(** pcl::VoxelGrid with leaf size 1 (surface.hpp:111). *)
Variable downsample : list vec -> list vec.

(** surface.hpp:79-83 EstimatePlaneCoefficients and math.hpp:36-40 SolveLinear, whose
    assertion holds by construction. *)
Definition estimate_plane (X : list vec) : vec := qr_solve X (repeat (-1) (length X)).

(** edge.hpp:106-114: the centre of the neighbours of the query and the principal direction
    of their covariance. *)
Definition edge_fit (map_ : list vec) (n : nat) (query : vec) : outcome (vec * vec) :=
  X <- nearest_k_search vec find_neighbors map_ query n ;;
  ' mc <- mean_and_covariance X ;;
  Ok (fst mc, principal (snd mc)).
(** surface.hpp:130-132. *)
Definition plane_fit (map_ : list vec) (n : nat) (query : vec) : outcome vec :=
  X <- nearest_k_search vec find_neighbors map_ query n ;;
  Ok (estimate_plane X).

(** edge.hpp:88-124 Edge::Make: the entries i of both results. *)
Definition edge_term (map_ : list vec) (n : nat) (T : pose) (p0 : vec) : outcome (mat * list R) :=
  ' l <- edge_fit map_ n (transform T p0) ;;
  let '(mean, v) := l in
  let p1 := vsub mean v in let p2 := vadd mean v in
  Ok (edge_jacobian (quat_of (lin T)) p0 p1 p2, vlist (edge_residual T p0 p1 p2)).
(** surface.hpp:116-139 Surface::MakeFromDownsampled. *)
Definition surface_term (map_ : list vec) (n : nat) (T : pose) (p : vec) : outcome (mat * list R) :=
  w <- plane_fit map_ n (transform T p) ;;
  Ok (surface_jacobian w (quat_of (lin T)) p, [signed_distance w (transform T p)]).
(** loam_optimization_problem.hpp:62-84 LOAMOptimizationProblem::Make for the maps given to
    the constructor (55-60), with surface.hpp:106-113 Surface::Make. *)
Definition loam_problem (edge_map surface_map : list vec) (n : nat) (scan : list vec * list vec) (T : pose)
    : outcome (list mat * list (list R)) :=
  edge <- mapM (edge_term edge_map n T) (fst scan) ;;
  surface <- mapM (surface_term surface_map n T) (downsample (snd scan)) ;;
  Ok (map fst edge ++ map fst surface, map snd edge ++ map snd surface).

(** localizer.hpp:46 N_NEIGHBORS. *)
Definition n_neighbors : nat := 15.
(** localizer.hpp:56-80: the problem of a Localizer made from the two maps, and its Update. *)
Definition localizer_result (eigenvalues : nat -> (nat -> nat -> R) -> list R)
    (llt_solve : nat -> (nat -> nat -> R) -> (nat -> R) -> (nat -> R)) (sel : selector exact)
    (edge_map surface_map : list vec) (max_iter : Z) (scan : list vec * list vec) (before : pose)
    : outcome (opt_result exact pose) :=
  optimize eigenvalues llt_solve sel (loam_problem edge_map surface_map n_neighbors scan) max_iter before.
End Fit.

(** localization/src/edge.cpp:93-97 PrincipalIsReliable. *)
Definition principal_is_reliable (l : R * R * R) : bool :=
  let '(_, b, c) := sort_three Rltb l in Rltb (b * 3) c.
(** surface.hpp:68-77 CheckPointsDistributeAlongPlane, with PointPlaneDistance (63-66). *)
Definition points_along_plane (X : list vec) (w : vec) : bool :=
  forallb (fun x => negb (Rltb (2 / 10) (Rabs (signed_distance w x)))) X.
(** localization/src/jacobian.cpp:35-57 FillJacobianRow and MakeJacobian; points and
    coefficients of the same number (asserted). *)
Definition coefficient_jacobian (points coeffs : list vec) (q : quat) : outcome mat :=
  assert_ (Nat.eqb (length points) (length coeffs))
    (Ok (map (fun pc => row_mul 4 (vlist (snd pc)) (drpdq q (fst pc)) ++ vlist (snd pc)) (combine points coeffs))).
(** filter.hpp:34-49 Filter. *)
Definition filter_by {T : Type} (flags : list bool) (values : list T) : outcome (list T) :=
  assert_ (Nat.eqb (length flags) (length values))
    (Ok (map snd (filter fst (combine flags values)))).
