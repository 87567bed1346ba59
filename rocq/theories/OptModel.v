(** The optimiser of LocModel.v with the rotations, updates and constants of the code, in
    real arithmetic, and the nearest-neighbour search. *)
From Coq Require Import List ZArith Bool Reals Lia.
From Verif Require Import Base Arith LibModel LocModel PoseModel.
Import ListNotations.
Open Scope R_scope.

(** std::numeric_limits<double>::max() (optimizer.hpp:87-88). *)
Definition dbl_max : R := (2 - / 2 ^ 52) * 2 ^ 1023.
(** The constant of localization/src/robust.cpp:49. *)
Definition b_robust : R := 1482602218505602 / 1000000000000000.
(** The default k of robust.hpp:36-37. *)
Definition k_robust : R := 1345 / 1000.
(** The literal 1e-16 of localization/src/optimizer.cpp:115. *)
Definition tiny_robust : R := / 10000000000000000.

Section Optimize.
(** The Eigen eigenvalue and Cholesky solvers, and std::nth_element. *)
Variable eigenvalues : nat -> (nat -> nat -> R) -> list R.
Variable llt_solve : nat -> (nat -> nat -> R) -> (nat -> R) -> (nat -> R).
Variable sel : selector exact.
(** problem_.Make(x, .) for the given argument x (optimizer.hpp:92). *)
Variable problem : pose -> outcome (list mat * list (list R)).

(** optimizer.hpp:80-124 Optimizer::Run. *)
Definition optimize (max_iter : Z) (initial : pose) : outcome (opt_result exact pose) :=
  opt_run exact quat vec pose mat (list R) problem of_pose make_pose rdot
    (calc_update eigenvalues llt_solve) qmul vadd check_convergence sel
    b_robust k_robust tiny_robust dbl_max max_iter initial.

(** localizer.hpp:74-80 Localizer::Update: pose afterwards and return value. *)
Definition update_pose (max_iter : Z) (before : pose) : outcome (pose * bool) :=
  localizer_update exact quat vec pose mat (list R) problem of_pose make_pose rdot
    (calc_update eigenvalues llt_solve) qmul vadd check_convergence sel
    b_robust k_robust tiny_robust dbl_max max_iter before.
End Optimize.

Section Search.
Variable Row : Type.
(** nanoflann's findNeighbors: the indices it writes at the front of the result array. *)
Variable find_neighbors : list Row -> Row -> nat -> list nat.

(** lib/src/eigen.cpp:91-100 GetRows; a bad index is an Eigen assertion. *)
Definition get_rows (map_ : list Row) (indices : list nat) : outcome (list Row) :=
  mapM (fun i => match nth_error map_ i with Some r => Ok r | None => AssertFail end) indices.

(** localization/src/kdtree.cpp:42-63 NearestKSearch: the index array starts with zeros,
    entries that the search does not write stay zero; &indices[0] of an empty vector is
    undefined.  Distances are left out; the size assertion on the query is part of the
    type. *)
Definition nearest_k_search (map_ : list Row) (query : Row) (n : nat) : outcome (list Row) :=
  match n with
  | O => UB
  | _ =>
      let found := find_neighbors map_ query n in
      get_rows map_ (firstn n (found ++ repeat 0%nat (n - length found)))
  end.
End Search.
