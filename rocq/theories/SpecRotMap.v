(** Vocabulary of C119: the same problem told with other directions of the axes of the map. *)
From Coq Require Import List Reals ZArith.
From Verif Require Import Base Arith LibModel LocModel PoseModel OptModel ProblemModel SpecPose SpecFit SpecOpt SpecStep.
Import ListNotations.
Open Scope R_scope.

(** The new coordinates of a point of the map are the old ones turned by the unit
    quaternion g; points of a scan are told in the coordinates of the vehicle. *)
Definition turned_point (g : quat) (p : vec) : vec := mapply (to_rotation g) p.
Definition turned_pose (g : quat) (T : pose) : pose :=
  Iso (mmul3 (to_rotation g) (lin T)) (turned_point g (tra T)).

(** An orientation has two quaternions, of opposite signs.  The conversion of orientations to
    quaternions takes corresponding ones for the orientation of q and for the turned one. *)
Definition same_sign (g q : quat) : Prop := quat_of (to_rotation (qmul g q)) = qmul g (quat_of (to_rotation q)).

(** The quaternions and positions at which a run of the optimiser with at most n iterations
    measures its errors: the ones reached from the start by fewer than n accepted iterations
    that did not stop. *)
Definition reaches eig llt sel (problem : pose -> outcome (list mat * list (list R))) (T : pose) (n : nat) (q : quat) (t : vec) : Prop :=
  exists l e s, (length l < n)%nat /\
    iterations exact quat vec pose mat (list R) problem make_pose rdot (calc_update eig llt) qmul vadd
      check_convergence sel b_robust k_robust tiny_robust (fst (of_pose T)) (snd (of_pose T)) dbl_max dbl_max l q t e s.

(** The eigenvalues computed for the matrix of a problem are right. *)
Definition right_eigenvalues (eig : nat -> (nat -> nat -> R) -> list R) (o : outcome (list mat * list (list R))) : Prop :=
  forall Js rs, o = Ok (Js, rs) -> eigenvalues_of 7 (normal_matrix Js) (eig 7%nat (normal_matrix Js)).

(** The search finds the same points of the turned map. *)
Definition searches_turned (g : quat) (find : list vec -> vec -> nat -> list nat) : Prop :=
  forall m q n, find (map (turned_point g) m) (turned_point g q) n = find m q n.
(** Every neighbourhood found in the map has one principal direction, up to the sign; it and
    the one of the turned neighbourhood are computed rightly. *)
Definition elongated (g : quat) (principal : mat3 -> vec) (find : list vec -> vec -> nat -> list nat) (m : list vec) (n : nat) : Prop :=
  forall q X, nearest_k_search vec find m q n = Ok X ->
    (forall c C, mean_and_covariance X = Ok (c, C) ->
       principal_direction C (principal C) /\
       forall u, principal_direction C u -> u = principal C \/ u = vscale (-1) (principal C)) /\
    (forall c C, mean_and_covariance (map (turned_point g) X) = Ok (c, C) -> principal_direction C (principal C)).
(** Every neighbourhood found in the map determines a plane. *)
Definition determined (find : list vec -> vec -> nat -> list nat) (m : list vec) (n : nat) : Prop :=
  forall q X, nearest_k_search vec find m q n = Ok X -> independent X.
