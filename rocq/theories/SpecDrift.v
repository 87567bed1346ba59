(** Vocabulary for C133: poses that are almost rigid motions, and what the localizer reports
    after a number of scans. *)
From Coq Require Import List ZArith Reals.
From Verif Require Import Base Arith LibModel PoseModel OptModel SpecOpt SpecIeee RoundTripModel.
Import ListNotations.
Open Scope R_scope.

(** The square of the distance between two points that differ by p, in the scan and as
    placed by the pose. *)
Definition length2 (p : vec) : R := vdot p p.
Definition placed_length2 (T : pose) (p : vec) : R := vdot (mapply (lin T) p) (mapply (lin T) p).
(** Distances are kept, up to a relative error. *)
Definition rigid_up_to (eps : R) (T : pose) : Prop := forall p, Rabs (placed_length2 T p - length2 p) <= eps * length2 p.
(** Some squared distance is enlarged by the factor. *)
Definition enlarges (factor : R) (T : pose) : Prop := exists p, 0 < length2 p /\ factor * length2 p <= placed_length2 T p.

(** A scan that says nothing about the pose: it has no features, or the normal matrix is
    degenerate (an eigenvalue below 0.1) wherever the vehicle is. *)
Definition uninformative (eig : nat -> (nat -> nat -> R) -> list R) (scan : pose -> outcome (list mat * list (list R))) : Prop :=
  forall T, exists J res, scan T = Ok (J, res) /\
    (res = [] \/ well_shaped J res /\ exists e, In e (eig 7%nat (normal_matrix J)) /\ Rabs e < / 10).

(** What Localizer::Get returns after Init with [T] and an Update for each scan. *)
Definition after_scans eig llt sel max_iter (scans : list (pose -> outcome (list mat * list (list R)))) (T : pose) : outcome pose :=
  foldM (fun T scan => ' (T', _) <- update_pose eig llt sel scan max_iter T ;; Ok T') T scans.

(** The pose that a pose in doubles stands for. *)
Definition real_pose acosf (T : dpose (ieee acosf)) : pose :=
  let m := dlin _ T in let t := dtra _ T in
  Iso (M3 (val (d00 _ m)) (val (d01 _ m)) (val (d02 _ m)) (val (d10 _ m)) (val (d11 _ m)) (val (d12 _ m)) (val (d20 _ m)) (val (d21 _ m)) (val (d22 _ m)))
      (V3 (val (e0 _ t)) (val (e1 _ t)) (val (e2 _ t))).
(** The direction in which the vehicle faces. *)
Definition forward (T : pose) : vec := mapply (lin T) (V3 1 0 0).
(** Two directions differ by an angle with a cosine below c. *)
Definition turned_beyond (c : R) (a b : vec) : Prop := vdot a b < c * (vnorm a * vnorm b).
(** A scan in which no features were found. *)
Definition featureless {Pose Jac Res : Type} (scan : Pose -> outcome (list Jac * list Res)) : Prop := forall T, exists J, scan T = Ok (J, []).
