(** Vocabulary of C92-C95: lines and planes fitted to points. *)
From Coq Require Import List Reals.
From Verif Require Import PoseModel SpecPose.
Import ListNotations.
Open Scope R_scope.

Definition origin : vec := V3 0 0 0.
(** The point with parameter s on the line through a in direction u. *)
Definition ray_point (a u : vec) (s : R) : vec := vadd a (vscale s u).
Definition on_ray (a u p : vec) : Prop := exists s, p = ray_point a u s.
Definition squared_distance (p q : vec) : R := vdot (vsub p q) (vsub p q).
Definition sum_over (f : vec -> R) (X : list vec) : R := fold_right Rplus 0 (map f X).
(** All points lie on one line. *)
Definition collinear (X : list vec) : Prop := exists a u, u <> origin /\ forall x, In x X -> on_ray a u x.
(** d is the distance of p from the line. *)
Definition distance_from_line (a u p : vec) (d : R) : Prop :=
  0 <= d /\ (exists s, d * d = squared_distance p (ray_point a u s)) /\ forall s, d * d <= squared_distance p (ray_point a u s).

(** What the linear algebra library computes.  The eigenvector of the largest eigenvalue of
    a symmetric matrix: the unit vector along which the quadratic form is largest. *)
Definition symmetric3 (C : mat3) : Prop := transpose3 C = C.
Definition principal_direction (C : mat3) (v : vec) : Prop :=
  vdot v v = 1 /\ forall u, vdot u u = 1 -> vdot u (mapply C u) <= vdot v (mapply C v).
(** The least squares solution of the equations x.w = g, if the unknowns are determined. *)
Definition independent (X : list vec) : Prop := forall w, (forall x, In x X -> vdot w x = 0) -> w = origin.
Definition misfit (X : list vec) (g : list R) (w : vec) : R :=
  fold_right Rplus 0 (map (fun xg => (vdot w (fst xg) - snd xg) * (vdot w (fst xg) - snd xg)) (combine X g)).
Definition solves_least_squares (solve : list vec -> list R -> vec) (X : list vec) (g : list R) : Prop :=
  independent X -> forall w, misfit X g (solve X g) <= misfit X g w.
(** The plane of the points x with n.x = d. *)
Definition in_plane (n : vec) (d : R) (x : vec) : Prop := vdot n x = d.
Definition distance_from_plane (n : vec) (d : R) (p : vec) (e : R) : Prop :=
  0 <= e /\ (exists q, in_plane n d q /\ e * e = squared_distance p q) /\
  forall q, in_plane n d q -> e * e <= squared_distance p q.

(** The points X lie on one line, which is determined by them and contains p. *)
Definition line_through (X : list vec) (p : vec) : Prop :=
  exists a u, (forall x, In x X -> on_ray a u x) /\ on_ray a u p /\ exists x y, In x X /\ In y X /\ x <> y.
(** The points X lie in one plane, which is determined by them, contains p and does not
    contain the origin of the coordinates. *)
Definition plane_through (X : list vec) (p : vec) : Prop :=
  exists n d, d <> 0 /\ (forall x, In x X -> in_plane n d x) /\ in_plane n d p /\ independent X.
