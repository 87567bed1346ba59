(** Vocabulary of the properties C51, C52, C54, C55, C74 and C77. *)
From Coq Require Import List ZArith Bool Reals.
From Verif Require Import PoseModel SpecPose.
Import ListNotations.
Open Scope R_scope.

(** The points of a scan seen from a pose. *)
Definition seen_from {Pose Point : Type} (move : bool -> Pose -> Point -> Point) (T : Pose) (dense : bool) (pts : list Point) : list Point :=
  map (move dense T) pts.

(** The rotation matrix turns by the angle a about some axis: its trace is 1 + 2 cos a. *)
Definition turns_by (a : R) (M : mat3) : Prop := 0 <= a <= PI /\ m00 M + m11 M + m22 M = 1 + 2 * cos a.
(** Two poses a key frame apart: their origins are a metre or more apart, or the sine of
    half the angle between them is at least a tenth (about 11.5 degrees). *)
Definition far_apart (p0 p1 : pose) : Prop :=
  1 <= vnorm (vsub (tra p1) (tra p0)) \/
  exists a, turns_by a (mmul3 (transpose3 (lin p0)) (lin p1)) /\ / 10 <= sin (a / 2).

(** The key frames among the arrivals: given whether the last key frame (if any) is
    far from the next non-empty arrival. *)
Inductive key_frames {Pose Point : Type} (far : Pose -> Pose -> Prop) :
    option Pose -> list (Pose * list Point) -> list (Pose * list Point) -> Prop :=
| kf_done last : key_frames far last [] []
| kf_empty last T l k : key_frames far last l k -> key_frames far last ((T, []) :: l) k
| kf_first T p ps l k : key_frames far (Some T) l k -> key_frames far None ((T, p :: ps) :: l) ((T, p :: ps) :: k)
| kf_far T0 T p ps l k : far T0 T -> key_frames far (Some T) l k -> key_frames far (Some T0) ((T, p :: ps) :: l) ((T, p :: ps) :: k)
| kf_near T0 T p ps l k : ~ far T0 T -> key_frames far (Some T0) l k -> key_frames far (Some T0) ((T, p :: ps) :: l) k.

(** Each element related to the next. *)
Fixpoint successive {T : Type} (r : T -> T -> Prop) (l : list T) : Prop :=
  match l with
  | a :: ((b :: _) as l') => r a b /\ successive r l'
  | _ => True
  end.

(** Arithmetic mean. *)
Definition mean (l : list R) : R := fold_right Rplus 0 l / INR (length l).
