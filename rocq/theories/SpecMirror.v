(** Vocabulary of C120: the same drive seen in a mirror that exchanges left and right. *)
From Coq Require Import Reals List ZArith String.
From Verif Require Import Base Arith EkfModel.
Import ListNotations.
Local Open Scope R_scope.
Unset Asymmetric Patterns.

(** What a mirror in the plane of the x and z axes does to the coordinates x, y, z and to
    the angles (or angular velocities) about them: rotations about x and z change their
    sense, rotations about y keep it. *)
Definition side (i : nat) : R := nth i [1; -1; 1; -1; 1; -1] 0.
(** A 6 x 6 matrix, row by row. *)
Definition mirrored_covariance (array : list R) : list R :=
  map (fun kv => side (fst kv / 6) * side (fst kv mod 6) * snd kv) (combine (seq 0 (List.length array)) array).

Section Mirrored.
Variable Orient : Type.
(** The orientation seen in the mirror. *)
Variable mirror : Orient -> Orient.

Definition mirrored_pose (m : pose_msg exact Orient) : pose_msg exact Orient :=
  PoseMsg exact Orient (p_frame _ _ m) (p_stamp _ _ m) (p_x _ _ m) (- p_y _ _ m) (p_z _ _ m) (mirror (p_orient _ _ m))
    (mirrored_covariance (p_cov _ _ m)).
Definition mirrored_twist (m : twist_msg exact) : twist_msg exact :=
  TwistMsg exact (t_frame _ m) (t_stamp _ m) (t_vx _ m) (- t_wz _ m) (mirrored_covariance (t_cov _ m)).
Definition mirrored_transform (t : transform_msg exact Orient) : transform_msg exact Orient :=
  TransformMsg exact Orient (tr_x _ _ t) (- tr_y _ _ t) (tr_z _ _ t) (mirror (tr_rot _ _ t)).
Definition mirrored_event (e : event exact Orient) : event exact Orient :=
  match e with
  | EvTimer _ _ t1 t2 t3 t4 t5 => EvTimer exact Orient t1 t2 t3 t4 t5
  | EvInitialPose _ _ m tf => EvInitialPose exact Orient (mirrored_pose m) (option_map mirrored_transform tf)
  | EvPose _ _ m => EvPose exact Orient (mirrored_pose m)
  | EvTwist _ _ m => EvTwist exact Orient (mirrored_twist m)
  end.
End Mirrored.

(** A published pose is x, y, z, roll, pitch and yaw. *)
Definition mirrored_place (pose : list R) : list R :=
  match pose with [x; y; z; roll; pitch; yaw] => [x; - y; z; - roll; pitch; - yaw] | _ => pose end.
Definition mirrored_output (o : output exact) : output exact :=
  match o with
  | OutTransform _ t frame pose => OutTransform exact t frame (mirrored_place pose)
  | OutOdometry _ t frame pose pose_cov vx wz twist_cov =>
      OutOdometry exact t frame (mirrored_place pose) (mirrored_covariance pose_cov) vx (- wz) (mirrored_covariance twist_cov)
  end.

(** Two functions that agree as arctangents except for the direction straight back. *)
Definition agree_off_the_cut (f g : R -> R -> R) : Prop := forall y x, y <> 0 \/ 0 < x -> f y x = g y x.
