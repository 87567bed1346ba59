(** Vocabulary of C104 and C105: the same drive told with another origin of the map and
    another origin of time. *)
From Coq Require Import Reals List ZArith String.
From Verif Require Import Base Arith EkfModel SpecKalman SpecFusion.
Import ListNotations.
Local Open Scope R_scope.
Unset Asymmetric Patterns.

Section Moved.
Variable Orient : Type.
(** The new coordinates are the old ones plus (a, b, c); all times are tau nanoseconds later. *)
Variables a b c : R.
Variable tau : Z.

Definition moved_pose (m : pose_msg exact Orient) : pose_msg exact Orient :=
  PoseMsg exact Orient (p_frame _ _ m) (p_stamp _ _ m + tau)%Z (p_x _ _ m + a) (p_y _ _ m + b) (p_z _ _ m + c)
    (p_orient _ _ m) (p_cov _ _ m).
Definition moved_twist (m : twist_msg exact) : twist_msg exact :=
  TwistMsg exact (t_frame _ m) (t_stamp _ m + tau)%Z (t_vx _ m) (t_wz _ m) (t_cov _ m).
Definition moved_event (e : event exact Orient) : event exact Orient :=
  match e with
  | EvTimer _ _ t1 t2 t3 t4 t5 => EvTimer exact Orient (t1 + tau) (t2 + tau) (t3 + tau) (t4 + tau) (t5 + tau)
  | EvInitialPose _ _ m tf => EvInitialPose exact Orient (moved_pose m) tf
  | EvPose _ _ m => EvPose exact Orient (moved_pose m)
  | EvTwist _ _ m => EvTwist exact Orient (moved_twist m)
  end.

(** The first three numbers of a published pose are x, y and z. *)
Definition moved_coordinates (pose : list R) : list R :=
  match pose with x :: y :: z :: angles => (x + a) :: (y + b) :: (z + c) :: angles | _ => pose end.
Definition moved_output (o : output exact) : output exact :=
  match o with
  | OutTransform _ t frame pose => OutTransform exact (t + tau) frame (moved_coordinates pose)
  | OutOdometry _ t frame pose pose_cov vx wz twist_cov =>
      OutOdometry exact (t + tau) frame (moved_coordinates pose) pose_cov vx wz twist_cov
  end.

(** The time stamp of a message; ticks have none. *)
Definition stamps (e : event exact Orient) : list Z :=
  match e with
  | EvTimer _ _ _ _ _ _ _ => []
  | EvInitialPose _ _ m _ => [p_stamp _ _ m]
  | EvPose _ _ m => [p_stamp _ _ m]
  | EvTwist _ _ m => [t_stamp _ m]
  end.
End Moved.

(** ** The same drive told with axes of the map turned about the vertical *)
Section Turned.
Variable Orient : Type.
(** The new axes see every direction theta larger; [turn] does this to an orientation. *)
Variable theta : R.
Variable turn : Orient -> Orient.

(** The 6 x 6 matrix that turns positions and rotation vectors. *)
Definition turning (i j : nat) : R :=
  match i, j with
  | 0%nat, 0%nat | 1%nat, 1%nat | 3%nat, 3%nat | 4%nat, 4%nat => cos theta
  | 1%nat, 0%nat | 4%nat, 3%nat => sin theta
  | 0%nat, 1%nat | 3%nat, 4%nat => - sin theta
  | 2%nat, 2%nat | 5%nat, 5%nat => 1
  | _, _ => 0
  end.
Definition turned_covariance (array : list R) : list R :=
  map (fun k => total 6 (fun i => total 6 (fun j => turning (k / 6) i * nth (6 * i + j) array 0 * turning (k mod 6) j))) (seq 0 36).
Definition turned_pose (m : pose_msg exact Orient) : pose_msg exact Orient :=
  PoseMsg exact Orient (p_frame _ _ m) (p_stamp _ _ m)
    (cos theta * p_x _ _ m - sin theta * p_y _ _ m) (sin theta * p_x _ _ m + cos theta * p_y _ _ m) (p_z _ _ m)
    (turn (p_orient _ _ m)) (turned_covariance (p_cov _ _ m)).
(** Twists are told in the axes of the vehicle and stay. *)
Definition turned_event (e : event exact Orient) : event exact Orient :=
  match e with
  | EvTimer _ _ t1 t2 t3 t4 t5 => EvTimer exact Orient t1 t2 t3 t4 t5
  | EvInitialPose _ _ m tf => EvInitialPose exact Orient (turned_pose m) tf
  | EvPose _ _ m => EvPose exact Orient (turned_pose m)
  | EvTwist _ _ m => EvTwist exact Orient m
  end.

(** What is published in the new axes: headings up to full turns, everything else exactly. *)
Definition turned_place (pose pose' : list R) : Prop :=
  exists x y z roll pitch yaw yaw',
    pose = [x; y; z; roll; pitch; yaw] /\
    pose' = [cos theta * x - sin theta * y; sin theta * x + cos theta * y; z; roll; pitch; yaw'] /\
    same_heading yaw' (yaw + theta).
Definition turned_output (o o' : output exact) : Prop :=
  match o, o' with
  | OutTransform _ t frame pose, OutTransform _ t' frame' pose' => t' = t /\ frame' = frame /\ turned_place pose pose'
  | OutOdometry _ t frame pose pose_cov vx wz twist_cov, OutOdometry _ t' frame' pose' pose_cov' vx' wz' twist_cov' =>
      t' = t /\ frame' = frame /\ turned_place pose pose' /\ pose_cov' = turned_covariance pose_cov /\
      vx' = vx /\ wz' = wz /\ twist_cov' = twist_cov
  | _, _ => False
  end.

(** A 6 x 6 covariance that is equally uncertain in all directions of the plane of
    coordinates i and i + 1, and without correlation between the two. *)
Definition evenly (i : nat) (array : list R) : Prop :=
  nth (7 * i) array 0 = nth (7 * i + 7) array 0 /\ nth (7 * i + 1) array 0 = 0 /\ nth (7 * i + 6) array 0 = 0.
(** Histories of C106: initial poses as uncertain in one direction as in the other, from the
    frame of the map; twists and ticks; no poses. *)
Definition even_event (e : event exact Orient) : Prop :=
  match e with
  | EvTimer _ _ _ _ _ _ _ => True
  | EvInitialPose _ _ m tf =>
      List.length (p_cov _ _ m) = 36%nat /\ evenly 0 (p_cov _ _ m) /\ evenly 3 (p_cov _ _ m) /\
      (forall t, tf = Some t -> tr_x _ _ t = 0 /\ tr_y _ _ t = 0)
  | EvPose _ _ _ => False
  | EvTwist _ _ _ => True
  end.
End Turned.
