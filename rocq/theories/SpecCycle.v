(** Vocabulary of C88-C91: the messages, parameters and outputs of the EKF localizer as the
    measurements, estimates and covariances of SpecFusion.v. *)
From Coq Require Import Reals List Bool ZArith PeanoNat String.
From Verif Require Import Base Arith EkfModel KalmanModel SpecKalman SpecFusion.
Import ListNotations.
Local Open Scope R_scope.

(** The filter's estimate. *)
Definition est (f : tdkf exact) : estimate := (td_x exact f, td_P exact f).
(** Nanoseconds as seconds. *)
Definition in_seconds (t : Z) : R := IZR t / 1000000000.
(** A 6 x 6 array with the entries [cols] x [cols] of P in the rows and columns [slots] and
    zero elsewhere. *)
Fixpoint component_of (i : nat) (slots cols : list nat) : option nat :=
  match slots, cols with s :: ss, c :: cs => if Nat.eqb i s then Some c else component_of i ss cs | _, _ => None end.
Definition placed (slots cols : list nat) (P : nat -> nat -> R) : list R :=
  map (fun k => match component_of (k / 6) slots cols, component_of (k mod 6) slots cols with Some a, Some b => P a b | _, _ => 0 end) (seq 0 36).
Definition square (array : list R) : nat -> nat -> R := fun i j => nth (6 * i + j)%nat array 0.

Section Messages.
Variable Orient : Type.
(** The tf2 functions that read the angles of an orientation. *)
Variable get_yaw : Orient -> R.
(** A pose measures x, y and heading; its heading is an angle in (-PI, PI]. *)
Definition pose_as (m : pose_msg exact Orient) (yaw : R) : measurement :=
  Measurement [0; 1; 2]%nat [0; 1; 5]%nat [p_x _ _ m; p_y _ _ m; yaw] (p_cov _ _ m) (p_stamp _ _ m).
Definition yaw_of (m : pose_msg exact Orient) (yaw : R) : Prop := - PI < yaw <= PI /\ same_heading (get_yaw (p_orient _ _ m)) yaw.
(** A twist measures forward speed and turn rate. *)
Definition twist_as (m : twist_msg exact) : measurement :=
  Measurement [4; 5]%nat [0; 5]%nat [t_vx _ m; t_wz _ m] (t_cov _ m) (t_stamp _ m).
(** The measured components have a regular covariance. *)
Definition sound_pose (m : pose_msg exact Orient) : Prop := List.length (p_cov _ _ m) = 36%nat /\ positive_definite 3 (noise_of (pose_as m 0) 1).
Definition sound_twist (m : twist_msg exact) : Prop := List.length (t_cov _ m) = 36%nat /\ positive_definite 2 (noise_of (twist_as m) 1).
Definition sound_event (e : event exact Orient) : Prop :=
  match e with
  | EvTimer _ _ _ _ _ => True
  | EvInitialPose m _ => sound_pose m
  | EvPose m => sound_pose m
  | EvTwist m => sound_twist m
  end.
(** What the clock reads at the start of each tick. *)
Definition readings (h : list (event exact Orient)) : list Z :=
  flat_map (fun e => match e with EvTimer t1 _ _ _ _ => [t1] | _ => [] end) h.
Definition sound_history (h : list (event exact Orient)) : Prop := Forall sound_event h /\ NoDup (readings h).
Definition sound_params (prm : params exact) : Prop :=
  (0 < extend_state_step _ prm)%Z /\ (0 < pose_smoothing_steps _ prm < 2 ^ 64)%Z /\ (0 < twist_smoothing_steps _ prm < 2 ^ 64)%Z.
Definition blocks (prm : params exact) : nat := Z.to_nat (extend_state_step _ prm).
(** Deviations per second of heading, bias, speed and turn rate. *)
Definition noise (prm : params exact) : list R :=
  [yaw_covariance _ prm; if enable_yaw_bias_estimation _ prm then proc_stddev_yaw_bias_c _ prm else 0; vx_covariance _ prm; wz_covariance _ prm].

(** The time since the previous tick, at most ten seconds; at the first tick the period of
    the configured frequency (at least 0.1 Hz). *)
Definition interval_is (prm : params exact) (last : option R) (t1 : Z) (dt : R) : Prop :=
  match last with
  | None => dt = / Rmax (default_frequency _ prm) (1 / 10)
  | Some l => dt = Rmin (in_seconds t1 - l) 10
  end.

(** How a tick should change the estimate and what it should publish.  [l] are the waiting
    poses and twists, z, roll and pitch the current outputs of the one-dimensional filters:
    first the prediction over the interval, then the poses, then the twists, each from the
    front of its queue and at least the front half, then the transform and the odometry
    message of the new estimate. *)
Definition tick_effect (prm : params exact) (last : option R) (poses : list (pose_msg exact Orient)) (twists : list (twist_msg exact))
    (z roll pitch : R) (t1 t2 t3 t4 t5 : Z) (s s' : estimate) (published : list (output exact)) : Prop :=
  exists dt s1 s2 kp kt, interval_is prm last t1 dt /\ 0 < dt /\
    predicts (blocks prm) dt (noise prm) s s1 /\
    (kp <= List.length poses <= 2 * kp)%nat /\
    in_turn (fun m a b => exists yaw, yaw_of m yaw /\
        treats 3 (blocks prm) (pose_smoothing_steps _ prm) (pose_gate_dist _ prm) t2 dt (pose_as m yaw) a b) (firstn kp poses) s1 s2 /\
    (kt <= List.length twists <= 2 * kt)%nat /\
    in_turn (fun m => treats 2 (blocks prm) (twist_smoothing_steps _ prm) (twist_gate_dist _ prm) t3 dt (twist_as m)) (firstn kt twists) s2 s' /\
    let x := fst s' in
    let pose := [x 0%nat; x 1%nat; z; roll; pitch; x 2%nat + x 3%nat] in
    published = [OutTransform exact t4 (pose_frame_id _ prm) pose;
                 OutOdometry exact t5 (pose_frame_id _ prm) pose (placed [0; 1; 5]%nat [0; 1; 2]%nat (snd s')) (x 4%nat) (x 5%nat) (placed [0; 5]%nat [4; 5]%nat (snd s'))].
End Messages.

(** Ticks whose clock readings advance by at most g seconds each, starting from l. *)
Definition five : Type := Z * Z * Z * Z * Z.
Definition tick_of (Orient : Type) (t : five) : event exact Orient := let '(t1, t2, t3, t4, t5) := t in EvTimer _ _ t1 t2 t3 t4 t5.
Definition reading (t : five) : R := let '(t1, _, _, _, _) := t in in_seconds t1.
Fixpoint steady (g l : R) (ts : list five) : Prop :=
  match ts with [] => True | t :: r => l < reading t <= l + g /\ steady g (reading t) r end.
(** The last message is odometry with this pose, forward speed and turn rate. *)
Definition last_odometry (out : list (output exact)) (x y yaw vx wz : R) : Prop :=
  exists before t frame z roll pitch pc tc, out = before ++ [OutOdometry exact t frame [x; y; z; roll; pitch; yaw] pc vx wz tc].
(** Ticks at advancing clock readings, the first after [last]. *)
Fixpoint advancing (last : option R) (ts : list five) : Prop :=
  match ts with [] => True | t :: r => (forall l, last = Some l -> l < reading t) /\ advancing (Some (reading t)) r end.
(** A message with this position and heading, and no speed. *)
Definition reports_rest (x y yaw : R) (o : output exact) : Prop :=
  let here (p : list R) := nth 0 p 0 = x /\ nth 1 p 0 = y /\ same_heading (nth 5 p 0) yaw in
  match o with
  | OutTransform _ _ p => here p
  | OutOdometry _ _ p _ vx wz _ => here p /\ vx = 0 /\ wz = 0
  end.
