(** Model of the EKF localizer node, /repo/ekf_localizer (paths below are relative to it).

    The scalar type is the double of the record [arith]; the C library functions and tf2's
    conversion of quaternions are parameters.  The time-delay Kalman filter appears as a
    record of its methods; it is modelled in KalmanModel.v. *)
From Coq Require Import String Ascii List ZArith Bool.
From Flocq Require Import IEEE754.BinarySingleNaN.
From Verif Require Import Base Arith.
Import ListNotations.
Open Scope Z_scope.

(** * The queue *)
Section Queue.
Variable Msg : Type.
(** aged_message_queue.hpp:63-64 msgs_ and ages_, front first. *)
Record queue := Queue { msgs : list Msg; ages : list Z }.
(** aged_message_queue.hpp:24-27: an empty queue. *)
Definition q_empty : queue := Queue [] [].
(** aged_message_queue.hpp:29-32 size. *)
Definition q_size (q : queue) : Z := zlen (msgs q).
(** aged_message_queue.hpp:34-38 push. *)
Definition q_push (q : queue) (m : Msg) : queue := Queue (msgs q ++ [m]) (ages q ++ [0]).
(** aged_message_queue.hpp:40-53 pop; front() of an empty std::queue is undefined. *)
Definition q_pop (max_age : Z) (q : queue) : outcome (Msg * queue) :=
  match msgs q, ages q with
  | m :: ms, a :: rest =>
      let age := a + 1 in
      Ok (m, if age <? max_age then Queue (ms ++ [m]) (rest ++ [age]) else Queue ms rest)
  | _, _ => UB
  end.
(** aged_message_queue.hpp:55-59 clear. *)
Definition q_clear (q : queue) : queue := Queue [] [].

(** The loops of src/pose_measurement.cpp:81-114 and src/twist_measurement.cpp:77-110:
    [body] is the rest of the loop body after the pop, on the state [s].  The fuel is the
    number of queued messages at the start; [loop_runs] in QueueProofs.v shows that it is
    never used up. *)
Fixpoint update_loop {S : Type} (body : S -> Msg -> outcome S) (max_age : Z) (fuel : nat) (i : Z) (q : queue) (s : S) : outcome (queue * S) :=
  if i <? q_size q then
    match fuel with
    | O => ThrowOther
    | Datatypes.S k =>
        ' (m, q1) <- q_pop max_age q ;;
        s1 <- body s m ;;
        update_loop body max_age k (i + 1) q1 s1
    end
  else Ok (q, s).
End Queue.
Arguments Queue {Msg}. Arguments msgs {Msg}. Arguments ages {Msg}. Arguments q_empty {Msg}. Arguments q_size {Msg}.
Arguments q_push {Msg}. Arguments q_pop {Msg}. Arguments q_clear {Msg}. Arguments update_loop {Msg S}.

(** src/string.cpp:18-25 EraseBeginSlash; front() of an empty string is undefined
    (C++17 [string.access]). *)
Definition erase_begin_slash (s : string) : outcome string :=
  match s with
  | EmptyString => UB
  | String c rest => if Ascii.eqb c "/"%char then Ok rest else Ok s
  end.

Section Ekf.
Variable A : arith.
Notation T := (D A).
Notation "x + y" := (d_add A x y).
Notation "x - y" := (d_sub A x y).
Notation "x * y" := (d_mul A x y).
Notation "x / y" := (d_div A x y).
Notation num := (d_of_Z A).

(** std::max(a, b) is (a < b) ? b : a (update_interval.hpp:24, delay.hpp:30). *)
Definition d_max (a b : T) : T := if d_ltb A a b then b else a.
(** The literal 0.1 is the double nearest to 1/10, the correctly rounded quotient
    (update_interval.hpp:24). *)
Definition tenth : T := num 1 / num 10.
(** rclcpp::Time::seconds and rclcpp::Duration::seconds of int64 nanoseconds
    (delay.hpp:25, src/ekf_localizer.cpp:185). *)
Definition seconds (ns : Z) : T := num ns / num 1000000000.
(** rclcpp::Time from a message stamp throws std::runtime_error when it is negative
    (src/pose_measurement.cpp:86, src/ekf_localizer.cpp:286). *)
Definition time_of (stamp : Z) : outcome Z := if stamp <? 0 then ThrowOther else Ok stamp.

(** ** Update interval *)
(** update_interval.hpp:22-25 ComputeInterval. *)
Definition compute_interval (frequency : T) : T := num 1 / d_max frequency tenth.
(** src/update_interval.cpp:22-40 UpdateInterval::Compute on last_time_: the value or
    exception, and last_time_ afterwards. *)
Definition interval_compute (default_frequency : T) (last : option T) (now : T) : outcome T * option T :=
  match last with
  | None => (Ok (compute_interval default_frequency), Some now)
  | Some l =>
      if d_ltb A now l then (ThrowInvalid, last)
      else let frequency := num 1 / (now - l) in (Ok (compute_interval frequency), Some now)
  end.

(** ** Delay *)
(** std::roundf after conversion to float, as an integer; None for NaN and infinities
    (delay.hpp:30). *)
Variable roundf : T -> option Z.
(** delay.hpp:21-26 ComputeDelayTime (overflow of the int64 difference not modelled). *)
Definition compute_delay_time (now stamp : Z) : T := seconds (Z.sub now stamp).
(** delay.hpp:28-31 ComputeDelayStep: conversion to int is undefined outside its range. *)
Definition compute_delay_step (delay_time dt : T) : outcome Z :=
  match roundf (d_max delay_time (num 0) / dt) with
  | Some z => if (- 2 ^ 31 <=? z) && (z <? 2 ^ 31) then Ok z else UB
  | None => UB
  end.
(** src/check.cpp:83-90 CheckDelayStep. *)
Definition check_delay_step (delay_step max_delay_step : Z) : bool := delay_step <? max_delay_step.

(** ** State transition *)
Variable sin cos : T -> T.
Variable atan2 : T -> T -> T.
Variable neg : T -> T.

(** state_index.hpp:18-26: the six components of the state, in this order. *)
Record state := State { st_x : T; st_y : T; st_yaw : T; st_bias : T; st_vx : T; st_wz : T }.
(** Matrices by their entries; the sizes are static in the code (matrix_types.hpp:20-21). *)
Definition matrix := nat -> nat -> T.

(** normalize_yaw.hpp:25-28 (and src/state_transition.cpp:20-25) normalizeYaw. *)
Definition normalize_yaw (yaw : T) : T := atan2 (sin yaw) (cos yaw).
(** src/state_transition.cpp:27-45 predictNextState; the call of normalizeYaw is the
    argument [norm]. *)
Definition predict_with (norm : T -> T) (c : state) (dt : T) : state :=
  let yaw := st_yaw c + st_bias c in
  State (st_x c + st_vx c * cos yaw * dt)
        (st_y c + st_vx c * sin yaw * dt)
        (norm (st_yaw c + st_wz c * dt))
        (st_bias c) (st_vx c) (st_wz c).
(** src/state_transition.cpp:27-45 predictNextState. *)
Definition predict_next_state : state -> T -> state := predict_with normalize_yaw.
(** src/state_transition.cpp:48-64 createStateTransitionMatrix. *)
Definition create_state_transition_matrix (c : state) (dt : T) : matrix := fun i j =>
  let yaw := st_yaw c + st_bias c in
  match i, j with
  | 0%nat, 2%nat | 0%nat, 3%nat => neg (st_vx c) * sin yaw * dt
  | 0%nat, 4%nat => cos yaw * dt
  | 1%nat, 2%nat | 1%nat, 3%nat => st_vx c * cos yaw * dt
  | 1%nat, 4%nat => sin yaw * dt
  | 2%nat, 5%nat => dt
  | _, _ => if Nat.eqb i j then num 1 else num 0
  end.
(** Diagonal matrices, as in src/state_transition.cpp:70 and src/ekf_localizer.cpp:113. *)
Definition diagonal (d : list T) : matrix := fun i j => if Nat.eqb i j then nth i d (num 0) else num 0.
(** src/state_transition.cpp:66-71 processNoiseCovariance. *)
Definition process_noise_covariance (v0 v1 v2 v3 : T) : matrix := diagonal [num 0; num 0; v0; v1; v2; v3].
(** include/ekf_localizer/ekf_localizer.hpp:105-108 TimeScaledVariance. *)
Definition time_scaled_variance (stddev dt : T) : T := stddev * stddev * dt * dt.

(** ** Covariances *)
(** src/covariance.cpp:22-42 EKFCovarianceToPoseMessageCovariance. *)
Definition pose_message_covariance (P : matrix) : list T :=
  let z := num 0 in
  [P 0 0; P 0 1; z; z; z; P 0 2;
   P 1 0; P 1 1; z; z; z; P 1 2;
   z; z; z; z; z; z;
   z; z; z; z; z; z;
   z; z; z; z; z; z;
   P 2 0; P 2 1; z; z; z; P 2 2]%nat.
(** src/covariance.cpp:44-59 EKFCovarianceToTwistMessageCovariance. *)
Definition twist_message_covariance (P : matrix) : list T :=
  let z := num 0 in
  [P 4 4; z; z; z; z; P 4 5;
   z; z; z; z; z; z;
   z; z; z; z; z; z;
   z; z; z; z; z; z;
   z; z; z; z; z; z;
   P 5 4; z; z; z; z; P 5 5]%nat.
(** int smoothing_steps_ converted to size_t and to double (src/pose_measurement.cpp:55,
    107, src/twist_measurement.cpp:52, 103). *)
Definition steps_factor (steps : Z) : T := num (steps mod 2 ^ 64).
(** Rows and columns [idx] of the 6x6 array, times the factor (common to
    src/pose_measurement.cpp:50-55 and src/twist_measurement.cpp:48-52). *)
Definition covariance_at (idx : list Z) (cov : list T) (steps : Z) : outcome (list (list T)) :=
  mapM (fun i => mapM (fun j => c <- vat cov (Z.add (Z.mul 6 i) j) ;; Ok (c * steps_factor steps)) idx) idx.
(** src/pose_measurement.cpp:47-56 PoseMeasurementCovariance, by rows. *)
Definition pose_measurement_covariance (cov : list T) (steps : Z) : outcome (list (list T)) := covariance_at [0; 1; 5] cov steps.
(** src/twist_measurement.cpp:45-53 TwistMeasurementCovariance, by rows. *)
Definition twist_measurement_covariance (cov : list T) (steps : Z) : outcome (list (list T)) := covariance_at [0; 5] cov steps.
(** src/pose_measurement.cpp:33-36 PoseCovariance: block (0, 0, 3, 3), by rows. *)
Definition pose_covariance (P : matrix) : list (list T) := map (fun i => map (P i) [0; 1; 2]%nat) [0; 1; 2]%nat.
(** src/twist_measurement.cpp:32-35 TwistCovariance: block (4, 4, 2, 2), by rows. *)
Definition twist_covariance (P : matrix) : list (list T) := map (fun i => map (P i) [4; 5]%nat) [4; 5]%nat.
(** The 0/1 matrices with a one in row k at column [cols k]
    (src/pose_measurement.cpp:38-45, src/twist_measurement.cpp:37-43). *)
Definition selection (cols : list nat) : list (list T) :=
  map (fun c => map (fun j => if Nat.eqb j c then num 1 else num 0) (seq 0 6)) cols.
(** src/pose_measurement.cpp:38-45 PoseMeasurementMatrix. *)
Definition pose_measurement_matrix : list (list T) := selection [0; 1; 2]%nat.
(** src/twist_measurement.cpp:37-43 TwistMeasurementMatrix. *)
Definition twist_measurement_matrix : list (list T) := selection [4; 5]%nat.

(** ** One-dimensional filters *)
(** include/ekf_localizer/ekf_localizer.hpp:55-103 Simple1DFilter; stamps in nanoseconds. *)
Record filter1d := F1 { f_init : bool; f_x : T; f_stddev : T; f_proc : T; f_time : Z }.
(** ekf_localizer.hpp:58-65, 94: the constructor and set_proc_stddev. *)
Definition f1_new (proc : T) : filter1d := F1 false (num 0) (num 1000000000) proc 0.
(** ekf_localizer.hpp:66-73 init. *)
Definition f1_init (f : filter1d) (obs obs_stddev : T) (time : Z) : filter1d := F1 true obs obs_stddev (f_proc f) time.
(** ekf_localizer.hpp:74-93 update. *)
Definition f1_update (f : filter1d) (obs obs_stddev : T) (time : Z) : filter1d :=
  if f_init f then
    let dt := seconds (Z.sub time (f_time f)) in
    let proc_d := f_proc f * dt in
    let s := d_sqrt A (f_stddev f * f_stddev f + proc_d * proc_d) in
    let gain := s * s / (s * s + obs_stddev * obs_stddev) in
    F1 true (f_x f + gain * (obs - f_x f)) (d_sqrt A (num 1 - gain) * s) (f_proc f) time
  else f1_init f obs obs_stddev time.

(** ** Measurements *)
Variable Orient : Type.
(** tf2::getYaw (src/pose_measurement.cpp:60) and getRPY (src/ekf_localizer.cpp:47-55). *)
Variable get_yaw : Orient -> T.
Variable get_roll : Orient -> T.
Variable get_pitch : Orient -> T.

(** geometry_msgs PoseWithCovarianceStamped (src/ekf_localizer.cpp:263); the stamp in
    nanoseconds. *)
Record pose_msg := PoseMsg { p_frame : string; p_stamp : Z; p_x : T; p_y : T; p_z : T; p_orient : Orient; p_cov : list T }.
(** geometry_msgs TwistWithCovarianceStamped (src/ekf_localizer.cpp:270); the components
    used. *)
Record twist_msg := TwistMsg { t_frame : string; t_stamp : Z; t_vx : T; t_wz : T; t_cov : list T }.
(** geometry_msgs TransformStamped; the components used (src/ekf_localizer.cpp:248, 251). *)
Record transform_msg := TransformMsg { tr_x : T; tr_y : T; tr_z : T; tr_rot : Orient }.

(** The methods of TimeDelayKalmanFilter (kalman_filter/src/time_delay_kalman_filter.cpp:140-176)
    and of the gate that the node uses. *)
Record kalman := Kalman {
  Filter : Type;
  kf_new : state -> matrix -> Z -> outcome Filter;
  kf_latest_x : Filter -> state;
  kf_latest_p : Filter -> matrix;
  kf_get_x : Filter -> Z -> outcome state;
  kf_predict : Filter -> state -> matrix -> matrix -> outcome Filter;
  kf_update : Filter -> list T -> list (list T) -> list (list T) -> Z -> outcome Filter;
  (* src/check.cpp:102-114 CheckMahalanobisGate(dist_max, x1, x2, cov) *)
  gate : T -> list T -> list T -> list (list T) -> bool
}.
Variable K : kalman.

(** src/check.cpp:92-100 CheckMeasurementMatrixNanInf. *)
Definition all_finite (y : list T) : bool := forallb (fun v => match d_trunc A v with Some _ => true | None => false end) y.
(** src/pose_measurement.cpp:58-62 PoseMeasurementVector. *)
Definition pose_measurement_vector (m : pose_msg) : list T := [p_x m; p_y m; normalize_yaw (get_yaw (p_orient m))].
(** src/twist_measurement.cpp:55-58 TwistMeasurementVector. *)
Definition twist_measurement_vector (m : twist_msg) : list T := [t_vx m; t_wz m].
(** src/pose_measurement.cpp:28-31 GetPoseState. *)
Definition get_pose_state (s : state) : list T := [st_x s; st_y s; st_yaw s].
(** src/twist_measurement.cpp:27-30 GetTwistState. *)
Definition get_twist_state (s : state) : list T := [st_vx s; st_wz s].
(** src/check.cpp:62-72 CheckFrameId: only a warning is shown, the callers ignore it. *)
Definition check_frame_id (frame expected : string) : bool := String.eqb frame expected.

(** src/pose_measurement.cpp:109-113: try, and keep the filter on invalid_argument. *)
Definition try_update (f : Filter K) (r : outcome (Filter K)) : outcome (Filter K) :=
  match r with ThrowInvalid => Ok f | _ => r end.

(** Parameters of a measurement (pose_measurement.hpp:46-57, twist_measurement.hpp:46-55). *)
Record mparams := MParams { m_frame : string; m_extend : Z; m_gate : T; m_steps : Z }.

(** src/pose_measurement.cpp:84-113, the loop body of PoseMeasurement::Update. *)
Definition pose_body (p : mparams) (now : Z) (dt : T) (f : Filter K) (m : pose_msg) : outcome (Filter K) :=
  let _warned := check_frame_id (p_frame m) (m_frame p) in
  stamp <- time_of (p_stamp m) ;;
  let delay_time := compute_delay_time now stamp in
  delay_step <- compute_delay_step delay_time dt ;;
  if negb (check_delay_step delay_step (m_extend p)) then Ok f else
  let y := pose_measurement_vector m in
  if negb (all_finite y) then Ok f else
  x <- kf_get_x K f delay_step ;;
  let y_ekf := get_pose_state x in
  let P_y := pose_covariance (kf_latest_p K f) in
  if negb (gate K (m_gate p) y_ekf y P_y) then Ok f else
  R <- pose_measurement_covariance (p_cov m) (m_steps p) ;;
  try_update f (kf_update K f y pose_measurement_matrix R delay_step).
(** src/twist_measurement.cpp:80-109, the loop body of TwistMeasurement::Update. *)
Definition twist_body (p : mparams) (now : Z) (dt : T) (f : Filter K) (m : twist_msg) : outcome (Filter K) :=
  let _warned := check_frame_id (t_frame m) "base_link" in
  stamp <- time_of (t_stamp m) ;;
  let delay_time := compute_delay_time now stamp in
  delay_step <- compute_delay_step delay_time dt ;;
  if negb (check_delay_step delay_step (m_extend p)) then Ok f else
  let y := twist_measurement_vector m in
  if negb (all_finite y) then Ok f else
  x <- kf_get_x K f delay_step ;;
  let y_ekf := get_twist_state x in
  let P_y := twist_covariance (kf_latest_p K f) in
  if negb (gate K (m_gate p) y_ekf y P_y) then Ok f else
  R <- twist_measurement_covariance (t_cov m) (m_steps p) ;;
  try_update f (kf_update K f y twist_measurement_matrix R delay_step).
(** src/pose_measurement.cpp:74-115 PoseMeasurement::Update; the queue's max_age_ is
    smoothing_steps_ (pose_measurement.hpp:52). *)
Definition pose_update (p : mparams) (q : queue pose_msg) (f : Filter K) (now : Z) (dt : T) : outcome (queue pose_msg * Filter K) :=
  update_loop (pose_body p now dt) (m_steps p) (length (msgs q)) 0 q f.
(** src/twist_measurement.cpp:70-111 TwistMeasurement::Update. *)
Definition twist_update (p : mparams) (q : queue twist_msg) (f : Filter K) (now : Z) (dt : T) : outcome (queue twist_msg * Filter K) :=
  update_loop (twist_body p now dt) (m_steps p) (length (msgs q)) 0 q f.

(** ** The node *)
(** ekf_localizer.hpp:141-171 EKFParameters. *)
Record params := Params {
  default_frequency : T; extend_state_step : Z; pose_frame_id : string; pose_smoothing_steps : Z;
  pose_gate_dist : T; twist_gate_dist : T; twist_smoothing_steps : Z; yaw_covariance : T;
  enable_yaw_bias_estimation : bool; proc_stddev_yaw_bias_c : T; vx_covariance : T; wz_covariance : T }.
Variable prm : params.

(** src/ekf_localizer.cpp:139-143: parameters of the two measurements. *)
Definition pose_params : mparams := MParams (pose_frame_id prm) (extend_state_step prm) (pose_gate_dist prm) (pose_smoothing_steps prm).
(** src/ekf_localizer.cpp:142-143. *)
Definition twist_params : mparams := MParams "base_link" (extend_state_step prm) (twist_gate_dist prm) (twist_smoothing_steps prm).
(** src/ekf_localizer.cpp:96-102 InitYawBias. *)
Definition init_yaw_bias : T := if enable_yaw_bias_estimation prm then proc_stddev_yaw_bias_c prm else num 0.
(** ekf_localizer.hpp:125-132 TimeScaledVariances and src/state_transition.cpp:66-71. *)
Definition process_noise (dt : T) : matrix :=
  process_noise_covariance (time_scaled_variance (yaw_covariance prm) dt) (time_scaled_variance init_yaw_bias dt)
    (time_scaled_variance (vx_covariance prm) dt) (time_scaled_variance (wz_covariance prm) dt).
(** src/ekf_localizer.cpp:104-107 InitState. *)
Definition init_state (x y yaw : T) : state := State x y yaw (num 0) (num 0) (num 0).
(** The literals 0.0001 and 0.01 (src/ekf_localizer.cpp:112). *)
Definition lit_0001 : T := num 1 / num 10000.
(** src/ekf_localizer.cpp:112. *)
Definition lit_01 : T := num 1 / num 100.
(** src/ekf_localizer.cpp:109-114 InitCovariance; a std::array has 36 elements. *)
Definition init_covariance (cov : list T) : outcome matrix :=
  c0 <- vat cov 0 ;; c1 <- vat cov 7 ;; c5 <- vat cov 35 ;;
  Ok (diagonal [c0; c1; c5; lit_0001; lit_01; lit_01]).

(** What a tick publishes (src/ekf_localizer.cpp:227-232): the transform and the odometry.
    Both carry the pose x, y, z, roll, pitch, yaw; the conversion to a quaternion
    (57-65) is in PublishModel.v. *)
Inductive output :=
| OutTransform (stamp : Z) (frame : string) (pose : list T)
| OutOdometry (stamp : Z) (frame : string) (pose : list T) (pose_cov : list T) (vx wz : T) (twist_cov : list T).

(** Members of EKFLocalizer (ekf_localizer.hpp:198-212) and all published messages. *)
Record node := Node { n_ekf : option (Filter K); n_last : option T; n_pose : queue pose_msg; n_twist : queue twist_msg;
                      n_z : filter1d; n_roll : filter1d; n_pitch : filter1d; n_out : list output }.
(** src/ekf_localizer.cpp:116-153 the constructor. *)
Definition node_new : node :=
  Node None None q_empty q_empty (f1_new (num 1)) (f1_new tenth) (f1_new tenth) [].

(** src/ekf_localizer.cpp:176-233 timerCallback; the arguments are what now() answers at
    lines 184, 206, 207, 228 and 231. *)
Definition timer_callback (n : node) (t1 t2 t3 t4 t5 : Z) : outcome node :=
  match n_ekf n with
  | None => Ok n
  | Some f0 =>
      match interval_compute (default_frequency prm) (n_last n) (seconds t1) with
      | (Ok dt, last) =>
          let x_curr := kf_latest_x K f0 in
          let x_next := predict_next_state x_curr dt in
          let M := create_state_transition_matrix x_curr dt in
          let Q := process_noise dt in
          f1 <- kf_predict K f0 x_next M Q ;;
          ' (pq, f2) <- pose_update pose_params (n_pose n) f1 t2 dt ;;
          ' (tq, f3) <- twist_update twist_params (n_twist n) f2 t3 dt ;;
          let e := kf_latest_x K f3 in
          let yaw := st_yaw e + st_bias e in
          let pose := [st_x e; st_y e; f_x (n_z n); f_x (n_roll n); f_x (n_pitch n); yaw] in
          let P := kf_latest_p K f3 in
          Ok (Node (Some f3) last pq tq (n_z n) (n_roll n) (n_pitch n)
                (n_out n ++ [OutTransform t4 (pose_frame_id prm) pose;
                             OutOdometry t5 (pose_frame_id prm) pose (pose_message_covariance P) (st_vx e) (st_wz e) (twist_message_covariance P)]))
      | (ThrowInvalid, last) => Ok (Node (n_ekf n) last (n_pose n) (n_twist n) (n_z n) (n_roll n) (n_pitch n) (n_out n))
      | (ThrowRange, _) => ThrowRange
      | (ThrowOther, _) => ThrowOther
      | (AssertFail, _) => AssertFail
      | (UB, _) => UB
      end
  end.

(** src/ekf_localizer.cpp:275-289 updateSimple1DFilters. *)
Definition update_simple_filters (n : node) (m : pose_msg) : outcome node :=
  c2 <- vat (p_cov m) 14 ;; c3 <- vat (p_cov m) 21 ;; c4 <- vat (p_cov m) 28 ;;
  t <- time_of (p_stamp m) ;;
  Ok (Node (n_ekf n) (n_last n) (n_pose n) (n_twist n)
        (f1_update (n_z n) (p_z m) (d_sqrt A c2) t)
        (f1_update (n_roll n) (get_roll (p_orient m)) (d_sqrt A c3) t)
        (f1_update (n_pitch n) (get_pitch (p_orient m)) (d_sqrt A c4) t) (n_out n)).

(** src/ekf_localizer.cpp:235-261 callbackInitialPose; [tf] is what LookupTransform
    (src/tf.cpp:22-38) answers.  Access through an empty optional (248, 251) is undefined. *)
Definition callback_initial_pose (n : node) (m : pose_msg) (tf : option transform_msg) : outcome node :=
  parent <- erase_begin_slash (pose_frame_id prm) ;;
  child <- erase_begin_slash (p_frame m) ;;
  match tf with
  | None => UB
  | Some tr =>
      let x := p_x m + tr_x tr in
      let y := p_y m + tr_y tr in
      let yaw := get_yaw (p_orient m) + get_yaw (tr_rot tr) in
      P <- init_covariance (p_cov m) ;;
      f <- kf_new K (init_state x y yaw) P (extend_state_step prm) ;;
      let n1 := Node (Some f) (n_last n) (n_pose n) (n_twist n) (n_z n) (n_roll n) (n_pitch n) (n_out n) in
      n2 <- update_simple_filters n1 m ;;
      Ok (Node (n_ekf n2) (n_last n2) (q_clear (n_pose n2)) (q_clear (n_twist n2)) (n_z n2) (n_roll n2) (n_pitch n2) (n_out n2))
  end.
(** src/ekf_localizer.cpp:263-268 callbackPoseWithCovariance. *)
Definition callback_pose (n : node) (m : pose_msg) : outcome node :=
  update_simple_filters (Node (n_ekf n) (n_last n) (q_push (n_pose n) m) (n_twist n) (n_z n) (n_roll n) (n_pitch n) (n_out n)) m.
(** src/ekf_localizer.cpp:270-273 callbackTwistWithCovariance. *)
Definition callback_twist (n : node) (m : twist_msg) : outcome node :=
  Ok (Node (n_ekf n) (n_last n) (n_pose n) (q_push (n_twist n) m) (n_z n) (n_roll n) (n_pitch n) (n_out n)).

(** Callbacks in the order in which the executor of src/ekf_localizer_node.cpp:25 runs
    them. *)
Inductive event :=
| EvTimer (t1 t2 t3 t4 t5 : Z)
| EvInitialPose (m : pose_msg) (tf : option transform_msg)
| EvPose (m : pose_msg)
| EvTwist (m : twist_msg).
(** One callback (src/ekf_localizer.cpp:121-129, 146-148). *)
Definition node_step (n : node) (e : event) : outcome node :=
  match e with
  | EvTimer t1 t2 t3 t4 t5 => timer_callback n t1 t2 t3 t4 t5
  | EvInitialPose m tf => callback_initial_pose n m tf
  | EvPose m => callback_pose n m
  | EvTwist m => callback_twist n m
  end.
(** The node after a history of callbacks (src/ekf_localizer_node.cpp:23-25). *)
Definition node_run (h : list event) : outcome node := foldM node_step node_new h.
End Ekf.

(** roundf of the IEEE instance: conversion to float, round half away from zero (C11
    roundf, delay.hpp:30). *)
Definition roundf64 (x : b64) : option Z :=
  let f := conv32 x in
  match f with
  | B754_infinity _ | B754_nan => None
  | B754_zero _ | B754_finite _ _ _ _ => Some (Btrunc (@Bnearbyint 24 128 emax32 mode_NA f))
  end.
