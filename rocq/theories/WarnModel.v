(** Model of the warnings of the EKF localizer, /repo/ekf_localizer (paths below are
    relative to it): which are raised while a measurement is handled, and which of them the
    log shows.  The handling itself is in EkfModel.v. *)
From Coq Require Import String List ZArith Bool.
From Verif Require Import Base Arith EkfModel.
Import ListNotations.
Open Scope Z_scope.

(** The texts of src/check.cpp:26, 35, 46, 54, 59, and the text of the exception in
    src/pose_measurement.cpp:112 and src/twist_measurement.cpp:108; the numbers and names
    printed in them are left out. *)
Inductive reason := FutureStamp | TooOld | WrongFrame | OverGate | NotFinite | UpdateFailed.
(** A call of Warn (include/ekf_localizer/warning.hpp:36-39), without milliseconds, or of
    WarnThrottle (warning.hpp:46-54), with its milliseconds. *)
Definition call : Type := (option Z * reason)%type.
(** src/check.cpp:21-28 ShowDelayTimeWarning. *)
Definition show_delay_time : call := (Some 1000, FutureStamp).
(** src/check.cpp:30-37 ShowDelayStepWarning. *)
Definition show_delay_step : call := (Some 1000, TooOld).
(** src/check.cpp:39-47 ShowFrameIdWarning. *)
Definition show_frame_id : call := (Some 2000, WrongFrame).
(** src/check.cpp:50-55 ShowMahalanobisGateWarning. *)
Definition show_gate : call := (Some 2000, OverGate).
(** src/check.cpp:57-60 ShowMeasurementMatrixNanInfWarning. *)
Definition show_nan_inf : call := (None, NotFinite).
(** src/pose_measurement.cpp:112, src/twist_measurement.cpp:108. *)
Definition show_update : call := (None, UpdateFailed).

(** A check of src/check.cpp:62-114: the warning unless the result is good. *)
Definition warn_unless (good : bool) (c : call) : list call := if good then [] else [c].
(** The calls so far, then those of the rest (sequencing in src/pose_measurement.cpp:84-113). *)
Definition say {X} (w : list call) (r : list call * outcome X) : list call * outcome X := (w ++ fst r, snd r).
(** A statement that may throw, then the rest (src/pose_measurement.cpp:84-113). *)
Definition andthen {X Y} (m : outcome X) (k : X -> list call * outcome Y) : list call * outcome Y :=
  match m with
  | Ok x => k x
  | ThrowInvalid => ([], ThrowInvalid)
  | ThrowRange => ([], ThrowRange)
  | ThrowOther => ([], ThrowOther)
  | AssertFail => ([], AssertFail)
  | UB => ([], UB)
  end.

Section Warn.
Variable A : arith.
Notation T := (D A).
Variable roundf : T -> option Z.
Variable sin cos : T -> T.
Variable atan2 : T -> T -> T.
Variable Orient : Type.
Variable get_yaw : Orient -> T.
Variable K : kalman A.
Variable prm : params A.

(** src/pose_measurement.cpp:109-113: the warning of the exception. *)
Definition try_update_warn (f : Filter A K) (r : outcome (Filter A K)) : list call * outcome (Filter A K) :=
  match r with ThrowInvalid => ([show_update], Ok f) | _ => ([], r) end.

(** src/pose_measurement.cpp:84-113 with the calls of warning_; delay_time >= 0.0
    (src/check.cpp:76) is false for NaN. *)
Definition pose_warn (p : mparams A) (now : Z) (dt : T) (f : Filter A K) (m : pose_msg A Orient) : list call * outcome (Filter A K) :=
  say (warn_unless (check_frame_id (p_frame A Orient m) (m_frame A p)) show_frame_id)
  (andthen (time_of (p_stamp A Orient m)) (fun stamp =>
   let delay_time := compute_delay_time A now stamp in
   say (warn_unless (d_leb A (d_of_Z A 0) delay_time) show_delay_time)
   (andthen (compute_delay_step A roundf delay_time dt) (fun delay_step =>
    let in_time := check_delay_step delay_step (m_extend A p) in
    say (warn_unless in_time show_delay_step)
    (if negb in_time then ([], Ok f) else
     let y := pose_measurement_vector A sin cos atan2 Orient get_yaw m in
     let finite := all_finite A y in
     say (warn_unless finite show_nan_inf)
     (if negb finite then ([], Ok f) else
      andthen (kf_get_x A K f delay_step) (fun x =>
      let inside := gate A K (m_gate A p) (get_pose_state A x) y (pose_covariance A (kf_latest_p A K f)) in
      say (warn_unless inside show_gate)
      (if negb inside then ([], Ok f) else
       andthen (pose_measurement_covariance A (p_cov A Orient m) (m_steps A p)) (fun R =>
       try_update_warn f (kf_update A K f y (pose_measurement_matrix A) R delay_step)))))))))).
(** src/twist_measurement.cpp:80-109 with the calls of warning_. *)
Definition twist_warn (p : mparams A) (now : Z) (dt : T) (f : Filter A K) (m : twist_msg A) : list call * outcome (Filter A K) :=
  say (warn_unless (check_frame_id (t_frame A m) "base_link") show_frame_id)
  (andthen (time_of (t_stamp A m)) (fun stamp =>
   let delay_time := compute_delay_time A now stamp in
   say (warn_unless (d_leb A (d_of_Z A 0) delay_time) show_delay_time)
   (andthen (compute_delay_step A roundf delay_time dt) (fun delay_step =>
    let in_time := check_delay_step delay_step (m_extend A p) in
    say (warn_unless in_time show_delay_step)
    (if negb in_time then ([], Ok f) else
     let y := twist_measurement_vector A m in
     let finite := all_finite A y in
     say (warn_unless finite show_nan_inf)
     (if negb finite then ([], Ok f) else
      andthen (kf_get_x A K f delay_step) (fun x =>
      let inside := gate A K (m_gate A p) (get_twist_state A x) y (twist_covariance A (kf_latest_p A K f)) in
      say (warn_unless inside show_gate)
      (if negb inside then ([], Ok f) else
       andthen (twist_measurement_covariance A (t_cov A m) (m_steps A p)) (fun R =>
       try_update_warn f (kf_update A K f y (twist_measurement_matrix A) R delay_step)))))))))).

(** One pass through the loop of src/pose_measurement.cpp:81-114 or
    src/twist_measurement.cpp:77-110: the filter, the arguments of Update, the message. *)
Inductive handled :=
| HPose (f : Filter A K) (now : Z) (dt : T) (m : pose_msg A Orient)
| HTwist (f : Filter A K) (now : Z) (dt : T) (m : twist_msg A).
(** The warnings raised and the filter afterwards, with the parameters of
    src/ekf_localizer.cpp:139-143. *)
Definition handle (h : handled) : list call * outcome (Filter A K) :=
  match h with
  | HPose f now dt m => pose_warn (pose_params A prm) now dt f m
  | HTwist f now dt m => twist_warn (twist_params A prm) now dt f m
  end.
(** All warnings raised while the measurements [hs] are handled one after the other
    (src/ekf_localizer.cpp:206-207). *)
Definition raised (hs : list handled) : list call := flat_map (fun h => fst (handle h)) hs.
End Warn.

(** ** The log *)
Section Log.
(** The nanoseconds for which RCLCPP_WARN_THROTTLE (warning.hpp:50-53) stays silent, from
    the milliseconds it is given.  In some releases of rcutils they are those of the first
    call ever, so this is a parameter. *)
Variable period : Z -> Z.
(** What the clock of the node shows at the i-th call (warning.hpp:51). *)
Variable clock : nat -> Z.

(** warning.hpp:36-54: the lines in the log, with their times, for the calls from the i-th
    on.  RCLCPP_WARN_THROTTLE keeps the time of its last line in a static variable of the
    place where the macro stands; since it stands in WarnThrottle, this one variable,
    [last], serves all warnings of the process.  It starts at 0. *)
Fixpoint log (i : nat) (last : Z) (cs : list call) : list (Z * reason) :=
  match cs with
  | [] => []
  | (None, r) :: rest => (clock i, r) :: log (S i) last rest
  | (Some ms, r) :: rest =>
      if last + period ms <=? clock i then (clock i, r) :: log (S i) (clock i) rest
      else log (S i) last rest
  end.
(** The log from the start of the process (warning.hpp:46-54). *)
Definition log_from_start (cs : list call) : list (Z * reason) := log 0 0 cs.
End Log.
