(** What C141 speaks about: when a measurement is fused, and when a warning is justified. *)
From Coq Require Import String List ZArith Bool.
From Verif Require Import Base Arith EkfModel WarnModel.
Import ListNotations.
Open Scope Z_scope.

(** One or two seconds of silence after a line, as asked for, or always the same. *)
Definition usual_period (period : Z -> Z) : Prop :=
  forall ms, ms = 1000 \/ ms = 2000 -> 1000000000 <= period ms <= 2000000000.
Definition as_asked (ms : Z) : Z := ms * 1000000.
Definition as_first_asked (_ : Z) : Z := 1000000000.

(** The reasons for which a measurement is dropped; with the others it is still used. *)
Definition dropping (r : reason) : Prop := r = TooOld \/ r = NotFinite \/ r = OverGate \/ r = UpdateFailed.

Section Spec.
Variable A : arith.
Variable roundf : D A -> option Z.
Variable sin cos : D A -> D A.
Variable atan2 : D A -> D A -> D A.
Variable Orient : Type.
Variable get_yaw : Orient -> D A.
Variable K : kalman A.
Variable prm : params A.
Notation handled := (handled A Orient K).

(** The parts of a measurement. *)
Definition filter_of (h : handled) : Filter A K := match h with HPose _ _ _ f _ _ _ => f | HTwist _ _ _ f _ _ _ => f end.
Definition frame_of (h : handled) : string := match h with HPose _ _ _ _ _ _ m => p_frame A Orient m | HTwist _ _ _ _ _ _ m => t_frame A m end.
Definition frame_wanted (h : handled) : string := match h with HPose _ _ _ _ _ _ _ => pose_frame_id A prm | HTwist _ _ _ _ _ _ _ => "base_link"%string end.
(** The age of the measurement in seconds. *)
Definition age (h : handled) : D A :=
  match h with
  | HPose _ _ _ _ now _ m => d_div A (d_of_Z A (now - p_stamp A Orient m)) (d_of_Z A 1000000000)
  | HTwist _ _ _ _ now _ m => d_div A (d_of_Z A (now - t_stamp A m)) (d_of_Z A 1000000000)
  end.
Definition interval_of (h : handled) : D A := match h with HPose _ _ _ _ _ dt _ => dt | HTwist _ _ _ _ _ dt _ => dt end.
(** The values measured, those of the state, their covariance, and the distance allowed. *)
Definition values (h : handled) : list (D A) :=
  match h with
  | HPose _ _ _ _ _ _ m => let yaw := get_yaw (p_orient A Orient m) in [p_x A Orient m; p_y A Orient m; atan2 (sin yaw) (cos yaw)]
  | HTwist _ _ _ _ _ _ m => [t_vx A m; t_wz A m]
  end.
Definition compared (h : handled) (s : state A) : list (D A) :=
  match h with
  | HPose _ _ _ _ _ _ _ => [st_x A s; st_y A s; st_yaw A s]
  | HTwist _ _ _ _ _ _ _ => [st_vx A s; st_wz A s]
  end.
Definition spread (h : handled) : list (list (D A)) :=
  let P := kf_latest_p A K (filter_of h) in
  match h with
  | HPose _ _ _ _ _ _ _ => [[P 0 0; P 0 1; P 0 2]; [P 1 0; P 1 1; P 1 2]; [P 2 0; P 2 1; P 2 2]]%nat
  | HTwist _ _ _ _ _ _ _ => [[P 4 4; P 4 5]; [P 5 4; P 5 5]]%nat
  end.
Definition allowed (h : handled) : D A := match h with HPose _ _ _ _ _ _ _ => pose_gate_dist A prm | HTwist _ _ _ _ _ _ _ => twist_gate_dist A prm end.

(** Which components of the state are measured, and with which covariance: entries x, y,
    yaw, or vx, wz, of the message's 6 by 6 covariance times the number of smoothing steps
    as an unsigned number. *)
Definition reads (h : handled) : list (list (D A)) :=
  let i := d_of_Z A 1 in let o := d_of_Z A 0 in
  match h with
  | HPose _ _ _ _ _ _ _ => [[i; o; o; o; o; o]; [o; i; o; o; o; o]; [o; o; i; o; o; o]]
  | HTwist _ _ _ _ _ _ _ => [[o; o; o; o; i; o]; [o; o; o; o; o; i]]
  end.
Definition noise (h : handled) : list (list (D A)) :=
  let entry cov steps k := d_mul A (nth k cov (d_of_Z A 0)) (d_of_Z A (steps mod 2 ^ 64)) in
  match h with
  | HPose _ _ _ _ _ _ m => map (map (entry (p_cov A Orient m) (pose_smoothing_steps A prm))) [[0; 1; 5]; [6; 7; 11]; [30; 31; 35]]%nat
  | HTwist _ _ _ _ _ _ m => map (map (entry (t_cov A m) (twist_smoothing_steps A prm))) [[0; 5]; [30; 35]]%nat
  end.

(** The number of cycles by which the measurement is late. *)
Definition cycles (h : handled) (d : Z) : Prop := compute_delay_step A roundf (age h) (interval_of h) = Ok d.
(** Why a warning may be shown. *)
Definition justified (r : reason) (h : handled) : Prop :=
  match r with
  | WrongFrame => frame_of h <> frame_wanted h
  | FutureStamp => d_leb A (d_of_Z A 0) (age h) = false
  | TooOld => exists d, cycles h d /\ extend_state_step A prm <= d
  | NotFinite => exists v, In v (values h) /\ d_trunc A v = None
  | OverGate => exists d s, cycles h d /\ kf_get_x A K (filter_of h) d = Ok s /\
                  gate A K (allowed h) (compared h s) (values h) (spread h) = false
  | UpdateFailed => exists d, cycles h d /\ kf_update A K (filter_of h) (values h) (reads h) (noise h) d = ThrowInvalid
  end.
(** The measurement ended up in the filter f'. *)
Definition fused (h : handled) (f' : Filter A K) : Prop :=
  exists d, cycles h d /\ kf_update A K (filter_of h) (values h) (reads h) (noise h) d = Ok f'.
(** What EkfModel.v says of the filter afterwards. *)
Definition outcome_of (h : handled) : outcome (Filter A K) :=
  match h with
  | HPose _ _ _ f now dt m => pose_body A roundf sin cos atan2 Orient get_yaw K (pose_params A prm) now dt f m
  | HTwist _ _ _ f now dt m => twist_body A roundf K (twist_params A prm) now dt f m
  end.
End Spec.
