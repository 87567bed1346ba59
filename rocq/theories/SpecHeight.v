(** Vocabulary of C97-C99: the part of the published pose that the one-dimensional filters of
    the EKF localizer estimate, which is height, roll and pitch. *)
From Coq Require Import List ZArith Reals.
From Flocq Require Import Core IEEE754.BinarySingleNaN.
From Verif Require Import Base Arith SpecIeee EkfModel.
Import ListNotations.

Section Any.
Variable A : arith.
Variable Orient : Type.
Variable get_roll get_pitch : Orient -> D A.
(** The poses among the messages of a history, initial poses included. *)
Definition poses_of (h : list (event A Orient)) : list (pose_msg A Orient) :=
  flat_map (fun e => match e with EvInitialPose _ _ m _ => [m] | EvPose _ _ m => [m] | _ => [] end) h.
(** The pose x, y, z, roll, pitch, yaw in a published message. *)
Definition pose_in (o : output A) : list (D A) :=
  match o with OutTransform _ _ _ p => p | OutOdometry _ _ _ p _ _ _ _ => p end.
Definition entry (k : nat) (o : output A) : D A := nth k (pose_in o) (d_of_Z A 0).
(** Height, roll and pitch of a pose and their variances: the diagonal of the 6 x 6 array. *)
Definition given (k : nat) (m : pose_msg A Orient) : D A :=
  match k with 2%nat => p_z _ _ m | 3%nat => get_roll (p_orient _ _ m) | _ => get_pitch (p_orient _ _ m) end.
Definition variance (k : nat) (m : pose_msg A Orient) : D A := nth (7 * k)%nat (p_cov _ _ m) (d_of_Z A 0).
End Any.

(** In doubles: a number of moderate size; a pose whose height, roll and pitch are, with
    variances that are neither negative nor extreme, and a stamp of at most 146 years. *)
Definition at_most (b : R) (x : b64) : Prop := fin x /\ (Rabs (val x) <= b)%R.
Definition tame (acosf : b64 -> b64) (Orient : Type) (get_roll get_pitch : Orient -> b64) (m : pose_msg (ieee acosf) Orient) : Prop :=
  (0 <= p_stamp _ _ m < 2 ^ 62)%Z /\
  forall k, (2 <= k <= 4)%nat ->
    at_most (bpow radix2 1000) (given (ieee acosf) Orient get_roll get_pitch k m) /\
    fin (variance (ieee acosf) Orient k m) /\ (bpow radix2 (-200) <= val (variance (ieee acosf) Orient k m) <= bpow radix2 200)%R.

(** ** A textbook filter for one number *)
(** An estimate or a measurement: value, variance, time in nanoseconds.  Between two
    measurements the variance grows by the square of q times the seconds passed; then the
    value moves towards the measured one by the share of its variance in the total. *)
Local Open Scope R_scope.
Definition dated : Type := R * R * Z.
Definition mean (s : dated) : R := fst (fst s).
Definition fuse (q : R) (s o : dated) : dated :=
  let '(x, p, t0) := s in
  let '(z, v, t) := o in
  let p' := p + (q * (IZR (t - t0) / 1000000000)) ^ 2 in
  let share := p' / (p' + v) in
  (x + share * (z - x), (1 - share) * p', t).
(** The first measurement is taken as it is. *)
Definition tracks (q : R) (l : list dated) (s : dated) : Prop :=
  match l with [] => False | o :: l => s = fold_left (fuse q) l o end.
(** Deviation per second: 1 for the height, 1/10 for roll and pitch. *)
Definition drift (k : nat) : R := match k with 2%nat => 1 | _ => 1 / 10 end.
Section Exact.
Variable Orient : Type.
Variable get_roll get_pitch : Orient -> R.
Definition measured (k : nat) (m : pose_msg exact Orient) : dated :=
  (given exact Orient get_roll get_pitch k m, variance exact Orient k m, p_stamp _ _ m).
Definition uncertain (m : pose_msg exact Orient) : Prop := forall k, (2 <= k <= 4)%nat -> 0 < variance exact Orient k m.
End Exact.
