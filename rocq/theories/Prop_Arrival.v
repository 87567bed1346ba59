(** Property C114: pose and twist messages that arrive between the same two events of the EKF
    localizer may arrive in either order. *)
From Coq Require Import Reals Lra Lia PeanoNat List Bool ZArith String.
From Verif Require Import Base Arith SpecReal AngleProofs EkfModel SpecEkf EkfProofs IntervalProofs Prop_Interval Prop_Queue EkfNodeProofs KalmanModel SpecKalman
  SpecArrival ArrivalProofs Prop_EkfNode Prop_Kalman Prop_Fusion Prop_Bias.
Import ListNotations.

(** The node ends in the same state, having published the same messages, or fails in the same
    way; for any arithmetic, any orientation conversion and any filter. *)
Theorem C114_arrival_order : forall (A : arith) roundf sin cos atan2 neg Orient get_yaw get_roll get_pitch (K : kalman A) prm h1 h2,
  same_up_to_arrival h1 h2 ->
  node_run A roundf sin cos atan2 neg Orient get_yaw get_roll get_pitch K prm h1 =
  node_run A roundf sin cos atan2 neg Orient get_yaw get_roll get_pitch K prm h2.
Proof. intros. apply arrival. assumption. Qed.

(** Two histories of five events that differ in this way and are carried out: two ticks, with
    a pose and a twist between them. *)
Definition pose_first : list (event exact R) :=
  [EvInitialPose _ _ (still_pose 0 0 0) (Some ex_tf); every 1000000000; EvPose _ _ (still_pose 2000000000 1 1);
   EvTwist _ _ (forward_twist 2000000000); every 2000000000].
Definition twist_first : list (event exact R) :=
  [EvInitialPose _ _ (still_pose 0 0 0) (Some ex_tf); every 1000000000; EvTwist _ _ (forward_twist 2000000000);
   EvPose _ _ (still_pose 2000000000 1 1); every 2000000000].
Example ex_C114 : forall inverse (_ : inverts inverse) junk,
  same_up_to_arrival pose_first twist_first /\ pose_first <> twist_first /\
  exists n, node_run exact roundf_exact sin cos atan2 Ropp R (fun r => r) (fun _ => 0%R) (fun _ => 0%R) (ekf_kalman exact inverse junk) bias_prm pose_first = Ok n.
Proof.
  intros inverse Hinv junk. split; [split; reflexivity|]. split; [discriminate|].
  eapply C81_defined_partial with (lo := 0%Z) (hi := 10000000000%Z) (g := 1000000000%Z); try (cbn; lia); try (cbn; lra); try discriminate.
  cbn. unfold good_pose, good_twist. cbn. repeat split; try lia; try discriminate.
Qed.
Print Assumptions C114_arrival_order.
