(** Histories of the EKF localizer that differ in how pose and twist messages interleave.
    Nothing in this file models code. *)
From Coq Require Import List ZArith.
From Verif Require Import Arith EkfModel.
Import ListNotations.

(** The history without its twist messages, and without its pose messages. *)
Definition without_twists {A Orient} (h : list (event A Orient)) : list (event A Orient) :=
  filter (fun e => match e with EvTwist _ _ _ => false | _ => true end) h.
Definition without_poses {A Orient} (h : list (event A Orient)) : list (event A Orient) :=
  filter (fun e => match e with EvPose _ _ _ => false | _ => true end) h.

(** The same events, where only the interleaving of pose messages with twist messages between
    two other events may differ. *)
Definition same_up_to_arrival {A Orient} (h1 h2 : list (event A Orient)) : Prop :=
  without_twists h1 = without_twists h2 /\ without_poses h1 = without_poses h2.
