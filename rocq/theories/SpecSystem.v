(** Vocabulary of C135: what reaches the localization system while the vehicle is parked. *)
From Coq Require Import List ZArith Reals.
From Verif Require Import Base Arith EkfModel PoseModel SpecPose SpecCycle SystemModel.
Import ListNotations.
Local Open Scope R_scope.
Unset Asymmetric Patterns.

Section Parked.
Variable Scan : Type.
Variable localize : Scan -> pose -> outcome pose.
(** A scan that tells nothing at the pose T: the lidar localizer started there stays there. *)
Definition tells_nothing (T : pose) (scan : Scan) : Prop := localize scan T = Ok T.
(** What may happen while the vehicle is parked at T and nothing is measured: ticks of the filter,
    twists without motion, scans that tell nothing, and the messages between the two nodes. *)
Definition parked_event (T : pose) (e : system_event Scan) : Prop :=
  match e with
  | SysTick _ _ _ _ _ _ => True
  | SysInitial _ _ _ => False
  | SysTwist _ m => sound_twist m /\ t_vx _ m = 0 /\ t_wz _ m = 0
  | SysScan _ _ scan => tells_nothing T scan
  | SysOdometry _ _ | SysPose _ _ => True
  end.
(** What the clock reads at the start of each tick. *)
Definition clock (h : list (system_event Scan)) : list Z :=
  flat_map (fun e => match e with SysTick _ t1 _ _ _ _ => [t1] | _ => [] end) h.
End Parked.
(** The last message is an odometry message with this pose and this variance of x. *)
Definition ends_with (out : list (output exact)) (p : list R) (variance : R) : Prop :=
  exists before stamp frame pc vx wz tc, out = before ++ [OutOdometry exact stamp frame p pc vx wz tc] /\ nth 0 pc 0 = variance.
