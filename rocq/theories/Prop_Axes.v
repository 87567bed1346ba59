(** Property C106, the part that holds: with twists only and an initial uncertainty equal in
    all directions the axes of the map do not matter. *)
From Coq Require Import Reals Lra Lia PeanoNat List Bool ZArith String.
From Verif Require Import Base Arith SpecReal EkfModel EkfProofs SpecEkf IntervalProofs Prop_Interval EkfNodeProofs KalmanModel SpecKalman SpecFusion Prop_Queue Prop_EkfNode Prop_Kalman BiasProofs Prop_Bias SpecOrigin OriginProofs
  TurnNodeProofs Prop_Origin Prop_Initial.
Import ListNotations.
Local Open Scope R_scope.
Unset Asymmetric Patterns.

Section Axes.
Variable inverse : nat -> (nat -> nat -> R) -> option (nat -> nat -> R).
Variable junk : nat -> nat -> R.
Variable roundf : R -> option Z.
Variable Orient : Type.
Variable get_yaw get_roll get_pitch : Orient -> R.
Variable prm : params exact.
Notation pub := (published inverse junk roundf sin cos atan2 Orient get_yaw get_roll get_pitch prm).

Theorem C106_twists_partial : forall theta turn h,
  (forall o, same_heading (get_yaw (turn o)) (get_yaw o + theta) /\ get_roll (turn o) = get_roll o /\ get_pitch (turn o) = get_pitch o) ->
  Forall (even_event Orient) h ->
  match pub h with
  | Ok out => exists out', pub (map (turned_event Orient theta turn) h) = Ok out' /\ Forall2 (turned_output theta) out out'
  | failure => pub (map (turned_event Orient theta turn) h) = failure
  end.
Proof.
  intros theta turn h HT HE.
  assert (R := run_turned theta inverse junk roundf Orient get_yaw get_roll get_pitch turn (fun o => proj1 (HT o)) (fun o => proj1 (proj2 (HT o))) (fun o => proj2 (proj2 (HT o))) prm h HE).
  cbn zeta in R. unfold published.
  destruct (node_run _ _ _ _ _ _ _ _ _ _ _ _ h) as [n| | | | |], (node_run _ _ _ _ _ _ _ _ _ _ _ _ (map _ h)) as [n'| | | | |]; cbn in R |- *; try contradiction; try reflexivity.
  exists (n_out _ _ _ n'). split; [reflexivity|exact R].
Qed.
End Axes.
Print Assumptions C106_twists_partial.

(** A vehicle at (1, 2) heading along the x axis with a speed of 1 measured, and a tick; the
    axes turned by a quarter. *)
Definition even_history : list (event exact R) :=
  [EvInitialPose _ _ (still_pose 0 1 2) (Some ex_tf); EvTwist _ _ (forward_twist 1000000000); every 1000000000].
Example C106_case : Forall (even_event R) even_history /\
  (forall o : R, same_heading (o + PI / 2) (o + PI / 2) /\ 0 = 0 /\ 0 = 0) /\
  nth_error (map (turned_event R (PI / 2) (fun yaw => yaw + PI / 2)) even_history) 0 =
    Some (EvInitialPose _ _ (PoseMsg exact R "map" 0 (- 2) 1 0 (PI / 2) large36) (Some ex_tf)) /\
  forall inverse junk, exists out, published inverse junk roundf_exact sin cos atan2 R (fun r => r) (fun _ => 0) (fun _ => 0) bias_prm even_history = Ok out.
Proof.
  split; [|split; [|split]].
  - unfold even_history. repeat constructor; try reflexivity; cbn; try reflexivity; injection H as <-; reflexivity.
  - intros o. split; [exists 0%Z; lra|auto].
  - cbn -[PI cos sin turned_covariance large36]. unfold turned_pose, still_pose. cbn [p_frame p_stamp p_x p_y p_z p_orient p_cov]. rewrite cos_PI2, sin_PI2.
    replace (0 * 1 - 1 * 2) with (- 2) by lra. replace (1 * 1 + 0 * 2) with 1 by lra. rewrite Rplus_0_l.
    replace (turned_covariance (PI / 2) large36) with large36; [reflexivity|].
    symmetry. unfold turned_covariance, large36. apply map_ext_in. intros k Hk. apply in_seq in Hk.
    do 36 (destruct k as [|k]; [cbn -[PI cos sin]; rewrite ?cos_PI2, ?sin_PI2; ring|]). lia.
  - intros inverse junk. unfold published.
    assert (E : exists n, node_run exact roundf_exact sin cos atan2 Ropp R (fun r => r) (fun _ => 0) (fun _ => 0) (ekf_kalman exact inverse junk) bias_prm even_history = Ok n).
    { eapply C81_defined_partial with (lo := 0%Z) (hi := 10000000000%Z) (g := 1000000000%Z); try (cbn; lia); try (cbn; lra); try discriminate.
      cbn. unfold good_pose, good_twist. cbn. repeat split; try lia; try discriminate. }
    destruct E as [n ->]. eexists. reflexivity.
Qed.
