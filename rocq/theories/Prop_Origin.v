(** Properties C104-C106: the origin of the map, the origin of time and the axes of the map,
    in exact arithmetic with the repository's time-delay filter. *)
From Coq Require Import Reals Lra Lia PeanoNat List Bool ZArith String.
From Verif Require Import Base Arith SpecReal EkfModel SpecEkf EkfProofs IntervalProofs Prop_Interval Prop_Queue EkfNodeProofs KalmanModel SpecKalman SpecFusion SpecCycle
  StackProofs QueueProofs Prop_EkfNode Prop_Kalman FusionProofs FusionNodeProofs Prop_Fusion BiasProofs Prop_Bias SpecOrigin OriginProofs TurnProofs.
Import ListNotations.
Local Open Scope R_scope.

Section Origins.
Variable inverse : nat -> (nat -> nat -> R) -> option (nat -> nat -> R).
Variable junk : nat -> nat -> R.
Variable roundf : R -> option Z.
Variables sin cos : R -> R.
Variable atan2 : R -> R -> R.
Variable Orient : Type.
Variable get_yaw get_roll get_pitch : Orient -> R.
Variable prm : params exact.
Notation K := (ekf_kalman exact inverse junk).
(** Everything published during a history, or how it ends. *)
Definition published (h : list (event exact Orient)) : outcome (list (output exact)) :=
  n <- node_run exact roundf sin cos atan2 Ropp Orient get_yaw get_roll get_pitch K prm h ;; Ok (n_out _ _ _ n).

(** ** C104 *)
Theorem C104_map_origin : forall a b c h,
  published (map (moved_event Orient a b c 0) h) = (out <- published h ;; Ok (map (moved_output a b c 0) out)).
Proof.
  intros a b c h. unfold published.
  rewrite (run_moved a b c 0 inverse junk roundf sin cos atan2 Ropp Orient get_yaw get_roll get_pitch prm h).
  - destruct (node_run _ _ _ _ _ _ _ _ _ _ _ _ h); reflexivity.
  - apply Forall_forall. intros e _. apply Forall_forall. intros t _. unfold stamp_ok. lia.
Qed.

(** ** C105 *)
Theorem C105_time_origin : forall tau h,
  Forall (fun e => Forall (fun t => 0 <= t /\ 0 <= t + tau)%Z (stamps Orient e)) h ->
  published (map (moved_event Orient 0 0 0 tau) h) = (out <- published h ;; Ok (map (moved_output 0 0 0 tau) out)).
Proof.
  intros tau h H. unfold published.
  rewrite (run_moved 0 0 0 tau inverse junk roundf sin cos atan2 Ropp Orient get_yaw get_roll get_pitch prm h).
  - destruct (node_run _ _ _ _ _ _ _ _ _ _ _ _ h); reflexivity.
  - apply (Forall_impl _ (P := fun e => Forall (fun t => 0 <= t /\ 0 <= t + tau)%Z (stamps Orient e))); [|exact H].
    intros e He. apply (Forall_impl _ (P := fun t => 0 <= t /\ 0 <= t + tau)%Z); [|exact He]. unfold stamp_ok. lia.
Qed.
End Origins.
Print Assumptions C104_map_origin.
Print Assumptions C105_time_origin.

(** A vehicle at (1, 2) and a tick: in coordinates and times of another origin the same is
    published at (11, 22). *)
Example C104_C105_case : forall inverse junk,
  let pub := published inverse junk roundf_exact Rtrigo_def.sin Rtrigo_def.cos atan2 R (fun r => r) (fun _ => 0) (fun _ => 0) bias_prm in
  let h := [EvInitialPose _ _ (ex_pose 0) (Some ex_tf); every 1000000000] in
  (exists frame p o, pub h = Ok [OutTransform _ 1000000000 frame p; o] /\ nth 0 p 0 = 1 /\ nth 1 p 0 = 2) /\
  (exists frame p o, pub (map (moved_event R 10 20 0 5) h) = Ok [OutTransform _ 1000000005 frame p; o] /\ nth 0 p 0 = 11 /\ nth 1 p 0 = 22) /\
  Forall (fun e => Forall (fun t => 0 <= t /\ 0 <= t + 5)%Z (stamps R e)) h.
Proof.
  intros inverse junk pub h. split; [|split].
  - unfold pub, published, node_run, h. cbn. do 3 eexists. split; [reflexivity|]. change (Pos.to_nat 1) with 1%nat. cbn. split; ring.
  - unfold pub, published, node_run, h. cbn. do 3 eexists. split; [reflexivity|]. change (Pos.to_nat 1) with 1%nat. cbn. split; ring.
  - unfold h. repeat constructor; cbn; lia.
Qed.

(** ** C106 *)
(** The vehicle stands at the origin.  Its initial heading is against the x axis, and a pose
    says that it is along the negative y axis, a quarter turn away. *)
Definition facing_pose (stamp : Z) (yaw : R) : pose_msg exact R := PoseMsg exact R "map" stamp 0 0 0 yaw large36.
Lemma facing_sound t y : sound_pose R (facing_pose t y).
Proof. destruct (still_pose_sound t 0 0) as [H1 H2]. split; [exact H1|exact H2]. Qed.

Lemma turned_large : turned_covariance (- PI) large36 = large36.
Proof.
  unfold turned_covariance, large36. apply map_ext_in. intros k Hk. apply in_seq in Hk.
  do 36 (destruct k as [|k]; [cbn -[PI Rtrigo_def.cos Rtrigo_def.sin]; rewrite ?cos_neg, ?sin_neg, ?cos_PI, ?sin_PI; ring|]). lia.
Qed.

Section Axes.
Variable inverse : nat -> (nat -> nat -> R) -> option (nat -> nat -> R).
Hypothesis Hinv : inverts inverse.
Variable junk : nat -> nat -> R.
Notation K := (ekf_kalman exact inverse junk).
Notation get_yaw := (fun r : R => r). Notation zero := (fun _ : R => 0).
Notation step := (node_step exact roundf_exact Rtrigo_def.sin Rtrigo_def.cos atan2 Ropp R get_yaw zero zero K bias_prm).
Notation run := (node_run exact roundf_exact Rtrigo_def.sin Rtrigo_def.cos atan2 Ropp R get_yaw zero zero K bias_prm).

(** The heading published after an initial heading phi along the x axis or against it and a
    pose with heading y: the straight mean, with weights 100/201 and 101/201. *)
Definition facing (y0 y1 : R) : list (event exact R) :=
  [EvInitialPose _ _ (facing_pose 0 y0) (Some ex_tf); EvPose _ _ (facing_pose 1000000000 y1); every 1000000000].
Lemma facing_accepted y0 y1 : exists n, run (facing y0 y1) = Ok n.
Proof.
  eapply C81_defined_partial with (lo := 0%Z) (hi := 10000000000%Z) (g := 1000000000%Z); try (cbn; lia); try (cbn; lra); try discriminate.
  cbn. unfold good_pose, good_twist. cbn. repeat split; try lia; try discriminate.
Qed.
Lemma facing_state y0 y1 : exists n f, run [EvInitialPose _ _ (facing_pose 0 y0) (Some ex_tf); EvPose _ _ (facing_pose 1000000000 y1)] = Ok n /\
  n_ekf _ _ _ n = Some f /\ at_rest y0 (est f) /\ n_last _ _ _ n = None /\
  msgs (n_pose _ _ _ n) = [facing_pose 1000000000 y1] /\ n_twist _ _ _ n = q_empty /\ n_out _ _ _ n = [].
Proof.
  unfold node_run. cbn. do 2 eexists. split; [reflexivity|]. cbn. split; [reflexivity|]. split; [|auto].
  split.
  - intros i Hi. unfold est. cbn [fst td_x]. change (Pos.to_nat 1) with 1%nat. upto6 i; cbn; try reflexivity; lra.
  - intros i j Hi Hj. unfold est. cbn [snd td_P]. change (Pos.to_nat 1) with 1%nat. upto6 i; upto6 j; reflexivity.
Qed.
Lemma facing_published phi y1 yaw : - PI < phi <= PI -> Rtrigo_def.sin phi = 0 -> - PI < yaw <= PI -> same_heading y1 yaw ->
  exists p o, published inverse junk roundf_exact Rtrigo_def.sin Rtrigo_def.cos atan2 R get_yaw zero zero bias_prm (facing phi y1) =
    Ok [OutTransform _ 1000000000 "map" p; o] /\ nth 5 p 0 = phi + 101 / 201 * (yaw - phi).
Proof.
  intros Hp Hs Hy Hh. destruct (facing_accepted phi y1) as [n1 E1].
  destruct (facing_state phi y1) as (n0 & f0 & E0 & F0 & A0 & L0 & P0 & T0 & O0).
  assert (S1 : step n0 (every 1000000000) = Ok n1).
  { unfold facing, node_run in E1.
    change (foldM step (node_new exact R K) ([EvInitialPose _ _ (facing_pose 0 phi) (Some ex_tf); EvPose _ _ (facing_pose 1000000000 y1)] ++ [every 1000000000]) = Ok n1) in E1.
    rewrite foldM_app in E1. unfold node_run in E0. rewrite E0 in E1. cbn [bind foldM] in E1. destruct (step n0 (every 1000000000)); try discriminate. exact E1. }
  assert (SH : sound_history R [EvInitialPose _ _ (facing_pose 0 phi) (Some ex_tf); EvPose _ _ (facing_pose 1000000000 y1)]).
  { split; [|cbn; constructor]. repeat (apply Forall_cons; [apply facing_sound|]). constructor. }
  destruct (C90_tick inverse Hinv junk R get_yaw zero zero bias_prm bias_params_sound _ n0 f0 _ _ _ _ _ n1 SH E0 F0 ltac:(intros l Hl; congruence) S1) as (f1 & pub & F1 & OP & L1 & TE).
  rewrite L0, P0, T0 in TE. destruct TE as (dt & s1 & s2 & kp & kt & I & _ & PR & Hkp & TP & Hkt & TT & PUB).
  cbn [msgs q_empty List.length] in Hkp, Hkt. replace kp with 1%nat in TP by lia. replace kt with 0%nat in TT by lia. cbn [firstn msgs q_empty] in TP, TT.
  inversion TT; subst s2. clear TT. inversion TP as [|? ? ? a2 ? (z & Y & T2) TN2]; subst. inversion TN2; subst. clear TP TN2.
  cbn [interval_is default_frequency bias_prm] in I. rewrite Rmax_left in I by lra. rewrite Rinv_1 in I. subst dt.
  assert (z = yaw).
  { destruct Y as [Y1 (j & Y2)], Hh as (k & Y3). cbn in Y2. pose proof PI_RGT_0. assert (YZ : z - yaw = 2 * PI * (IZR (k - j))) by (rewrite minus_IZR; lra).
    assert (-1 < IZR (k - j) < 1) by (split; nra). assert (k - j = 0)%Z by (destruct H0 as [B1 B2]; apply lt_IZR in B1, B2; lia). rewrite H1 in YZ. lra. }
  subst z.
  destruct (rest_cycle (Rtrigo_def.cos phi) phi yaw (est f0) s1 (est f1) (pose_as R (facing_pose 1000000000 y1) yaw) Hp eq_refl Hs
    ltac:(assert (SC := sin2_cos2 phi); unfold Rsqr in SC; rewrite Hs in SC; lra) A0 PR eq_refl eq_refl eq_refl eq_refl Hy T2) as [Z1 Z2].
  cbn zeta in PUB. do 2 eexists. split.
  - unfold published. rewrite E1. cbn [bind]. rewrite OP, O0, PUB. cbn [app]. reflexivity.
  - cbn [nth]. rewrite Z1, Z2. lra.
Qed.

(** With the axes turned half around the heading of the vehicle is published differently:
    once the mean goes the short way, once the long way. *)
Theorem C106_map_axes_refuted : exists theta h p o p' o',
  sound_params bias_prm /\ sound_history R h /\
  published inverse junk roundf_exact Rtrigo_def.sin Rtrigo_def.cos atan2 R get_yaw zero zero bias_prm h = Ok [OutTransform _ 1000000000 "map" p; o] /\
  published inverse junk roundf_exact Rtrigo_def.sin Rtrigo_def.cos atan2 R get_yaw zero zero bias_prm
    (map (turned_event R theta (fun yaw => yaw + theta)) h) = Ok [OutTransform _ 1000000000 "map" p'; o'] /\
  ~ same_heading (nth 5 p' 0) (nth 5 p 0 + theta).
Proof.
  pose proof PI_RGT_0 as PP.
  destruct (facing_published PI (- (PI / 2)) (- (PI / 2))) as (p & o & E & X); try lra; [apply sin_PI|exists 0%Z; lra|].
  destruct (facing_published 0 (- (PI / 2) + - PI) (PI / 2)) as (p' & o' & E' & X'); try lra; [apply sin_0|exists (-1)%Z; lra|].
  exists (- PI), (facing PI (- (PI / 2))), p, o, p', o'. split; [exact bias_params_sound|]. split.
  { split; [|cbn; repeat constructor; cbn; intuition lia]. repeat (apply Forall_cons; [first [exact Logic.I|apply facing_sound]|]). constructor. }
  split; [exact E|]. split.
  - rewrite <- E'. f_equal. unfold facing, facing_pose. cbn [map turned_event]. unfold turned_pose. cbn [p_frame p_stamp p_x p_y p_z p_orient p_cov].
    rewrite turned_large. rewrite !Rmult_0_r, Rminus_0_r, Rplus_0_r. replace (PI + - PI) with 0 by lra. reflexivity.
  - rewrite X, X'. intros (k & H). assert (HK : 201 * IZR k = 101).
    { apply (Rmult_eq_reg_l (2 * PI)); [|lra]. lra. }
    assert (HZ : (201 * k = 101)%Z) by (apply eq_IZR; rewrite mult_IZR; exact HK). lia.
Qed.
End Axes.
Print Assumptions C106_map_axes_refuted.
