(** Properties C101 and C102: the heading bias when its estimation is switched off, and the
    certainty gained by measurements, in exact arithmetic with the repository's time-delay
    filter. *)
From Coq Require Import Reals Lra Lia PeanoNat List Bool ZArith String.
From Verif Require Import Base Arith SpecReal AngleProofs EkfModel SpecEkf EkfProofs IntervalProofs Prop_Interval Prop_Queue EkfNodeProofs KalmanModel SpecKalman SpecFusion SpecCycle SpecCertain
  StackProofs QueueProofs Prop_EkfNode Prop_Kalman FusionProofs FusionNodeProofs Prop_Fusion HeightExactProofs BiasProofs BiasNodeProofs.
Import ListNotations.
Local Open Scope R_scope.

(** ** C101 *)
(** The vehicle starts at the origin, is measured to move with speed 1 and, one second
    later, to be at (1, 1) with heading 0. *)
Definition still_pose (stamp : Z) (x y : R) : pose_msg exact R := PoseMsg exact R "map" stamp x y 0 0 large36.
Definition forward_twist (stamp : Z) : twist_msg exact := TwistMsg exact "base_link" stamp 1 0 small36.
Definition bias_prm : params exact := Params exact 1 1 "map" 1 10000 10000 1 0 false 1 0 0.
Definition every (t : Z) : event exact R := EvTimer _ _ t t t t t.
Definition setup : list (event exact R) := [EvInitialPose _ _ (still_pose 0 0 0) (Some ex_tf); EvTwist _ _ (forward_twist 1000000000)].
Definition bias_history : list (event exact R) := setup ++ [every 1000000000; EvPose _ _ (still_pose 2000000000 1 1); every 2000000000].
Lemma still_pose_sound t x y : sound_pose R (still_pose t x y).
Proof.
  split; [reflexivity|]. split.
  - intros i j Hi Hj. do 3 (destruct i as [|i]; [do 3 (destruct j as [|j]; [reflexivity|]); lia|]). lia.
  - intros v (i & Hi & N). replace (variance_along 3 _ v) with (v 0%nat * v 0%nat + v 1%nat * v 1%nat + v 2%nat * v 2%nat) by (unfold variance_along, noise_of; cbn; ring).
    assert (Q : forall a : R, 0 <= a * a) by (intros; apply Rle_0_sqr). assert (P : forall a : R, a <> 0 -> 0 < a * a) by (intros; apply Rsqr_pos_lt; assumption).
    pose proof (Q (v 0%nat)). pose proof (Q (v 1%nat)). pose proof (Q (v 2%nat)). destruct i as [|[|[|i]]]; [| | |lia]; pose proof (P _ N); lra.
Qed.
Lemma forward_twist_sound t : sound_twist (forward_twist t).
Proof.
  split; [reflexivity|]. split.
  - intros i j Hi Hj. do 2 (destruct i as [|i]; [do 2 (destruct j as [|j]; [reflexivity|]); lia|]). lia.
  - intros v (i & Hi & N). replace (variance_along 2 _ v) with ((v 0%nat * v 0%nat + v 1%nat * v 1%nat) / 100) by (unfold variance_along, noise_of; cbn; field).
    assert (Q : forall a : R, 0 <= a * a) by (intros; apply Rle_0_sqr). assert (P : forall a : R, a <> 0 -> 0 < a * a) by (intros; apply Rsqr_pos_lt; assumption).
    pose proof (Q (v 0%nat)). pose proof (Q (v 1%nat)). destruct i as [|[|i]]; [| |lia]; pose proof (P _ N); lra.
Qed.
Lemma bias_params_sound : sound_params bias_prm.
Proof. unfold sound_params, bias_prm. cbn. lia. Qed.
Lemma bias_history_sound : sound_history R bias_history.
Proof.
  split.
  - unfold bias_history, setup. cbn [app]. repeat (apply Forall_cons; [first [exact Logic.I|apply still_pose_sound|apply forward_twist_sound]|]). constructor.
  - cbn. repeat constructor; cbn; intuition lia.
Qed.

Section Refuted.
Variable inverse : nat -> (nat -> nat -> R) -> option (nat -> nat -> R).
Hypothesis Hinv : inverts inverse.
Variable junk : nat -> nat -> R.
Notation K := (ekf_kalman exact inverse junk).
Notation get_yaw := (fun r : R => r). Notation zero := (fun _ : R => 0).
Notation step := (node_step exact roundf_exact sin cos atan2 Ropp R get_yaw zero zero K bias_prm).
Notation run := (node_run exact roundf_exact sin cos atan2 Ropp R get_yaw zero zero K bias_prm).

Lemma bias_accepted : exists n, run bias_history = Ok n.
Proof.
  eapply C81_defined_partial with (lo := 0%Z) (hi := 10000000000%Z) (g := 1000000000%Z); try (cbn; lia); try (cbn; lra); try discriminate.
  cbn. unfold good_pose, good_twist. cbn. repeat split; try lia; try discriminate.
Qed.
Lemma setup_state : exists n f, run setup = Ok n /\ n_ekf _ _ _ n = Some f /\ start (est f) /\ n_last _ _ _ n = None /\
  n_pose _ _ _ n = q_empty /\ n_twist _ _ _ n = Queue [forward_twist 1000000000] [0%Z].
Proof.
  unfold node_run, setup. cbn. do 2 eexists. split; [reflexivity|]. cbn. split; [reflexivity|]. split; [|auto].
  split.
  - intros i Hi. unfold est. cbn [fst td_x]. change (Pos.to_nat 1) with 1%nat. upto6 i; cbn; try reflexivity; lra.
  - intros i j Hi Hj. unfold est. cbn [snd td_P]. change (Pos.to_nat 1) with 1%nat. upto6 i; upto6 j; reflexivity.
Qed.
Lemma treated_once {S : Type} (body : S -> twist_msg exact -> outcome S) q s q' s' : List.length (msgs q) = 1%nat -> update_loop body 1 1 0 q s = Ok (q', s') -> Forall (fun a => (0 <= a)%Z) (ages q) -> msgs q' = [].
Proof.
  destruct q as [ms ag]. cbn [msgs ages]. destruct ms as [|m [|m2 ms]]; try discriminate. intros _ E F. cbn in E.
  unfold q_pop in E. cbn in E. destruct ag as [|a ag]; [discriminate|]. cbn [bind] in E. inversion F; subst. replace (a + 1 <? 1)%Z with false in E by lia.
  destruct (body s m); try discriminate. cbn in E. injection E as <- _. reflexivity.
Qed.
Lemma first_tick n f n' : n_ekf _ _ _ n = Some f -> n_last _ _ _ n = None -> n_pose _ _ _ n = q_empty -> n_twist _ _ _ n = Queue [forward_twist 1000000000] [0%Z] ->
  step n (every 1000000000) = Ok n' -> msgs (n_pose _ _ _ n') = [] /\ msgs (n_twist _ _ _ n') = [].
Proof.
  intros EF EL EP ET. cbn [every node_step]. unfold timer_callback. rewrite EF, EL. cbn [interval_compute]. destruct (kf_predict _ _ _ _ _ _) as [f1| | | | |]; try discriminate. cbn [bind].
  unfold pose_update. rewrite EP. cbn [msgs q_empty List.length update_loop]. change (0 <? q_size (@q_empty (pose_msg exact R)))%Z with false. cbv iota. cbn [bind].
  unfold twist_update. rewrite ET. cbn [msgs List.length]. match goal with |- context [update_loop ?b ?m ?k ?i ?q ?s] => destruct (update_loop b m k i q s) as [[tq f3]| | | | |] eqn:E; try discriminate end. cbn [bind]. cbv zeta. intros H. injection H as <-. cbn.
  split; [reflexivity|]. eapply treated_once; [|exact E|]; [reflexivity|]. repeat constructor; lia.
Qed.
(** With bias estimation switched off the bias does not stay zero. *)
Theorem C101_stays_zero_refuted : exists h n f,
  enable_yaw_bias_estimation _ bias_prm = false /\ sound_params bias_prm /\ sound_history R h /\ run h = Ok n /\ n_ekf _ _ _ n = Some f /\ fst (est f) 3%nat <> 0.
Proof.
  exists bias_history. destruct bias_accepted as [n4 E4].
  destruct setup_state as (n0 & f0 & E0 & F0 & S0 & L0 & P0 & T0).
  assert (X : foldM step n0 [every 1000000000; EvPose _ _ (still_pose 2000000000 1 1); every 2000000000] = Ok n4).
  { unfold bias_history, node_run in E4. rewrite foldM_app in E4. unfold node_run in E0. rewrite E0 in E4. exact E4. }
  assert (SHs : sound_history R bias_history) by exact bias_history_sound.
  assert (SH0 : sound_history R setup) by (split; [exact (proj1 (proj1 (Forall_app _ _ _) (proj1 SHs)))|cbn; constructor]).
  cbn [foldM] in X. destruct (step n0 (every 1000000000)) as [n1| | | | |] eqn:S1; try discriminate. cbn [bind] in X.
  destruct (step n1 (EvPose _ _ _)) as [n2| | | | |] eqn:S2; try discriminate. cbn [bind] in X.
  destruct (step n2 (every 2000000000)) as [n3| | | | |] eqn:S3; try discriminate. cbn [bind] in X. injection X as ->.
  destruct (first_tick n0 f0 n1 F0 L0 P0 T0 S1) as [Q1 Q2].
  destruct (C90_tick inverse Hinv junk R get_yaw zero zero bias_prm bias_params_sound setup n0 f0 _ _ _ _ _ n1 SH0 E0 F0 ltac:(intros l Hl; congruence) S1) as (f1 & pub & F1 & _ & L1 & TE1).
  destruct (proj1 (C90_arrival inverse junk R get_yaw zero zero bias_prm n1 n2) _ S2) as (A1 & _ & A3 & A4 & A5).
  rewrite Q1 in A4. cbn [app] in A4. rewrite Q2 in A5. rewrite L1 in A3. rewrite F1 in A1.
  assert (E2 : run (setup ++ [every 1000000000; EvPose _ _ (still_pose 2000000000 1 1)]) = Ok n2).
  { unfold node_run. rewrite foldM_app. unfold node_run in E0. rewrite E0. cbn [bind foldM]. rewrite S1. cbn [bind]. rewrite S2. reflexivity. }
  assert (SH2 : sound_history R (setup ++ [every 1000000000; EvPose _ _ (still_pose 2000000000 1 1)])).
  { split; [|cbn; repeat constructor; cbn; intuition lia]. apply Forall_app. split; [apply SH0|]. repeat (apply Forall_cons; [first [exact Logic.I|apply still_pose_sound]|]). constructor. }
  destruct (C90_tick inverse Hinv junk R get_yaw zero zero bias_prm bias_params_sound _ n2 f1 2000000000%Z 2000000000%Z 2000000000%Z 2000000000%Z 2000000000%Z n4 SH2 E2 A1 ltac:(intros l Hl; rewrite A3 in Hl; injection Hl as <-; unfold in_seconds; lra) S3) as (f2 & pub2 & F2 & _ & _ & TE2).
  exists n4, f2. split; [reflexivity|]. split; [exact bias_params_sound|]. split; [exact SHs|]. split; [exact E4|]. split; [exact F2|].
  rewrite L0, P0, T0 in TE1. destruct TE1 as (dt & s1 & s2 & kp & kt & I & _ & PR & Hkp & TP & Hkt & TT & _).
  cbn [msgs q_empty List.length] in Hkp, Hkt. replace kp with 0%nat in TP by lia. replace kt with 1%nat in TT by lia. cbn [firstn msgs q_empty] in TP, TT.
  inversion TP; subst s2. clear TP. inversion TT as [|? ? ? a ? T1 TN]; subst. inversion TN; subst. clear TT TN.
  cbn [interval_is default_frequency bias_prm] in I. rewrite Rmax_left in I by lra. rewrite Rinv_1 in I. subst dt.
  destruct (first_cycle (est f0) s1 (est f1) 10000 (twist_as (forward_twist 1000000000)) S0 PR ltac:(lra) eq_refl eq_refl eq_refl eq_refl T1) as [X1 V1].
  rewrite A3, A4, A5 in TE2. destruct TE2 as (dt & s3 & s4 & kp2 & kt2 & I & _ & PR2 & Hkp2 & TP2 & Hkt2 & TT2 & _).
  cbn [List.length] in Hkp2, Hkt2. replace kp2 with 1%nat in TP2 by lia. replace kt2 with 0%nat in TT2 by lia. cbn [firstn] in TP2, TT2.
  inversion TT2; subst s4. clear TT2. inversion TP2 as [|? ? ? a2 ? (yaw & Y & T2) TN2]; subst. inversion TN2; subst. clear TP2 TN2.
  cbn [interval_is] in I. unfold in_seconds in I. rewrite Rmin_left in I by lra. replace (2000000000 / 1000000000 - 1000000000 / 1000000000) with 1 in I by lra. subst dt.
  assert (Y0 : yaw = 0).
  { destruct Y as [[Y1 Y2] (k & Y3)]. cbn in Y3. pose proof PI_RGT_0. assert (-1 < IZR k < 1) by (split; nra). assert (k = 0%Z) by (destruct H0 as [B1 B2]; apply lt_IZR in B1, B2; lia). subst k. lra. }
  subst yaw.
  exact (second_cycle (est f1) s3 (est f2) 10000 (pose_as R (still_pose 2000000000 1 1) 0) X1 V1 PR2 ltac:(lra) eq_refl eq_refl eq_refl eq_refl T2).
Qed.
End Refuted.

Section Properties.
Variable inverse : nat -> (nat -> nat -> R) -> option (nat -> nat -> R).
Hypothesis Hinv : inverts inverse.
Variable junk : nat -> nat -> R.
Variable Orient : Type.
Variable get_yaw get_roll get_pitch : Orient -> R.
Variable prm : params exact.
Hypothesis Hprm : sound_params prm.
Notation K := (ekf_kalman exact inverse junk).
Notation step := (node_step exact roundf_exact sin cos atan2 Ropp Orient get_yaw get_roll get_pitch K prm).
Notation run := (node_run exact roundf_exact sin cos atan2 Ropp Orient get_yaw get_roll get_pitch K prm).

(** What holds: the filter never believes the bias to be less certain than at the start, with
    standard deviation 0.01 rad.  Missing: the variance is not zero. *)
Theorem C101_variance_partial : forall h n f, enable_yaw_bias_estimation _ prm = false ->
  sound_history Orient h -> run h = Ok n -> n_ekf _ _ _ n = Some f -> 0 <= snd (est f) 3%nat 3%nat <= 1 / 10000.
Proof.
  intros h n f OFF SH E EF. split; [|eapply (bias_variance inverse Hinv junk); eauto].
  destruct (inv_run inverse Hinv junk Orient get_yaw get_roll get_pitch prm Hprm h n SH E) as (I1 & _). destruct (I1 f EF) as (B & _ & _ & _ & V).
  specialize (V (fun i => if Nat.eqb i 3 then 1 else 0)). rewrite pick_variance in V by lia. exact V.
Qed.

(** ** C102 *)
Lemma arrivals_wait l : forall n n', Forall is_arrival l -> foldM step n l = Ok n' ->
  n_ekf _ _ _ n' = n_ekf _ _ _ n /\ n_out _ _ _ n' = n_out _ _ _ n /\ n_last _ _ _ n' = n_last _ _ _ n.
Proof.
  induction l as [|e l IH]; intros n n' F E; [injection E as <-; auto|]. inversion F as [|? ? Fe Fl]; subst. cbn [foldM] in E.
  destruct (step n e) as [n1| | | | |] eqn:S; try discriminate. cbn [bind] in E. destruct (IH n1 n' Fl E) as (-> & -> & ->).
  destruct (C90_arrival inverse junk Orient get_yaw get_roll get_pitch prm n n1) as [AP AT]. destruct e as [t1 t2 t3 t4 t5|m tf|m|m]; try contradiction; [destruct (AP m S) as (-> & -> & -> & _)|destruct (AT m S) as (-> & -> & -> & _)]; auto.
Qed.
(** Nothing waits; a tick publishes at least as certain messages if measurements have
    arrived before it, whatever they are. *)
Theorem C102_measurements_help : forall h n arrivals t1 t2 t3 t4 t5 a b,
  sound_history Orient (h ++ arrivals ++ [EvTimer _ _ t1 t2 t3 t4 t5]) -> Forall is_arrival arrivals ->
  run h = Ok n -> msgs (n_pose _ _ _ n) = [] -> msgs (n_twist _ _ _ n) = [] ->
  run (h ++ [EvTimer _ _ t1 t2 t3 t4 t5]) = Ok a -> run (h ++ arrivals ++ [EvTimer _ _ t1 t2 t3 t4 t5]) = Ok b ->
  exists pa pb, n_out _ _ _ a = n_out _ _ _ n ++ pa /\ n_out _ _ _ b = n_out _ _ _ n ++ pb /\ Forall2 refines pb pa.
Proof.
  intros h n arrivals t1 t2 t3 t4 t5 a b SH FA E M1 M2 EA EB.
  destruct (run_snoc _ _ _ _ _ _ _ _ _ _ _ h _ a EA) as (n0 & E0 & SA). rewrite E in E0. injection E0 as <-.
  rewrite app_assoc in EB. destruct (run_snoc _ _ _ _ _ _ _ _ _ _ _ (h ++ arrivals) _ b EB) as (m & Em & SB).
  assert (W : n_ekf _ _ _ m = n_ekf _ _ _ n /\ n_out _ _ _ m = n_out _ _ _ n /\ n_last _ _ _ m = n_last _ _ _ n).
  { unfold node_run in Em. rewrite foldM_app in Em. unfold node_run in E. rewrite E in Em. cbn [bind] in Em. eapply arrivals_wait; eauto. }
  destruct W as (W1 & W2 & W3).
  assert (RD : readings Orient (h ++ arrivals) = readings Orient h).
  { unfold readings. rewrite flat_map_app. clear - FA. induction FA as [|e l He Hl IH]; [apply app_nil_r|]. destruct e; try contradiction; exact IH. }
  assert (SHm : sound_history Orient (h ++ arrivals)).
  { destruct SH as [F ND]. rewrite app_assoc in F, ND. split; [apply Forall_app in F; apply F|]. unfold readings in *. rewrite flat_map_app in ND. revert ND. clear. generalize (flat_map (fun e : event exact Orient => match e with EvTimer t1 _ _ _ _ => [t1] | _ => [] end) (h ++ arrivals)).
    intros l. induction l as [|x l IHl]; intros ND; [constructor|]. cbn in ND. inversion ND; subst. constructor; [intros X; apply H1; apply in_or_app; auto|auto]. }
  assert (SHh : sound_history Orient h).
  { destruct SHm as [F ND]. split; [apply Forall_app in F; apply F|]. rewrite RD in ND. exact ND. }
  destruct (inv_run inverse Hinv junk Orient get_yaw get_roll get_pitch prm Hprm h n SHh E) as (I1 & I2 & I3 & I4 & I5 & I6 & _).
  destruct (inv_run inverse Hinv junk Orient get_yaw get_roll get_pitch prm Hprm _ m SHm Em) as (J1 & J2 & J3 & J4 & J5 & J6 & _).
  cbn [node_step] in SA, SB.
  destruct (n_ekf _ _ _ n) as [f|] eqn:EF.
  2:{ rewrite tick_none in SA by exact EF. injection SA as <-. rewrite tick_none in SB by exact W1. injection SB as <-. exists [], []. rewrite !app_nil_r. auto. }
  assert (T : (n_out _ _ _ a = n_out _ _ _ n /\ n_out _ _ _ b = n_out _ _ _ m) \/ (forall l, n_last _ _ _ n = Some l -> l < in_seconds t1)).
  { destruct (n_last _ _ _ n) as [l|] eqn:EL; [|right; intros; congruence]. destruct (I6 l eq_refl) as (t & T1 & T2).
    assert (NE : l <> in_seconds t1).
    { intros X. rewrite T2 in X. unfold in_seconds in X. assert (Y : IZR t = IZR t1) by lra. apply eq_IZR in Y. subst t. destruct SH as [_ ND]. clear - ND T1 RD. rewrite app_assoc in ND. unfold readings in *. rewrite flat_map_app, RD in ND.
      apply NoDup_remove_2 in ND. apply ND. rewrite app_nil_r. exact T1. }
    destruct (Rlt_or_le (in_seconds t1) l) as [LT|GE].
    - left. assert (B : step n (EvTimer _ _ t1 t2 t3 t4 t5) = Ok n) by (eapply C71_backwards_unchanged; [exact EL|apply Rltb_spec; exact LT]).
      cbn [node_step] in B. rewrite B in SA. injection SA as <-.
      assert (B' : step m (EvTimer _ _ t1 t2 t3 t4 t5) = Ok m) by (eapply C71_backwards_unchanged; [exact W3|apply Rltb_spec; exact LT]).
      cbn [node_step] in B'. rewrite B' in SB. injection SB as <-. auto.
    - right. intros l0 Hl0. injection Hl0 as <-. lra. }
  destruct T as [[-> ->]|HL]; [exists [], []; rewrite !app_nil_r; auto|].
  destruct (tick_does inverse Hinv junk Orient get_yaw prm Hprm n t1 t2 t3 t4 t5 a f EF (I1 f eq_refl) I2 I3 I4 I5 HL SA) as (fa & pa & _ & _ & _ & _ & _ & _ & _ & _ & OA & TA).
  destruct (tick_does inverse Hinv junk Orient get_yaw prm Hprm m t1 t2 t3 t4 t5 b f W1 (I1 f eq_refl) J2 J3 J4 J5 ltac:(rewrite W3; exact HL) SB) as (fb & pb & _ & _ & _ & _ & _ & _ & _ & _ & OB & TB).
  exists pa, pb. split; [exact OA|]. split; [rewrite <- W2; exact OB|].
  assert (PS : positive_semidefinite (blocks prm * 6) (snd (est f))) by apply (I1 f eq_refl). assert (Hb : (0 < blocks prm)%nat) by (apply (I1 f eq_refl)).
  destruct (tick_tighter _ _ _ _ _ _ _ _ _ _ _ _ _ _ _ _ _ Hprm J4 J5 PS TB) as (dt & s1 & IB & PRB & TI).
  rewrite M1, M2 in TA. destruct TA as (dta & sa & sb & kp & kt & IA & _ & PRA & Hkp & TP & Hkt & TT & ->). cbn [List.length] in Hkp, Hkt.
  replace kp with 0%nat in TP by lia. replace kt with 0%nat in TT by lia. cbn [firstn] in TP, TT. inversion TP; subst. inversion TT; subst. clear TP TT.
  assert (dta = dt) by (rewrite W3 in IB; unfold interval_is in IA, IB; destruct (n_last _ _ _ n); congruence). subst dta.
  assert (SM := predicts_same _ _ _ _ _ _ Hb PRA PRB).
  assert (ALL : forall v, variance_along 6 (snd (est fb)) v <= variance_along 6 (snd (est fa)) v).
  { intros v. rewrite !(along_corner (blocks prm * 6)) by lia. rewrite (variance_same _ _ _ _ SM). apply TI. }
  destruct TB as (dtb & s2 & s3 & kp2 & kt2 & _ & _ & _ & _ & _ & _ & _ & ->).
  constructor; [split; reflexivity|]. constructor; [|constructor]. split; [reflexivity|]. split; [reflexivity|].
  split; intros v; [rewrite !placed_pose_along|rewrite !placed_twist_along]; apply ALL.
Qed.
End Properties.

(** The history of the refutation is accepted and leaves a filter, for every inverse. *)
Example C101_case : forall inverse junk, let run := node_run exact roundf_exact sin cos atan2 Ropp R (fun r => r) (fun _ => 0) (fun _ => 0) (ekf_kalman exact inverse junk) bias_prm in
  sound_params bias_prm /\ enable_yaw_bias_estimation _ bias_prm = false /\ sound_history R bias_history /\ exists n f, run bias_history = Ok n /\ n_ekf _ _ _ n = Some f.
Proof.
  intros inverse junk run. split; [exact bias_params_sound|]. split; [reflexivity|]. split; [exact bias_history_sound|]. destruct (bias_accepted inverse junk) as [n E]. exists n.
  assert (N := after_initial exact roundf_exact sin cos atan2 Ropp R (fun r => r) (fun _ => 0) (fun _ => 0) (ekf_kalman exact inverse junk) bias_prm bias_history n ltac:(apply Exists_cons_hd; exact I) E).
  destruct (n_ekf _ _ _ n) as [f|]; [exists f; split; [exact E|reflexivity]|congruence].
Qed.
(** A pose and a twist arrive between two ticks. *)
Example C102_case : forall inverse junk, let run := node_run exact roundf_exact sin cos atan2 Ropp R (fun r => r) (fun _ => 0) (fun _ => 0) (ekf_kalman exact inverse junk) ex_prm in
  let h := firstn 2 unit_history in let arrivals := [EvPose _ _ (unit_pose 24000000); EvTwist _ _ (unit_twist 24000000)] in let tick := EvTimer _ _ 43000000 43000001 43000002 43000003 43000004 in
  sound_history R (h ++ arrivals ++ [tick]) /\ Forall is_arrival arrivals /\
  (exists n, run h = Ok n /\ n_ekf _ _ _ n <> None /\ msgs (n_pose _ _ _ n) = [] /\ msgs (n_twist _ _ _ n) = []) /\
  (exists a, run (h ++ [tick]) = Ok a) /\ exists b, run (h ++ arrivals ++ [tick]) = Ok b.
Proof.
  intros inverse junk run h arrivals tick. split; [apply unit_sound|]. split; [repeat constructor|].
  destruct (C90_case inverse junk) as [(b & f & EB & _) (n & f0 & l & EN & F0 & _ & Q1 & Q2 & _)]. split; [exists n; split; [exact EN|]; split; [rewrite F0; discriminate|auto]|].
  split; [|exists b; exact EB].
  destruct (C81_defined_partial sin cos atan2 R (fun r => r) (fun _ => 0) (fun _ => 0) inverse junk ex_prm 0 1000000000 20000000 (h ++ [tick])) as [a EA]; try (cbn; lia); try (cbn; lra); try discriminate; [|exists a; exact EA].
  cbn. unfold good_pose, good_twist. cbn. repeat split; try lia; try discriminate.
Qed.

Print Assumptions C101_stays_zero_refuted.
Print Assumptions C101_variance_partial.
Print Assumptions C102_measurements_help.
