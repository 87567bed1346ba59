(** Proofs about the EKF localizer and the lidar localizer in a loop (C135). *)
From Coq Require Import Reals Lra Lia PeanoNat List Bool ZArith String.
From Flocq Require Import Core.
From Coquelicot Require Import Coquelicot.
From Verif Require Import Base Arith SpecReal AngleProofs EkfModel SpecEkf EkfProofs KalmanModel SpecKalman SpecFusion SpecCycle StackProofs KalmanProofs2 KalmanProofs3
  IntervalProofs QueueProofs Prop_Interval Prop_Queue EkfNodeProofs Prop_EkfNode Prop_Kalman Prop_Ekf Prop_EkfMore FusionProofs FusionNodeProofs Prop_Fusion BiasProofs BiasNodeProofs Prop_Best.
From Verif Require Import PoseModel SpecPose RotProofs Prop_Rotation PublishModel SpecPublish Prop_Publish SystemModel SpecSystem.
From Verif Require MsgModel SpecMsg Prop_Msg LocModel.
Import ListNotations.
Local Open Scope R_scope.
Unset Asymmetric Patterns.

(** ** Estimates of a parked vehicle *)
Definition rest (x y yaw : R) : nat -> R := fun i => nth i [x; y; yaw; 0; 0; 0] 0.
Definition still (b : nat) (x y yaw : R) (s : estimate) : Prop := forall i, (i < b * 6)%nat -> fst s i = rest x y yaw (i mod 6).

Lemma heading_unique a b : - PI < a <= PI -> - PI < b <= PI -> same_heading a b -> a = b.
Proof.
  intros A B [k K]. pose proof PI_RGT_0 as P.
  assert (-1 < IZR k) by (apply (Rmult_lt_reg_l (2 * PI)); lra). assert (IZR k < 1) by (apply (Rmult_lt_reg_l (2 * PI)); lra).
  apply (lt_IZR (-1)) in H. apply (lt_IZR _ 1) in H0. assert (k = 0%Z) by lia. subst k. rewrite K. cbn. lra.
Qed.
Lemma still_low b x y yaw s i : (0 < b)%nat -> still b x y yaw s -> (i < 6)%nat -> fst s i = rest x y yaw i.
Proof. intros B S0 Hi. rewrite S0 by lia. rewrite Nat.mod_small by exact Hi. reflexivity. Qed.
Lemma still_predicts b x y yaw dt noise s s' : (0 < b)%nat -> - PI < yaw <= PI -> still b x y yaw s -> predicts b dt noise s s' -> still b x y yaw s'.
Proof.
  intros B R0 S0 (P1 & P2 & P3 & P4 & _) i Hi.
  assert (L := still_low b x y yaw s). 
  destruct (Nat.lt_ge_cases i 6) as [L6|G6].
  - rewrite Nat.mod_small by exact L6. destruct (Nat.eq_dec i 2) as [->|N2].
    + unfold rest. cbn [nth]. symmetry. apply heading_unique; [exact R0|exact P3|]. cbn [motion] in P2. rewrite !L in P2 by (auto; lia). unfold rest in P2. cbn [nth] in P2.
      rewrite Rmult_0_l, Rplus_0_r in P2. exact P2.
    + rewrite P1 by assumption. destruct i as [|[|[|[|[|[|i]]]]]]; try lia; cbn [motion]; rewrite ?L by (auto; lia); unfold rest; cbn [nth]; ring.
  - rewrite P4 by lia. rewrite S0 by lia. f_equal. replace i with (i - 6 + 1 * 6)%nat at 2 by lia. rewrite Nat.mod_add by lia. reflexivity.
Qed.
Lemma still_treats h b x y yaw steps dist now dt m s s' : (forall k, (k < h)%nat -> (col m k < 6)%nat /\ values m k = rest x y yaw (col m k)) ->
  still b x y yaw s -> treats h b steps dist now dt m s s' -> still b x y yaw s'.
Proof.
  intros HC S0 (d & D0 & _ & [[[LT _] T]|[_ ->]]); [|exact S0].
  destruct T as (V & G & _ & _ & HX & _). intros i Hi. rewrite HX by exact Hi. rewrite S0 by exact Hi.
  replace (apply_to h G _ i) with 0; [ring|]. symmetry. unfold apply_to at 1. apply total_zero. intros k Hk. destruct (HC k Hk) as [C6 CV].
  rewrite stacked_reading by lia. unfold apply_to. rewrite (total_single 6 (col m k)); [|exact C6|].
  - unfold picks. rewrite Nat.eqb_refl, CV, S0 by nia. rewrite Nat.add_comm, Nat.mod_add, Nat.mod_small by lia. ring.
  - intros j Hj NJ. unfold picks. rewrite (proj2 (Nat.eqb_neq j (col m k)) NJ). ring.
Qed.

(** ** Certainty of the pose *)
(** Every combination in which position or heading takes part has some variance. *)
Definition uncertain (P : nat -> nat -> R) : Prop := forall v, (exists i, (i < 3)%nat /\ v i <> 0) -> 0 < variance_along 6 P v.
(** The derivative of the motion at rest, in the columns of position and heading. *)
Lemma rest_column dt x F : x 4%nat = 0 ->
  (forall i j, (i < 6)%nat -> (j < 6)%nat -> is_derive (fun v => motion dt (replaced x j v) i) (x j) (F i j)) ->
  forall i j, (i < 6)%nat -> (j < 3)%nat -> F i j = if Nat.eqb i j then 1 else 0.
Proof.
  intros X4 HF i j Hi Hj. specialize (HF i j Hi ltac:(lia)). apply is_derive_unique in HF. rewrite <- HF.
  apply is_derive_unique. 
  do 3 (destruct j as [|j]; [do 6 (destruct i as [|i]; [unfold motion, replaced; cbn [Nat.eqb]; auto_derive; [try exact I; auto|rewrite ?X4; ring]|]); lia|]). lia.
Qed.
Lemma rest_predicts b dt noise s s' : (0 < b)%nat -> fst s 4%nat = 0 -> uncertain (snd s) -> predicts b dt noise s s' -> uncertain (snd s').
Proof.
  intros B X4 U (_ & _ & _ & _ & F & HF & HP) v Hv.
  set (w := fun j => total 6 (fun i => v i * F i j)).
  assert (W : forall j, (j < 3)%nat -> w j = v j).
  { intros j Hj. unfold w. rewrite (total_single 6 j); [|lia|].
    - rewrite (rest_column dt _ F X4 HF) by lia. rewrite Nat.eqb_refl. ring.
    - intros i Hi N. rewrite (rest_column dt _ F X4 HF) by lia. rewrite (proj2 (Nat.eqb_neq i j) N). ring. }
  assert (UW : 0 < variance_along 6 (snd s) w). { apply U. destruct Hv as (i & Hi & Vi). exists i. split; [exact Hi|]. rewrite W by exact Hi. exact Vi. }
  set (q := fun i => nth i [0; 0; SpecFusion.spread (nth 0 noise 0) dt; SpecFusion.spread (nth 1 noise 0) dt; SpecFusion.spread (nth 2 noise 0) dt; SpecFusion.spread (nth 3 noise 0) dt] 0).
  assert (E : variance_along 6 (snd s') v = variance_along 6 (snd s) w + total 6 (fun i => v i * v i * q i)).
  { assert (PE : forall i j, (i < 6)%nat -> (j < 6)%nat -> snd s' i j = total 6 (fun l => total 6 (fun k => F i k * snd s k l) * F j l) + (if Nat.eqb i j then q i else 0)).
    { intros i j Hi Hj. rewrite HP by lia. unfold SpecKalman.plus, stacked_noise. rewrite (proj2 (Nat.ltb_lt i 6) Hi), (proj2 (Nat.ltb_lt j 6) Hj). cbn [andb]. f_equal.
      rewrite stacked_right by lia. rewrite (proj2 (Nat.ltb_lt j 6) Hj). unfold times at 1. apply total_ext. intros l Hl. unfold flip. rewrite stacked_left by lia.
      rewrite (proj2 (Nat.ltb_lt i 6) Hi). reflexivity. }
    unfold variance_along at 1. transitivity (total 6 (fun i => total 6 (fun j => v i * (total 6 (fun l => total 6 (fun k => F i k * snd s k l) * F j l) + (if Nat.eqb i j then q i else 0)) * v j))).
    { apply total_ext. intros i Hi. apply total_ext. intros j Hj. rewrite PE by assumption. reflexivity. }
    unfold variance_along, w. clearbody q. set (P := snd s). clearbody P. clear. cbn [total Nat.eqb]. ring. }
  rewrite E. assert (0 <= total 6 (fun i => v i * v i * q i)); [|lra].
  assert (NN : forall i, 0 <= q i). { intros i. unfold q. destruct i as [|[|[|[|[|[|i]]]]]]; cbn [nth]; try apply Rle_refl; try apply Rle_0_sqr. destruct i; apply Rle_refl. }
  replace 0 with (total 6 (fun _ => 0)) by (cbn; ring). apply total_le. intros i _. apply Rmult_le_pos; [nra|apply NN].
Qed.
(** The pose block of an uncertain covariance. *)
Lemma uncertain_block P : symmetric 6 P -> uncertain P -> positive_definite 3 P.
Proof.
  intros S0 U. split; [intros i j Hi Hj; apply S0; lia|]. intros v (i & Hi & Vi).
  specialize (U (fun k => if (k <? 3)%nat then v k else 0)). cbv beta in U.
  replace (variance_along 3 P v) with (variance_along 6 P (fun k => if (k <? 3)%nat then v k else 0)); [|unfold variance_along; cbn [total Nat.ltb Nat.leb]; ring].
  apply U. exists i. split; [exact Hi|]. rewrite (proj2 (Nat.ltb_lt i 3) Hi). exact Vi.
Qed.
(** A pose that agrees with the newest copy is fused and makes x more certain. *)
Lemma echo_shrinks b steps dist now dt m s s' : (0 < b)%nat -> (0 < steps)%Z -> cols m = [0; 1; 2]%nat ->
  positive_semidefinite (b * 6) (snd s) -> uncertain (snd s) -> positive_definite 3 (noise_of m 1) ->
  0 < dt -> IZR (now - stamp m) / 1000000000 / dt < / 2 -> (forall k, (k < 3)%nat -> fst s k = values m k) ->
  treats 3 b steps dist now dt m s s' -> snd s' 0%nat 0%nat < snd s 0%nat 0%nat.
Proof.
  intros B ST HC [SY PSD] U HN DT HD HX (d & D0 & DD & T).
  assert (COL : forall k, (k < 3)%nat -> col m k = k) by (intros k Hk; unfold col; rewrite HC; destruct k as [|[|[|k]]]; try lia; reflexivity).
  assert (d = 0%Z).
  { unfold delay_of in DD. assert (Rmax (IZR (now - stamp m) / 1000000000) 0 / dt < / 2).
    { unfold Rmax. destruct (Rle_dec _ 0); [unfold Rdiv; lra|exact HD]. }
    assert (IZR d < 1) by lra. apply (lt_IZR _ 1) in H0. lia. }
  subst d. change (Z.to_nat 0 * 6)%nat with 0%nat in T. cbn [Nat.add Z.to_nat] in T.
  assert (SY6 : symmetric 6 (snd s)) by (intros i j Hi Hj; apply SY; lia).
  assert (PD := uncertain_block _ SY6 U).
  destruct T as [[_ T]|[NC _]].
  2: { exfalso. apply NC. split; [lia|]. destruct (pd_has_inverse PD) as [V HV]. exists V. split.
    - destruct HV as [V1 V2]. split; intros i j Hi Hj.
      + rewrite <- V1 by assumption. unfold times. apply total_ext. intros l Hl. rewrite !COL by assumption. reflexivity.
      + rewrite <- V2 by assumption. unfold times. apply total_ext. intros l Hl. rewrite !COL by assumption. reflexivity.
    - apply Rle_trans with 0; [|nra]. right. unfold variance_along. apply total_zero. intros i Hi. apply total_zero. intros j Hj. rewrite COL by exact Hi. rewrite (HX i Hi). ring. }
  destruct T as (V & G & HV & HG & _ & HP).
  set (C := stacked_measurement 6 0 (picks m)) in *.
  assert (PCK : forall (z : nat -> R) k, (k < 3)%nat -> apply_to (b * 6) C z k = z k).
  { intros z k Hk. unfold C. rewrite stacked_reading by lia. unfold apply_to. rewrite (total_single 6 k); [|lia|].
    - unfold picks. rewrite COL, Nat.eqb_refl by exact Hk. cbn [Nat.mul Nat.add]. ring.
    - intros j Hj NJ. unfold picks. rewrite COL by exact Hk. rewrite (proj2 (Nat.eqb_neq j k) NJ). ring. }
  assert (CP : forall k j, (k < 3)%nat -> times (b * 6) C (snd s) k j = snd s k j) by (intros k j Hk; exact (PCK (fun l => snd s l j) k Hk)).
  assert (PC : forall i k, (k < 3)%nat -> times (b * 6) (snd s) (flip C) i k = snd s i k).
  { intros i k Hk. rewrite <- (PCK (fun l => snd s i l) k Hk). unfold times, apply_to, flip. apply total_ext. intros; ring. }
  assert (VP : positive_definite 3 V).
  { eapply pd_inverse; [|exact HV]. assert (HN' := noise_scaled m steps ST 3 HN). destruct HN' as [NS NV].
    assert (E : forall i j, (i < 3)%nat -> (j < 3)%nat -> SpecKalman.plus (times (b * 6) C (times (b * 6) (snd s) (flip C))) (noise_of m steps) i j = snd s i j + noise_of m steps i j).
    { intros i j Hi Hj. unfold SpecKalman.plus. f_equal. rewrite <- (PC i j Hj). exact (PCK (fun l => times (b * 6) (snd s) (flip C) l j) i Hi). }
    split.
    - intros i j Hi Hj. rewrite !E by assumption. rewrite (SY6 i j), (NS i j) by lia. reflexivity.
    - intros v Hv. destruct PD as [_ PV]. specialize (PV v Hv). specialize (NV v Hv).
      replace (variance_along 3 _ v) with (variance_along 3 (snd s) v + variance_along 3 (noise_of m steps) v); [lra|].
      unfold variance_along. rewrite <- total_plus. apply total_ext. intros i Hi. rewrite <- total_plus. apply total_ext. intros j Hj. rewrite E by assumption. ring. }
  rewrite HP by lia. unfold SpecKalman.minus.
  assert (GE : times 3 G (times (b * 6) C (snd s)) 0 0 = variance_along 3 V (fun k => snd s 0%nat k)).
  { unfold times at 1. unfold variance_along.
    transitivity (total 3 (fun k => total 3 (fun l => snd s 0%nat l * V l k) * snd s k 0%nat)).
    { apply total_ext. intros k Hk. rewrite CP by exact Hk. rewrite HG by lia. f_equal. unfold times at 1. apply total_ext. intros l Hl. rewrite PC by exact Hl. reflexivity. }
    cbn [total]. rewrite (SY6 1%nat 0%nat), (SY6 2%nat 0%nat) by lia. ring. }
  rewrite GE. destruct VP as [_ VV]. specialize (VV (fun k => snd s 0%nat k)). cbv beta in VV.
  assert (0 < snd s 0%nat 0%nat). { assert (X := U (fun k => match k with 0%nat => 1 | _ => 0 end) ltac:(exists 0%nat; split; [lia|lra])). unfold variance_along in X. cbn [total] in X. lra. }
  assert (0 < variance_along 3 V (fun k => snd s 0%nat k)); [apply VV; exists 0%nat; split; [lia|lra]|lra].
Qed.

(** ** The two nodes *)
Section Loop.
Variable inverse : nat -> (nat -> nat -> R) -> option (nat -> nat -> R).
Hypothesis Hinv : inverts inverse.
Variable junk : nat -> nat -> R.
Variable get_yaw get_roll get_pitch : quat -> R.
Hypothesis Hread : reads_angles get_yaw get_roll get_pitch.
Variable sign : quat -> quat.
Hypothesis Hsign : SpecMsg.up_to_sign sign.
Variable prm : params exact.
Hypothesis Hprm : sound_params prm.
Variable Scan : Type.
Variable localize : Scan -> pose -> outcome pose.
Notation K := (ekf_kalman exact inverse junk).
Notation step := (node_step exact roundf_exact sin cos atan2 Ropp quat get_yaw get_roll get_pitch K prm).
Notation run := (node_run exact roundf_exact sin cos atan2 Ropp quat get_yaw get_roll get_pitch K prm).
Notation tick := (timer_callback exact roundf_exact sin cos atan2 Ropp quat get_yaw K prm).
Notation sys_step := (system_step inverse junk roundf_exact get_yaw get_roll get_pitch sign prm Scan localize).
Notation sys_run := (system_run inverse junk roundf_exact get_yaw get_roll get_pitch sign prm Scan localize).
Notation node := (node exact quat K).
Notation inv := (inv inverse junk quat prm).

Lemma lidar_sound o : sound_pose quat (lidar_message sign o).
Proof.
  split; [reflexivity|]. split.
  - intros i j Hi Hj. destruct i as [|[|[|i]]]; try lia; destruct j as [|[|[|j]]]; try lia; reflexivity.
  - intros v (i & Hi & Vi). replace (variance_along 3 _ v) with (v 0%nat * v 0%nat + v 1%nat * v 1%nat + 1 / 10 * (v 2%nat * v 2%nat)).
    + assert (N : forall k, 0 <= v k * v k) by (intros; apply Rle_0_sqr). assert (P0 : 0 < v i * v i) by (apply Rsqr_pos_lt; exact Vi).
      pose proof (N 0%nat). pose proof (N 1%nat). pose proof (N 2%nat). destruct i as [|[|[|i]]]; try lia; lra.
    + unfold variance_along, noise_of, pose_as, lidar_message, lidar_covariance. cbn -[Rdiv]. unfold lidar_covariance. cbn -[Rdiv]. ring.
Qed.

(** Ticks keep what holds of all waiting messages. *)
Lemma tick_queues (gp : pose_msg exact quat -> Prop) (gt : twist_msg exact -> Prop) (n n' : node) t1 t2 t3 t4 t5 :
  wf (n_pose _ _ _ n) -> wf (n_twist _ _ _ n) -> Forall gp (msgs (n_pose _ _ _ n)) -> Forall gt (msgs (n_twist _ _ _ n)) -> tick n t1 t2 t3 t4 t5 = Ok n' ->
  Forall gp (msgs (n_pose _ _ _ n')) /\ Forall gt (msgs (n_twist _ _ _ n')).
Proof.
  intros W1 W2 G1 G2. unfold timer_callback. destruct (n_ekf _ _ _ n) as [f0|]; [|intros E; injection E as <-; auto].
  destruct (interval_compute _ _ _ _) as [[dt| | | | |] last]; try discriminate; [|intros E; injection E as <-; cbn; auto].
  destruct (kf_predict _ _ _ _ _) as [f1| | | | |]; try discriminate. cbn [bind].
  destruct (pose_update _ _ _ _ _ _ _ _ _ _ _ _ _) as [[pq f2]| | | | |] eqn:EP; try discriminate. cbn [bind].
  destruct (twist_update _ _ _ _ _ _ _ _) as [[tq f3]| | | | |] eqn:ET; try discriminate. cbn [bind].
  intros E. injection E as <-. cbn [n_pose n_twist]. unfold pose_update in EP. unfold twist_update in ET.
  split; [eapply (loop_keeps gp); [exact W1|exact G1|exact EP]|eapply (loop_keeps gt); [exact W2|exact G2|exact ET]].
Qed.

Section At.
Variable x y z roll pitch yaw : R.
Hypothesis Hyaw : - PI < yaw <= PI.
Hypothesis Hroll : - PI < roll <= PI.
Hypothesis Hpitch : - PI / 2 <= pitch <= PI / 2 /\ Rabs (sin pitch) < 99999 / 100000.
Let T0 : pose := make_pose_from_xyzrpy x y z roll pitch yaw.
Definition echo (m : pose_msg exact quat) : Prop :=
  p_x _ _ m = x /\ p_y _ _ m = y /\ p_z _ _ m = z /\ get_yaw (p_orient _ _ m) = yaw /\ get_roll (p_orient _ _ m) = roll /\ get_pitch (p_orient _ _ m) = pitch.
Definition at_rest (m : twist_msg exact) : Prop := t_vx _ m = 0 /\ t_wz _ m = 0.
Definition tells (o : output exact) : Prop :=
  match o with
  | OutTransform _ _ _ p => p = [x; y; z; roll; pitch; yaw]
  | OutOdometry _ _ _ p _ vx wz _ => p = [x; y; z; roll; pitch; yaw] /\ vx = 0 /\ wz = 0
  end.
Definition parked_ekf (n : node) : Prop :=
  (exists f, n_ekf _ _ _ n = Some f /\ still (blocks prm) x y yaw (est f)) /\
  Forall echo (msgs (n_pose _ _ _ n)) /\ Forall at_rest (msgs (n_twist _ _ _ n)) /\
  (f_x _ (n_z _ _ _ n) = z /\ f_x _ (n_roll _ _ _ n) = roll /\ f_x _ (n_pitch _ _ _ n) = pitch) /\ Forall tells (n_out _ _ _ n).
Definition parked_lidar (l : LocModel.node exact pose) : Prop :=
  Forall (fun p => snd p = T0) (LocModel.priors l) /\ Forall (fun o => LocModel.pub_pose o = T0) (LocModel.outs l).

Lemma T0_rotation : is_rotation (lin T0).
Proof. apply to_rotation_is_rotation. apply C46_rpy. Qed.
Lemma told_back : MsgModel.get_isometry (published_pose sign [x; y; z; roll; pitch; yaw]) = T0.
Proof. apply Prop_Msg.C108_pose_round_trip; [exact Hsign|exact T0_rotation]. Qed.
Lemma lidar_echo o : LocModel.pub_pose o = T0 -> echo (lidar_message sign o).
Proof.
  intros E. destruct (C131_read_back sign get_yaw get_roll get_pitch x y z roll pitch yaw Hsign Hread Hroll (proj1 Hpitch) (proj2 Hpitch)) as (P0 & _ & P1 & P2 & P3 & P4).
  unfold echo, lidar_message. cbn [p_x p_y p_z p_orient]. unfold MsgModel.make_pose_with_covariance_stamped, MsgModel.make_pose_with_covariance. cbn [fst snd]. rewrite E.
  change (MsgModel.make_pose_msg sign T0) with (published_pose sign [x; y; z; roll; pitch; yaw]). rewrite P0. cbn [PoseModel.vx PoseModel.vy PoseModel.vz].
  repeat split; auto. apply heading_unique; auto.
Qed.
Lemma blocks_pos : (0 < blocks prm)%nat. Proof. destruct Hprm as [H _]. unfold blocks. lia. Qed.

(** A tick on the parked estimate. *)
Lemma parked_effect last poses twists (s s' : estimate) published t1 t2 t3 t4 t5 : still (blocks prm) x y yaw s -> Forall echo poses -> Forall at_rest twists ->
  tick_effect quat get_yaw prm last poses twists z roll pitch t1 t2 t3 t4 t5 s s' published -> still (blocks prm) x y yaw s' /\ Forall tells published.
Proof.
  intros S0 GP GT (dt & s1 & s2 & kp & kt & _ & _ & PP & _ & TP & _ & TT & EO). cbv zeta in EO.
  assert (S1 := still_predicts _ _ _ _ _ _ _ _ blocks_pos Hyaw S0 PP).
  assert (S2 : still (blocks prm) x y yaw s2).
  { assert (G : Forall echo (firstn kp poses)) by (apply Forall_forall; intros m Hm; rewrite Forall_forall in GP; apply GP; rewrite <- (firstn_skipn kp); apply in_or_app; auto).
    clear - TP S1 G Hyaw. induction TP as [|m l a b c ST TP IH]; [exact S1|]. inversion G as [|? ? G1 G2]; subst. apply IH; [|exact G2].
    destruct ST as (w & [W1 W2] & T). destruct G1 as (E1 & E2 & _ & E4 & _). rewrite E4 in W2.
    assert (w = yaw) by (symmetry; apply heading_unique; auto). subst w.
    eapply still_treats; [|exact S1|exact T]. intros k Hk. unfold col, values, pose_as, rest. cbn [cols vals].
    destruct k as [|[|[|k]]]; try lia; cbn [nth]; split; auto; lia. }
  assert (S3 : still (blocks prm) x y yaw s').
  { assert (G : Forall at_rest (firstn kt twists)) by (apply Forall_forall; intros m Hm; rewrite Forall_forall in GT; apply GT; rewrite <- (firstn_skipn kt); apply in_or_app; auto).
    clear - TT S2 G. induction TT as [|m l a b c ST TP IH]; [exact S2|]. inversion G as [|? ? [G1 G3] G2]; subst. apply IH; [|exact G2].
    eapply still_treats; [|exact S2|exact ST]. intros k Hk. unfold col, values, twist_as, rest. cbn [cols vals].
    destruct k as [|[|k]]; try lia; cbn [nth]; split; auto; lia. }
  split; [exact S3|]. rewrite EO. assert (L := fun i => still_low _ _ _ _ _ i blocks_pos S3).
  assert (P : [fst s' 0%nat; fst s' 1%nat; z; roll; pitch; fst s' 2%nat + fst s' 3%nat] = [x; y; z; roll; pitch; yaw]).
  { rewrite !L by lia. unfold rest. cbn [nth]. rewrite Rplus_0_r. reflexivity. }
  change (D exact) with R in *. rewrite P. constructor; [reflexivity|]. constructor; [|constructor]. split; [reflexivity|].
  split; rewrite !L by lia; reflexivity.
Qed.

Lemma parked_tick h (n n' : node) t1 t2 t3 t4 t5 : inv h n -> parked_ekf n -> ~ In t1 (readings quat h) -> tick n t1 t2 t3 t4 t5 = Ok n' -> parked_ekf n'.
Proof.
  intros (I1 & I2 & I3 & I4 & I5 & I6 & _) PK ND E. assert (PK' := PK). destruct PK' as ((f & EF & SF) & G1 & G2 & (Z1 & Z2 & Z3) & GO).
  assert (CASE : (exists l, n_last _ _ _ n = Some l /\ in_seconds t1 < l) \/ (forall l, n_last _ _ _ n = Some l -> l < in_seconds t1)).
  { destruct (n_last _ _ _ n) as [l|] eqn:EL; [|right; intros l Hl; discriminate]. destruct (I6 l eq_refl) as (t & T1 & T2).
    destruct (Rlt_or_le (in_seconds t1) l) as [LT|GE]; [left; exists l; auto|]. right. intros l0 Hl0. injection Hl0 as <-.
    assert (l <> in_seconds t1); [|lra]. intros X. rewrite T2 in X. unfold in_seconds in X. assert (Y : IZR t = IZR t1) by lra. apply eq_IZR in Y. subst t. contradiction. }
  destruct CASE as [(l & EL & LT)|HL].
  - assert (B : step n (EvTimer _ _ t1 t2 t3 t4 t5) = Ok n) by (eapply C71_backwards_unchanged; [exact EL|apply Rltb_spec; exact LT]).
    cbn [node_step] in B. rewrite B in E. injection E as <-. exact PK.
  - destruct (tick_queues echo at_rest n n' t1 t2 t3 t4 t5 I2 I3 G1 G2 E) as [G1' G2'].
    destruct (tick_does inverse Hinv junk quat get_yaw prm Hprm n t1 t2 t3 t4 t5 n' f EF (I1 f EF) I2 I3 I4 I5 HL E) as (f' & pub & Q1 & _ & _ & _ & _ & _ & _ & (Q2 & Q3 & Q4) & Q8 & Q9).
    rewrite Z1, Z2, Z3 in Q9. destruct (parked_effect _ _ _ _ _ _ _ _ _ _ _ SF G1 G2 Q9) as [S' O'].
    split; [exists f'; auto|]. split; [exact G1'|]. split; [exact G2'|]. rewrite Q2, Q3, Q4. split; [auto|]. rewrite Q8. apply Forall_app. auto.
Qed.
Lemma parked_pose (n n' : node) m : parked_ekf n -> echo m -> callback_pose exact quat get_roll get_pitch K n m = Ok n' -> parked_ekf n'.
Proof.
  intros ((f & EF & SF) & G1 & G2 & (Z1 & Z2 & Z3) & GO) EM E. destruct (pose_frame exact quat get_roll get_pitch K n m n' E) as (A & B & C & F & G).
  unfold parked_ekf. rewrite A, C, F, G. split; [exists f; auto|]. split; [cbn; apply Forall_app; auto|]. split; [exact G2|]. split; [|exact GO].
  unfold callback_pose, update_simple_filters in E. destruct (vat _ 14) in E; try discriminate. destruct (vat _ 21) in E; try discriminate. destruct (vat _ 28) in E; try discriminate.
  destruct (time_of _) in E; try discriminate. cbn [bind] in E. injection E as <-. cbn [n_z n_roll n_pitch]. destruct EM as (_ & _ & M3 & _ & M5 & M6). rewrite M3, M5, M6.
  split; [rewrite <- Z1; apply update_same|]. split; [rewrite <- Z2; apply update_same|rewrite <- Z3; apply update_same].
Qed.
Lemma closest_in (t : R) (l : list (R * pose)) p : LocModel.st_get_closest (A := exact) t l = Ok p -> In p l.
Proof.
  intros E. unfold LocModel.st_get_closest in E. assert (SP : forall l : list (R * pose), fst (LocModel.st_lower_bound (A := exact) t l) ++ snd (LocModel.st_lower_bound (A := exact) t l) = l).
  { clear. induction l as [|[k v] l IH]; [reflexivity|]. cbn [LocModel.st_lower_bound]. destruct (d_ltb exact k t); [|reflexivity].
    destruct (LocModel.st_lower_bound (A := exact) t l) as [a b]. cbn [fst snd app] in *. rewrite IH. reflexivity. }
  specialize (SP l). destruct (LocModel.st_lower_bound (A := exact) t l) as [before after]. cbn [fst snd] in SP. subst l.
  assert (PV : forall p, LocModel.st_prev (A := exact) before = Ok p -> In p before).
  { intros q. unfold LocModel.st_prev. destruct (rev before) as [|r rs] eqn:ER; [discriminate|]. intros H. injection H as <-. rewrite in_rev, ER. left. reflexivity. }
  destruct after as [|[t1 o1] after].
  - apply in_or_app. left. apply PV. destruct before; exact E.
  - destruct before as [|b0 before]; [injection E as <-; left; reflexivity|].
    destruct (LocModel.st_prev (A := exact) (b0 :: before)) as [[u w]| | | | |] eqn:EP; try discriminate. cbn [bind] in E. specialize (PV _ eq_refl).
    apply in_or_app. destruct (d_ltb _ _ _) in E; injection E as <-; [left; exact PV|right; left; reflexivity].
Qed.
Lemma upper_prefix (t : R) (l : list (R * pose)) : exists r, l = fst (LocModel.st_upper_bound (A := exact) t l) ++ r.
Proof.
  induction l as [|[k v] l [r IH]]; [exists []; reflexivity|]. cbn [LocModel.st_upper_bound]. destruct (d_ltb exact t k); [exists ((k, v) :: l); reflexivity|].
  destruct (LocModel.st_upper_bound (A := exact) t l) as [a b]. cbn [fst] in *. exists r. cbn [app]. apply (f_equal (cons (k, v))). exact IH.
Qed.
Lemma removed_in (t : R) (l l' : list (R * pose)) : LocModel.st_remove_older_than (A := exact) t l = Ok l' -> forall p, In p l' -> In p l.
Proof.
  intros E p Hp. unfold LocModel.st_remove_older_than in E. destruct (upper_prefix t l) as [r ER]. destruct (LocModel.st_upper_bound (A := exact) t l) as [a b]. cbn [fst] in ER.
  destruct b as [|b0 b]; [|destruct a as [|a0 a]; [discriminate|]].
  - assert (l' = l) by (destruct a; injection E as <-; reflexivity). subst l'. exact Hp.
  - injection E as <-. rewrite ER. apply in_or_app. auto.
Qed.
Lemma inserted t (p : pose) (Q : R * pose -> Prop) : (forall k, Q (k, p)) -> forall l, Forall Q l -> Forall Q (LocModel.st_insert (A := exact) t p l).
Proof.
  intros HP. induction l as [|[k v] l IH]; intros F; cbn [LocModel.st_insert]; [constructor; auto|]. inversion F; subst.
  destruct (d_ltb exact k t); [constructor; auto|]. destruct (d_ltb exact t k); constructor; auto.
Qed.
Lemma parked_scan (l l' : LocModel.node exact pose) stamp scan : parked_lidar l -> tells_nothing Scan localize T0 scan -> LocModel.on_scan exact pose Scan localize l stamp scan = Ok l' -> parked_lidar l'.
Proof.
  intros PK TN E. assert (PK' := PK). destruct PK' as [PP PO]. unfold LocModel.on_scan in E. destruct (LocModel.priors l) as [|p0 ps] eqn:EP; [injection E as <-; exact PK|].
  cbv zeta in E. destruct (LocModel.st_get_closest _ _) as [p| | | | |] eqn:EC; try discriminate. cbn [bind] in E.
  destruct (LocModel.st_remove_older_than _ _) as [r| | | | |] eqn:ER; try discriminate. cbn [bind] in E.
  assert (IP := closest_in _ _ _ EC). rewrite Forall_forall in PP. assert (EQ := PP _ IP). cbv beta in EQ. rewrite EQ, TN in E. cbn [bind] in E. injection E as <-.
  split; cbn [LocModel.priors LocModel.outs].
  - apply Forall_forall. intros q Hq. apply PP. eapply removed_in; eauto.
  - apply Forall_app. split; [exact PO|]. constructor; [reflexivity|constructor].
Qed.

Notation system := (system inverse junk).
Definition parked (s : system) : Prop := parked_ekf (s_ekf inverse junk s) /\ parked_lidar (s_lidar inverse junk s).
Lemma parked_step h (s s' : system) e : inv h (s_ekf _ _ s) -> parked s -> parked_event Scan localize T0 e -> (forall t, In t (clock Scan [e]) -> ~ In t (readings quat h)) -> sys_step s e = Ok s' ->
  parked s' /\ exists h', inv h' (s_ekf _ _ s') /\ readings quat h' = readings quat h ++ clock Scan [e].
Proof.
  intros I [PE PL] GE ND E.
  assert (RD : forall e', readings quat (h ++ [e']) = readings quat h ++ readings quat [e']) by (intros; unfold readings; apply flat_map_app).
  assert (NN : forall e', readings quat [e'] = [] -> (forall t, In t (readings quat [e']) -> ~ In t (readings quat h))) by (intros e' -> t []).
  destruct e as [t1 t2 t3 t4 t5|m tf|m|stamp scan|k|k]; cbn [system_step] in E; unfold ekf_does, lidar_does in E.
  - destruct (step (s_ekf _ _ s) _) as [n| | | | |] eqn:EN; try discriminate. cbn [bind] in E. injection E as <-. cbn [s_ekf s_lidar].
    split; [split; [|exact PL]|].
    + eapply parked_tick; [exact I|exact PE| |exact EN]. apply ND. left. reflexivity.
    + exists (h ++ [EvTimer exact quat t1 t2 t3 t4 t5]). split; [|rewrite RD; reflexivity].
      eapply inv_step; [exact Hinv|exact Hprm|exact I|exact Logic.I|exact ND|exact EN].
  - destruct GE.
  - destruct (step (s_ekf _ _ s) _) as [n| | | | |] eqn:EN; try discriminate. cbn [bind] in E. injection E as <-. cbn [s_ekf s_lidar]. destruct GE as [GE1 GE2].
    split; [split; [|exact PL]|].
    + cbn [node_step] in EN. injection EN as <-. destruct PE as (P1 & P2 & P3 & P4 & P5). split; [exact P1|]. split; [exact P2|]. split; [|auto].
      cbn. apply Forall_app. auto.
    + exists (h ++ [EvTwist exact quat m]). split; [|rewrite RD; reflexivity].
      eapply inv_step; [exact Hinv|exact Hprm|exact I|exact GE1|apply NN; reflexivity|exact EN].
  - destruct (LocModel.node_step _ _ _ _ _ _) as [n| | | | |] eqn:EN; try discriminate. cbn [bind] in E. injection E as <-. cbn [s_ekf s_lidar].
    split; [split; [exact PE|]|exists h; rewrite app_nil_r; auto]. eapply parked_scan; [exact PL|exact GE|exact EN].
  - destruct (nth_error _ _) as [o|] eqn:EN; [|injection E as <-; split; [split; auto|exists h; rewrite app_nil_r; auto]].
    destruct (odometry_prior _ _) as [[stamp T]|] eqn:EO; [|injection E as <-; split; [split; auto|exists h; rewrite app_nil_r; auto]].
    cbn [LocModel.node_step bind] in E. injection E as <-. cbn [s_ekf s_lidar]. split; [split; [exact PE|]|exists h; rewrite app_nil_r; auto].
    assert (TO : tells o). { destruct PE as (_ & _ & _ & _ & P5). rewrite Forall_forall in P5. apply P5. eapply nth_error_In; eauto. }
    assert (T = T0). { destruct o as [a b c|a b c d vx wz tc]; [discriminate|]. cbn [odometry_prior] in EO. injection EO as <- <-. destruct TO as [-> _]. exact told_back. }
    subst T. destruct PL as [PP PO]. split; [|exact PO]. cbn [LocModel.on_prior LocModel.priors]. apply inserted; [reflexivity|exact PP].
  - destruct (nth_error _ _) as [o|] eqn:EN; [|injection E as <-; split; [split; auto|exists h; rewrite app_nil_r; auto]].
    destruct (step (s_ekf _ _ s) _) as [n| | | | |] eqn:ES; try discriminate. cbn [bind] in E. injection E as <-. cbn [s_ekf s_lidar].
    split; [split; [|exact PL]|].
    + eapply parked_pose; [exact PE| |exact ES]. apply lidar_echo. destruct PL as [_ PO]. rewrite Forall_forall in PO. apply PO. eapply nth_error_In; eauto.
    + exists (h ++ [EvPose exact quat (lidar_message sign o)]). split; [|rewrite RD; reflexivity].
      eapply inv_step; [exact Hinv|exact Hprm|exact I|apply lidar_sound|apply NN; reflexivity|exact ES].
Qed.
Lemma parked_run es : forall h (s s' : system), inv h (s_ekf _ _ s) -> parked s -> Forall (parked_event Scan localize T0) es -> NoDup (readings quat h ++ clock Scan es) -> foldM sys_step s es = Ok s' -> parked s'.
Proof.
  induction es as [|e es IH]; intros h s s' I P F ND E; cbn [foldM] in E.
  - injection E as <-. exact P.
  - destruct (sys_step s e) as [s1| | | | |] eqn:ES; try discriminate. cbn [bind] in E. inversion F as [|? ? F1 F2]; subst.
    assert (CE : clock Scan (e :: es) = clock Scan [e] ++ clock Scan es) by (unfold clock; cbn [flat_map]; rewrite app_nil_r; reflexivity). rewrite CE in ND.
    destruct (parked_step h s s1 e I P F1) as [P1 (h1 & I1 & R1)]; [|exact ES|].
    + intros t Ht Hh. clear - ND Ht Hh. revert ND. induction (readings quat h) as [|a l IHl]; [contradiction|]. cbn [app]. intros ND. inversion ND; subst.
      destruct Hh as [->|Hh]; [apply H1; apply in_or_app; right; apply in_or_app; auto|auto].
    + eapply IH; [exact I1|exact P1|exact F2| |exact E]. rewrite R1, <- app_assoc. exact ND.
Qed.
End At.
End Loop.
