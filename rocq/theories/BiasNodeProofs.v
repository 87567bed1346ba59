(** The variance of the heading bias over the histories of the EKF localizer. *)
From Coq Require Import Reals Lra Lia PeanoNat List Bool ZArith String.
From Coquelicot Require Import Coquelicot.
From Verif Require Import Base Arith SpecReal AngleProofs EkfModel SpecEkf EkfProofs IntervalProofs Prop_Interval Prop_Queue EkfNodeProofs KalmanModel SpecKalman SpecFusion SpecCycle StackProofs KalmanProofs2 KalmanProofs3 ShrinkProofs
  QueueProofs Prop_EkfNode Prop_EkfMore FusionProofs FusionNodeProofs HeightExactProofs.
Import ListNotations.
Local Open Scope R_scope.

Lemma pick_variance n P k : (k < n)%nat -> variance_along n P (fun i => if Nat.eqb i k then 1 else 0) = P k k.
Proof.
  intros H. unfold variance_along.
  assert (T : forall m (g : nat -> R), total m (fun i => (if Nat.eqb i k then 1 else 0) * g i) = if (k <? m)%nat then g k else 0).
  { induction m as [|m IH]; intros g; [reflexivity|]. cbn [total]. rewrite IH. destruct (Nat.eqb_spec m k) as [->|N].
    - rewrite (proj2 (Nat.ltb_ge k k)) by lia. rewrite (proj2 (Nat.ltb_lt k (S k))) by lia. ring.
    - destruct (Nat.ltb_spec k m); [rewrite (proj2 (Nat.ltb_lt k (S m))) by lia|rewrite (proj2 (Nat.ltb_ge k (S m))) by lia]; ring. }
  transitivity (total n (fun i => (if Nat.eqb i k then 1 else 0) * P i k)).
  - apply total_ext. intros i Hi. transitivity (total n (fun j => (if Nat.eqb j k then 1 else 0) * ((if Nat.eqb i k then 1 else 0) * P i j))).
    + apply total_ext. intros j Hj. ring.
    + rewrite T. rewrite (proj2 (Nat.ltb_lt k n)) by exact H. reflexivity.
  - rewrite T. rewrite (proj2 (Nat.ltb_lt k n)) by exact H. reflexivity.
Qed.
(** Component 3 does not move, so its row of the derivative is that of the identity. *)
Lemma bias_row dt x F : (forall i j, (i < 6)%nat -> (j < 6)%nat -> is_derive (fun v => motion dt (replaced x j v) i) (x j) (F i j)) ->
  forall j, (j < 6)%nat -> F 3%nat j = if Nat.eqb j 3 then 1 else 0.
Proof.
  intros H j Hj. specialize (H 3%nat j ltac:(lia) Hj). apply is_derive_unique in H. rewrite <- H. apply is_derive_unique.
  unfold motion, replaced. destruct j as [|[|[|[|[|[|j]]]]]]; [| | | | | |lia]; cbn [Nat.eqb]; auto_derive; auto.
Qed.
Lemma predicts_bias b dt noise s s' : (0 < b)%nat -> predicts b dt noise s s' -> snd s' 3%nat 3%nat = snd s 3%nat 3%nat + SpecFusion.spread (nth 1 noise 0) dt.
Proof.
  intros Hb (_ & _ & _ & _ & F & HF & HP). rewrite HP by lia. unfold SpecKalman.plus, stacked_noise. cbn [Nat.ltb Nat.leb andb Nat.eqb nth]. f_equal.
  rewrite stacked_right by lia. cbn [Nat.ltb Nat.leb]. unfold times at 1. cbn [total]. unfold flip. rewrite !stacked_left by lia. cbn [Nat.ltb Nat.leb].
  rewrite !(bias_row dt (fst s) F HF) by lia. cbn [Nat.eqb]. unfold times. cbn [total]. rewrite !(bias_row dt (fst s) F HF) by lia. cbn [Nat.eqb]. ring.
Qed.

(** ** A tick *)
Lemma predicts_psd b dt noise s s' : (0 < b)%nat -> positive_semidefinite (b * 6) (snd s) -> predicts b dt noise s s' -> positive_semidefinite (b * 6) (snd s').
Proof.
  intros Hb HP (_ & _ & _ & _ & F & _ & E). eapply predicted_psd; [| |exact HP|exact E]; [lia|].
  apply (diagonal_psd 6 [0; 0; SpecFusion.spread (nth 0 noise 0) dt; SpecFusion.spread (nth 1 noise 0) dt; SpecFusion.spread (nth 2 noise 0) dt; SpecFusion.spread (nth 3 noise 0) dt]).
  assert (NN : forall a, 0 <= SpecFusion.spread a dt) by (intros; apply Rle_0_sqr).
  intros i. destruct i as [|[|[|[|[|[|i]]]]]]; cbn [nth]; try apply Rle_refl; try apply NN. destruct i; apply Rle_refl.
Qed.
(** No direction becomes less certain. *)
Definition tighter (n : nat) (s s' : estimate) : Prop := forall v, variance_along n (snd s') v <= variance_along n (snd s) v.
Lemma treats_tighter h b steps dist now dt m s s' : positive_semidefinite (b * 6) (snd s) -> positive_definite h (noise_of m steps) -> treats h b steps dist now dt m s s' ->
  positive_semidefinite (b * 6) (snd s') /\ tighter (b * 6) s s'.
Proof.
  intros HP HN (d & _ & _ & [[_ T]|[_ ->]]).
  - exact (textbook_shrinks HP HN T).
  - split; [exact HP|]. intros v. apply Rle_refl.
Qed.
Lemma in_turn_tighter {M : Type} (step : M -> estimate -> estimate -> Prop) (good : M -> Prop) n :
  (forall m s s', good m -> positive_semidefinite n (snd s) -> step m s s' -> positive_semidefinite n (snd s') /\ tighter n s s') ->
  forall l s s', in_turn step l s s' -> Forall good l -> positive_semidefinite n (snd s) -> positive_semidefinite n (snd s') /\ tighter n s s'.
Proof.
  intros H l s s' T. induction T as [s|m l s s1 s2 S T IH]; intros G P.
  - split; [exact P|]. intros v. apply Rle_refl.
  - inversion G as [|? ? G1 G2]; subst. destruct (H _ _ _ G1 P S) as [P1 T1]. destruct (IH G2 P1) as [P2 T2]. split; [exact P2|].
    intros v. eapply Rle_trans; [apply T2|apply T1].
Qed.
Lemma Forall_firstn {X} (Q : X -> Prop) k l : Forall Q l -> Forall Q (firstn k l).
Proof. intros H. revert k. induction H as [|a l Ha Hl IH]; intros k; destruct k; cbn; constructor; auto. Qed.
Lemma tick_tighter (Orient : Type) (get_yaw : Orient -> R) prm last poses twists z roll pitch t1 t2 t3 t4 t5 s s' pub : sound_params prm ->
  Forall (sound_pose Orient) poses -> Forall sound_twist twists -> positive_semidefinite (blocks prm * 6) (snd s) ->
  tick_effect Orient get_yaw prm last poses twists z roll pitch t1 t2 t3 t4 t5 s s' pub ->
  exists dt s1, interval_is prm last t1 dt /\ predicts (blocks prm) dt (noise prm) s s1 /\ tighter (blocks prm * 6) s1 s'.
Proof.
  intros (B & S1 & S2) GP GT P (dt & s1 & s2 & kp & kt & I & _ & PR & _ & TP & _ & TT & _).
  assert (Hb : (0 < blocks prm)%nat) by (unfold blocks; lia).
  assert (P1 := predicts_psd _ _ _ _ _ Hb P PR).
  destruct (fun H => in_turn_tighter _ (sound_pose Orient) (blocks prm * 6) H _ _ _ TP (Forall_firstn _ _ _ GP) P1) as [P2 T1].
  { intros m a b [_ PD] Pa (yaw & _ & T). eapply treats_tighter; [exact Pa| |exact T]. apply (noise_scaled (pose_as Orient m 0)); [lia|exact PD]. }
  destruct (fun H => in_turn_tighter _ sound_twist (blocks prm * 6) H _ _ _ TT (Forall_firstn _ _ _ GT) P2) as [_ T2].
  { intros m a b [_ PD] Pa T. eapply treats_tighter; [exact Pa| |exact T]. apply noise_scaled; [lia|exact PD]. }
  exists dt, s1. split; [exact I|]. split; [exact PR|]. intros v. eapply Rle_trans; [apply T2|apply T1].
Qed.

(** The covariance after a prediction is determined. *)
Lemma predicts_same b dt noise s s1 s2 : (0 < b)%nat -> predicts b dt noise s s1 -> predicts b dt noise s s2 -> same_matrix (b * 6) (b * 6) (snd s1) (snd s2).
Proof.
  intros Hb (_ & _ & _ & _ & F & HF & HP) (_ & _ & _ & _ & G & HG & HQ) i j Hi Hj.
  assert (E : forall k l, (k < 6)%nat -> (l < 6)%nat -> F k l = G k l).
  { intros k l Hk Hl. specialize (HF k l Hk Hl). specialize (HG k l Hk Hl). apply is_derive_unique in HF, HG. congruence. }
  rewrite HP, HQ by assumption. unfold SpecKalman.plus. f_equal.
  assert (L : forall k l, (k < b * 6)%nat -> times (b * 6) (stacked_transition 6 F) (snd s) k l = times (b * 6) (stacked_transition 6 G) (snd s) k l).
  { intros k l Hk. rewrite !stacked_left by lia. destruct (Nat.ltb_spec k 6); [|reflexivity]. unfold times. apply total_ext. intros q Hq. rewrite E by lia. reflexivity. }
  rewrite !stacked_right by lia. destruct (Nat.ltb_spec j 6).
  - unfold times at 1 3. apply total_ext. intros q Hq. unfold flip. rewrite L, E by lia. reflexivity.
  - apply L. exact Hi.
Qed.
Lemma placed_pose_along P v : variance_along 6 (square (placed [0; 1; 5]%nat [0; 1; 2]%nat P)) v =
  variance_along 6 P (fun i => match i with 0%nat => v 0%nat | 1%nat => v 1%nat | 2%nat => v 5%nat | _ => 0 end).
Proof. unfold variance_along, square, placed. cbn. ring. Qed.
Lemma placed_twist_along P v : variance_along 6 (square (placed [0; 5]%nat [4; 5]%nat P)) v =
  variance_along 6 P (fun i => match i with 4%nat => v 0%nat | 5%nat => v 5%nat | _ => 0 end).
Proof. unfold variance_along, square, placed. cbn. ring. Qed.
Lemma along_corner n P v : (6 <= n)%nat -> variance_along 6 P v = variance_along n P (fun i => if (i <? 6)%nat then v i else 0).
Proof.
  intros H. unfold variance_along. rewrite (total_head n 6); [|exact H|intros i Hi; rewrite (proj2 (Nat.ltb_ge i 6)) by lia; apply total_zero; intros; ring].
  apply total_ext. intros i Hi. rewrite (total_head n 6); [|exact H|intros j Hj; rewrite (proj2 (Nat.ltb_ge j 6)) by lia; ring].
  apply total_ext. intros j Hj. rewrite (proj2 (Nat.ltb_lt i 6)), (proj2 (Nat.ltb_lt j 6)) by lia. reflexivity.
Qed.
Lemma variance_same n P Q v : same_matrix n n P Q -> variance_along n P v = variance_along n Q v.
Proof. intros H. unfold variance_along. apply total_ext. intros i Hi. apply total_ext. intros j Hj. rewrite H by assumption. reflexivity. Qed.

(** ** Histories *)
Section Runs.
Variable inverse : nat -> (nat -> nat -> R) -> option (nat -> nat -> R).
Hypothesis Hinv : inverts inverse.
Variable junk : nat -> nat -> R.
Variable Orient : Type.
Variable get_yaw get_roll get_pitch : Orient -> R.
Variable prm : params exact.
Hypothesis Hprm : sound_params prm.
Hypothesis Hoff : enable_yaw_bias_estimation _ prm = false.
Notation K := (ekf_kalman exact inverse junk).
Notation step := (node_step exact roundf_exact sin cos atan2 Ropp Orient get_yaw get_roll get_pitch K prm).
Notation run := (node_run exact roundf_exact sin cos atan2 Ropp Orient get_yaw get_roll get_pitch K prm).

Lemma start_bias (n : node exact Orient K) m tf (n' : node exact Orient K) f : callback_initial_pose exact Orient get_yaw get_roll get_pitch K prm n m tf = Ok n' -> n_ekf _ _ _ n' = Some f ->
  snd (est f) 3%nat 3%nat = 1 / 10000.
Proof.
  unfold callback_initial_pose. destruct (erase_begin_slash (pose_frame_id _ prm)); try discriminate. cbn [bind].
  destruct (erase_begin_slash (p_frame _ _ m)); try discriminate. cbn [bind]. destruct tf as [tr|]; [|discriminate]. cbv zeta.
  destruct (init_covariance _ _) as [P| | | | |] eqn:EC; try discriminate. cbn [bind].
  destruct (kf_new _ _ _ _ _) as [f0| | | | |] eqn:EF; try discriminate. cbn [bind].
  destruct (update_simple_filters _ _ _ _ _ _ _) as [n2| | | | |] eqn:EU; try discriminate. cbn [bind]. intros H. injection H as <-.
  apply update_simple_frame in EU. destruct EU as [E1 _]. cbn. rewrite E1. cbn. intros X. injection X as <-.
  cbn in EF. unfold td_new in EF. destruct (0 <? extend_state_step _ prm)%Z eqn:E0; [|discriminate]. injection EF as <-. cbn [td_P].
  unfold init_covariance in EC. destruct (vat (p_cov _ _ m) 0) as [c0| | | | |]; try discriminate. destruct (vat (p_cov _ _ m) 7) as [c1| | | | |]; try discriminate.
  destruct (vat (p_cov _ _ m) 35) as [c2| | | | |]; try discriminate. cbn [bind] in EC. injection EC as <-.
  unfold est. cbn [snd]. rewrite init_p_entry by lia. cbn. reflexivity.
Qed.
Lemma bias_variance h n f : sound_history Orient h -> run h = Ok n -> n_ekf _ _ _ n = Some f -> snd (est f) 3%nat 3%nat <= 1 / 10000.
Proof.
  revert n f. induction h as [|e h IH] using rev_ind; intros n f SH E EF; [injection E as <-; discriminate|].
  destruct (run_snoc _ _ _ _ _ _ _ _ _ _ _ h e n E) as (n0 & E0 & S).
  assert (SH0 : sound_history Orient h).
  { destruct SH as [F ND]. split; [apply Forall_app in F; apply F|]. unfold readings in *. rewrite flat_map_app in ND. revert ND. generalize (flat_map (fun e0 : event exact Orient => match e0 with EvTimer t1 _ _ _ _ => [t1] | _ => [] end) h). clear.
    intros l. induction l as [|a l IHl]; intros ND; [constructor|]. cbn in ND. inversion ND; subst. constructor; [intros X; apply H1; apply in_or_app; auto|auto]. }
  destruct (inv_run inverse Hinv junk Orient get_yaw get_roll get_pitch prm Hprm h n0 SH0 E0) as (I1 & I2 & I3 & I4 & I5 & I6 & _).
  destruct e as [t1 t2 t3 t4 t5|m tf|m|m]; cbn [node_step] in S.
  - destruct (n_ekf _ _ _ n0) as [f0|] eqn:EF0; [|rewrite tick_none in S by exact EF0; injection S as <-; congruence].
    specialize (IH n0 f0 SH0 E0 EF0).
    assert (T : n = n0 \/ (forall l, n_last _ _ _ n0 = Some l -> l < in_seconds t1)).
    { destruct (n_last _ _ _ n0) as [l|] eqn:EL; [|right; intros; congruence]. destruct (I6 l eq_refl) as (t & T1 & T2).
      assert (NE : l <> in_seconds t1).
      { intros X. rewrite T2 in X. unfold in_seconds in X. assert (Y : IZR t = IZR t1) by lra. apply eq_IZR in Y. subst t. destruct SH as [_ ND]. clear - ND T1. unfold readings in *. rewrite flat_map_app in ND.
        apply NoDup_remove_2 in ND. apply ND. rewrite app_nil_r. exact T1. }
      destruct (Rlt_or_le (in_seconds t1) l) as [LT|GE].
      - left. assert (B : step n0 (EvTimer _ _ t1 t2 t3 t4 t5) = Ok n0) by (eapply C71_backwards_unchanged; [exact EL|apply Rltb_spec; exact LT]).
        cbn [node_step] in B. rewrite B in S. injection S as <-. reflexivity.
      - right. intros l0 Hl0. injection Hl0 as <-. lra. }
    destruct T as [->|HL]; [congruence|].
    destruct (tick_does inverse Hinv junk Orient get_yaw prm Hprm n0 t1 t2 t3 t4 t5 n f0 EF0 (I1 f0 eq_refl) I2 I3 I4 I5 HL S) as (f' & pub & Q1 & _ & _ & _ & _ & _ & _ & _ & _ & Q9).
    rewrite Q1 in EF. injection EF as <-. assert (PS : positive_semidefinite (blocks prm * 6) (snd (est f0))) by apply (I1 f0 eq_refl).
    destruct (tick_tighter _ _ _ _ _ _ _ _ _ _ _ _ _ _ _ _ _ Hprm I4 I5 PS Q9) as (dt & s1 & _ & PR & TI).
    assert (Hb : (0 < blocks prm)%nat) by (apply (I1 f0 eq_refl)).
    apply predicts_bias in PR; [|exact Hb]. unfold noise in PR. rewrite Hoff in PR. cbn [nth] in PR. unfold SpecFusion.spread in PR.
    specialize (TI (fun i => if Nat.eqb i 3 then 1 else 0)). rewrite !pick_variance in TI by lia. change (snd (est f0)) with (td_P exact f0) in *. lra.
  - right. eapply start_bias; [exact S|exact EF].
  - destruct (pose_frame exact Orient get_roll get_pitch K n0 m n S) as (X & _). rewrite X in EF. exact (IH n0 f SH0 E0 EF).
  - injection S as <-. exact (IH n0 f SH0 E0 EF).
Qed.
End Runs.
