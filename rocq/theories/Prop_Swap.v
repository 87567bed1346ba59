(** C127, C128: the order of measurements.  The vocabulary is in SpecSwap.v. *)
From Coq Require Import Reals Lra Lia PeanoNat List Bool ZArith String Permutation.
From Verif Require Import Base Arith SpecReal AngleProofs EkfModel SpecEkf EkfProofs KalmanModel SpecKalman SpecFusion SpecCycle StackProofs KalmanProofs2 KalmanProofs3 SpecSwap SwapProofs
  Prop_Interval FusionProofs FusionNodeProofs Prop_Kalman Prop_Ekf Prop_EkfMore Prop_Fusion.
Import ListNotations.
Local Open Scope R_scope.

Section Filters.
Variable inverse : nat -> (nat -> nat -> R) -> option (nat -> nat -> R).
Hypothesis Hinv : inverts inverse.
Variable junk : nat -> nat -> R.

(** ** C127: the order does not matter to the filters *)
(** The plain filter after a list of readings. *)
Definition plain_after (n : nat) (l : list reading) (f : kf exact) : kf exact :=
  fold_left (fun f r => snd (kf_update_with exact inverse n (size r) f (reads r) (sees r) (fuzz r))) l f.
Definition plain_est (f : kf exact) : estimate := (kf_x exact f, kf_P exact f).
Lemma plain_turn n l : forall f, Forall (fun r => positive_definite (size r) (fuzz r)) l -> positive_semidefinite n (kf_P exact f) ->
  in_turn (fused n) l (plain_est f) (plain_est (plain_after n l f)).
Proof.
  induction l as [|r l IH]; intros f F HP; [constructor|]. inversion F as [|? ? F1 F2]; subst.
  destruct (kf_update_facts Hinv (reads r) (sees r) HP F1) as [f' [E [HP' _]]]. unfold plain_after. cbn [fold_left]. rewrite E. cbn [snd].
  econstructor; [|apply IH; [exact F2|exact HP']]. exact (kf_update_textbook Hinv E).
Qed.
Theorem C127_plain : forall n l l' f, Permutation l l' -> Forall (fun r => positive_definite (size r) (fuzz r)) l -> positive_semidefinite n (kf_P exact f) ->
  same_estimate n (plain_est (plain_after n l f)) (plain_est (plain_after n l' f)).
Proof.
  intros n l l' f PM F HP. apply (turn_permuted PM F (plain_turn n l f F HP)). apply plain_turn; [|exact HP].
  rewrite Forall_forall in *. intros r Hr. apply F. apply (Permutation_in r (Permutation_sym PM) Hr).
Qed.
(** Two readings one after the other are as good as both at once. *)
Theorem C127_plain_together : forall n r1 r2 f, positive_definite (size r1) (fuzz r1) -> positive_definite (size r2) (fuzz r2) -> positive_semidefinite n (kf_P exact f) ->
  same_estimate n (plain_est (plain_after n [r1; r2] f)) (plain_est (plain_after n [together r1 r2] f)).
Proof.
  intros n r1 r2 f H1 H2 HP.
  assert (F2 : Forall (fun r => positive_definite (size r) (fuzz r)) [r1; r2]) by (apply Forall_cons; [exact H1|apply Forall_cons; [exact H2|apply Forall_nil]]).
  assert (F1 : Forall (fun r => positive_definite (size r) (fuzz r)) [together r1 r2]) by (apply Forall_cons; [exact (together_pd H1 H2)|apply Forall_nil]).
  apply (together_fused H1 H2 (plain_turn n [r1; r2] f F2 HP)). assert (T := plain_turn n [together r1 r2] f F1 HP).
  inversion T as [|? ? ? s1 ? S1 S2]; subst. inversion S2; subst. exact S1.
Qed.

(** The filter with delayed copies after a list of readings, each with its delay. *)
Definition delay_after (l : list (reading * Z)) (f : tdkf exact) : tdkf exact :=
  fold_left (fun f r => snd (td_update exact inverse (size (fst r)) f (reads (fst r)) (sees (fst r)) (fuzz (fst r)) (snd r))) l f.
Definition delayed (d : nat) (r : reading * Z) : reading := Reading (size (fst r)) (stacked_measurement d (Z.to_nat (snd r)) (sees (fst r))) (fuzz (fst r)) (reads (fst r)).
Lemma delay_turn d max l : forall f, (0 < d)%nat -> td_dim exact f = d -> td_max exact f = max ->
  Forall (fun r => positive_definite (size (fst r)) (fuzz (fst r)) /\ (0 <= snd r < max)%Z) l -> positive_semidefinite (Z.to_nat max * d) (td_P exact f) ->
  in_turn (fused (Z.to_nat max * d)) (map (delayed d) l) (est f) (est (delay_after l f)).
Proof.
  induction l as [|r l IH]; intros f Hd D M F HP; [constructor|]. inversion F as [|? ? [F1 Hz] F2]; subst.
  destruct (td_update_facts Hinv (reads (fst r)) (sees (fst r)) Hd HP F1 Hz) as [f' [E [M' [D' [HP' _]]]]].
  assert (T := @C57_update inverse Hinv junk (size (fst r)) f (reads (fst r)) (sees (fst r)) (fuzz (fst r)) (snd r) Hd Hz). cbn zeta in T. rewrite E in T. destruct T as [T _].
  unfold delay_after. cbn [fold_left map]. rewrite E. cbn [snd].
  apply in_turn_cons with (s1 := est f'); [exact T|]. apply IH; auto. unfold td_size in HP'. rewrite M', D' in HP'. exact HP'.
Qed.
Theorem C127_delay : forall l l' f, Permutation l l' -> (0 < td_dim exact f)%nat ->
  Forall (fun r => positive_definite (size (fst r)) (fuzz (fst r)) /\ (0 <= snd r < td_max exact f)%Z) l -> positive_semidefinite (td_size exact f) (td_P exact f) ->
  same_estimate (td_size exact f) (est (delay_after l f)) (est (delay_after l' f)).
Proof.
  intros l l' f PM Hd F HP. unfold td_size in *.
  refine (@turn_permuted _ _ _ (est f) _ _ (Permutation_map (delayed (td_dim exact f)) PM) _ _ _).
  - rewrite Forall_map. eapply Forall_impl; [|exact F]. intros r [H _]. exact H.
  - apply delay_turn; auto.
  - apply delay_turn; auto. rewrite Forall_forall in *. intros r Hr. apply F. apply (Permutation_in r (Permutation_sym PM) Hr).
Qed.
Theorem C127_delay_together : forall r1 r2 z f, (0 < td_dim exact f)%nat -> (0 <= z < td_max exact f)%Z -> positive_semidefinite (td_size exact f) (td_P exact f) ->
  positive_definite (size r1) (fuzz r1) -> positive_definite (size r2) (fuzz r2) ->
  same_estimate (td_size exact f) (est (delay_after [(r1, z); (r2, z)] f)) (est (delay_after [(together r1 r2, z)] f)).
Proof.
  intros r1 r2 z f Hd Hz HP H1 H2. unfold td_size in *. set (d := td_dim exact f) in *.
  assert (F2 : Forall (fun r => positive_definite (size (fst r)) (fuzz (fst r)) /\ (0 <= snd r < td_max exact f)%Z) [(r1, z); (r2, z)])
    by (apply Forall_cons; [split; [exact H1|exact Hz]|apply Forall_cons; [split; [exact H2|exact Hz]|apply Forall_nil]]).
  assert (F1 : Forall (fun r => positive_definite (size (fst r)) (fuzz (fst r)) /\ (0 <= snd r < td_max exact f)%Z) [(together r1 r2, z)])
    by (apply Forall_cons; [split; [exact (together_pd H1 H2)|exact Hz]|apply Forall_nil]).
  assert (T := delay_turn d _ [(r1, z); (r2, z)] f Hd eq_refl eq_refl F2 HP). assert (T' := delay_turn d _ [(together r1 r2, z)] f Hd eq_refl eq_refl F1 HP).
  cbn [map] in T, T'. apply (together_fused (r1 := delayed d (r1, z)) (r2 := delayed d (r2, z)) H1 H2 T).
  inversion T' as [|? ? ? s1 ? S1 S2]; subst. inversion S2; subst. unfold fused in *. eapply textbook_ext; [|exact S1].
  intros i j Hi Hj. unfold delayed, together, stacked_measurement. cbn [size sees fst snd]. destruct (j / d =? Z.to_nat z)%nat, (i <? size r1)%nat; reflexivity.
Qed.
End Filters.

(** ** C128: the EKF localizer *)
Lemma delay_of_is m now dt d : delay_of m now dt d -> d = Int_part (Rmax (IZR (now - stamp m) / 1000000000) 0 / dt + / 2).
Proof. intros [H1 H2]. unfold Int_part. rewrite <- (tech_up _ (d + 1)); [lia| |]; rewrite plus_IZR; lra. Qed.
Lemma heading_unique a b : - PI < a <= PI -> - PI < b <= PI -> same_heading a b -> a = b.
Proof.
  intros Ha Hb [k E]. assert (P := PI_RGT_0).
  assert (k = 0%Z); [|subst; lra].
  assert (K1 : (-1 < k)%Z) by (apply lt_IZR; nra). assert (K2 : (k < 1)%Z) by (apply lt_IZR; nra). lia.
Qed.
Section Node.
Variable inverse : nat -> (nat -> nat -> R) -> option (nat -> nat -> R).
Hypothesis Hinv : inverts inverse.
Variable junk : nat -> nat -> R.
Variable Orient : Type.
Variable get_yaw : Orient -> R.
Notation K := (ekf_kalman exact inverse junk).
Variable p : mparams exact.
Variable now : Z.
Variable dt : R.
Hypothesis Hdt : 0 < dt.
Hypothesis Hsteps : (0 < m_steps _ p < 2 ^ 64)%Z.
Notation blocks := (Z.to_nat (m_extend _ p)).
(** A message as a reading of the stacked state. *)
Definition as_reading (h : nat) (m : measurement) : reading :=
  Reading h (stacked_measurement 6 (Z.to_nat (Int_part (Rmax (IZR (now - stamp m) / 1000000000) 0 / dt + / 2))) (picks m)) (noise_of m (m_steps _ p)) (values m).
Lemma passed_fused h m s s' : treats h blocks (m_steps _ p) (m_gate _ p) now dt m s s' -> passes h blocks (m_gate _ p) now dt m s -> fused (blocks * 6) (as_reading h m) s s'.
Proof.
  intros (d & D0 & DD & T) (d' & D0' & DD' & C1 & C2). pose proof (delay_of_is _ _ _ _ DD) as E. pose proof (delay_of_is _ _ _ _ DD') as E'.
  assert (Q : d' = d) by (rewrite E, E'; reflexivity). clear E'. rewrite Q in C1, C2, DD', D0'; clear DD' D0'. clear d' Q. destruct T as [[_ T]|[N _]]; [|exfalso; exact (N (conj C1 C2))].
  unfold fused, as_reading. cbn [size sees fuzz reads]. rewrite <- E. exact T.
Qed.
(** The pose message m is accepted and turns the filter g into g'. *)
Definition pose_taken (m : pose_msg exact Orient) (g g' : tdkf exact) : Prop :=
  pose_body exact roundf_exact sin cos atan2 Orient get_yaw K p now dt g m = Ok g' /\
  exists yaw, yaw_of Orient get_yaw m yaw /\ passes 3 blocks (m_gate _ p) now dt (pose_as Orient m yaw) (est g).
Definition twist_taken (m : twist_msg exact) (g g' : tdkf exact) : Prop :=
  twist_body exact roundf_exact K p now dt g m = Ok g' /\ passes 2 blocks (m_gate _ p) now dt (twist_as m) (est g).
Definition pose_reading (m : pose_msg exact Orient) : reading := as_reading 3 (pose_as Orient m (norm_yaw (get_yaw (p_orient _ _ m)))).
Lemma poses_turn l f f' : sane blocks f -> Forall (sound_pose Orient) l -> (0 < m_extend _ p)%Z -> in_turn pose_taken l f f' ->
  in_turn (fused (blocks * 6)) (map pose_reading l) (est f) (est f').
Proof.
  intros S F M T. revert S F. induction T as [g|m l g g1 g2 [E (yaw & [Y1 Y2] & PA)] _ IH]; intros S F; [constructor|].
  inversion F as [|? ? F1 F2]; subst. destruct (norm_yaw_spec (get_yaw (p_orient _ _ m))) as [N1 N2].
  assert (EY : yaw = norm_yaw (get_yaw (p_orient _ _ m))) by (apply heading_unique; auto; apply heading_trans with (get_yaw (p_orient _ _ m)); [apply heading_sym|]; assumption).
  rewrite EY in PA. destruct F1 as [L36 PD].
  assert (PD' : positive_definite 3 (noise_of (pose_as Orient m (norm_yaw (get_yaw (p_orient _ _ m)))) (m_steps _ p))) by (apply noise_scaled; [lia|exact PD]).
  assert (B : m_extend _ p = Z.of_nat blocks) by lia.
  destruct (pose_treated inverse Hinv junk Orient get_yaw p now dt g m g1 blocks _ L36 S B Hsteps Hdt PD' N1 N2 E) as [T S'].
  econstructor; [exact (passed_fused 3 _ _ _ T PA)|]. apply IH; assumption.
Qed.
Lemma twists_turn l f f' : sane blocks f -> Forall sound_twist l -> (0 < m_extend _ p)%Z -> in_turn twist_taken l f f' ->
  in_turn (fused (blocks * 6)) (map (fun m => as_reading 2 (twist_as m)) l) (est f) (est f').
Proof.
  intros S F M T. revert S F. induction T as [g|m l g g1 g2 [E PA] _ IH]; intros S F; [constructor|].
  inversion F as [|? ? F1 F2]; subst. destruct F1 as [L36 PD].
  assert (PD' : positive_definite 2 (noise_of (twist_as m) (m_steps _ p))) by (apply noise_scaled; [lia|exact PD]).
  assert (B : m_extend _ p = Z.of_nat blocks) by lia.
  destruct (twist_treated inverse Hinv junk p now dt g m g1 blocks L36 S B Hsteps Hdt PD' E) as [T S'].
  econstructor; [exact (passed_fused 2 _ _ _ T PA)|]. apply IH; assumption.
Qed.
(** What holds: if every message is accepted when its turn comes, in either order, the
    estimates are the same. *)
Theorem C128_accepted_partial : forall f, td_dim exact f = 6%nat -> td_max exact f = m_extend _ p -> (0 < m_extend _ p)%Z ->
  positive_semidefinite (blocks * 6) (td_P exact f) ->
  (forall ms ms' f1 f2, Forall (sound_pose Orient) ms -> Permutation ms ms' -> in_turn pose_taken ms f f1 -> in_turn pose_taken ms' f f2 -> same_estimate (blocks * 6) (est f1) (est f2)) /\
  (forall ms ms' f1 f2, Forall sound_twist ms -> Permutation ms ms' -> in_turn twist_taken ms f f1 -> in_turn twist_taken ms' f f2 -> same_estimate (blocks * 6) (est f1) (est f2)).
Proof.
  intros f D M M0 HP. assert (S : sane blocks f) by (split; [lia|]; split; [lia|]; split; [exact D|exact HP]).
  split; intros ms ms' f1 f2 F PM T1 T2.
  - assert (F' : Forall (sound_pose Orient) ms') by (rewrite Forall_forall in *; intros r Hr; apply F; apply (Permutation_in r (Permutation_sym PM) Hr)).
    refine (@turn_permuted _ _ _ (est f) _ _ (Permutation_map pose_reading PM) _ _ _); [|apply poses_turn; assumption|apply poses_turn; assumption].
    rewrite Forall_map. eapply Forall_impl; [|exact F]. intros m [_ PD]. cbn. apply noise_scaled; [lia|exact PD].
  - assert (F' : Forall sound_twist ms') by (rewrite Forall_forall in *; intros r Hr; apply F; apply (Permutation_in r (Permutation_sym PM) Hr)).
    refine (@turn_permuted _ _ _ (est f) _ _ (Permutation_map (fun m => as_reading 2 (twist_as m)) PM) _ _ _); [|apply twists_turn; assumption|apply twists_turn; assumption].
    rewrite Forall_map. eapply Forall_impl; [|exact F]. intros m [_ PD]. cbn. apply noise_scaled; [lia|exact PD].
Qed.
End Node.

(** ** The code violates C128 *)
(** One copy of the state, smoothing over two ticks; the gate is 1.2 below; two poses one metre to the
    left and right of the estimate. *)
Definition swap_p (dist : R) : mparams exact := MParams exact "map" 1 dist 2.
Definition swap_f : tdkf exact := Td exact (fun _ => 0) identity 1 6.
Definition swap_pose (a : R) : pose_msg exact R := PoseMsg exact R "map" 5 a 0 0 0 eye36.
Lemma swap_pose_sound a : sound_pose R (swap_pose a).
Proof. destruct (unit_pose_sound 5) as [H1 H2]. split; [exact H1|exact H2]. Qed.
Lemma swap_first a x P : textbook_update (1 * 6) 3 (stacked_measurement 6 0 (picks (pose_as R (swap_pose a) 0))) (noise_of (pose_as R (swap_pose a) 0) 2) (values (pose_as R (swap_pose a) 0))
    (fun _ => 0) identity x P ->
  (x 0%nat = a / 3 /\ x 1%nat = 0 /\ x 2%nat = 0) /\ forall i j, (i < 3)%nat -> (j < 3)%nat -> P i j = if Nat.eqb i j then 2 / 3 else 0.
Proof.
  intros (V & G & [HV _] & HG & Hx & HP).
  set (C := stacked_measurement 6 0 (picks (pose_as R (swap_pose a) 0))) in *.
  assert (EC : forall k j, (k < 3)%nat -> (j < 6)%nat -> C k j = if Nat.eqb k j then 1 else 0).
  { intros k j Hk Hj. unfold C, stacked_measurement, picks. do 3 (destruct k as [|k]; [do 6 (destruct j as [|j]; [reflexivity|]); lia|]). lia. }
  assert (EI : forall k j, (k < 3)%nat -> (j < 6)%nat -> times 6 identity (flip C) j k = if Nat.eqb k j then 1 else 0).
  { intros k j Hk Hj. unfold times. rewrite (total_single 6 j).
    - unfold identity, flip. rewrite Nat.eqb_refl, EC by assumption. ring.
    - exact Hj.
    - intros l Hl Nl. unfold identity. destruct (Nat.eqb_spec j l); [lia|ring]. }
  assert (ES : forall i j, (i < 3)%nat -> (j < 3)%nat -> plus (times 6 C (times 6 identity (flip C))) (noise_of (pose_as R (swap_pose a) 0) 2) i j = if Nat.eqb i j then 3 else 0).
  { intros i j Hi Hj. unfold plus. replace (times 6 C (times 6 identity (flip C)) i j) with (if Nat.eqb i j then 1 else 0).
    - unfold noise_of, eye36, identity. do 3 (destruct i as [|i]; [do 3 (destruct j as [|j]; [cbn; lra|]); lia|]). lia.
    - unfold times at 1. rewrite (total_single 6 i) by first [lia | intros l Hl Nl; rewrite EC by lia; destruct (Nat.eqb_spec i l) as [Q|Q]; [congruence|ring]].
      rewrite EC, EI, Nat.eqb_refl, Nat.eqb_sym by lia. ring. }
  assert (EV : forall i j, (i < 3)%nat -> (j < 3)%nat -> V i j = if Nat.eqb i j then / 3 else 0).
  { intros i j Hi Hj. specialize (HV i j Hi Hj). revert HV. unfold times at 1. change (1 * 6)%nat with 6%nat. cbn [total]. rewrite !ES by lia. unfold identity.
    do 3 (destruct i as [|i]; [do 3 (destruct j as [|j]; [cbn; lra|]); lia|]). lia. }
  assert (EG : forall i k, (i < 3)%nat -> (k < 3)%nat -> G i k = if Nat.eqb i k then / 3 else 0).
  { intros i k Hi Hk. rewrite HG by lia. unfold times at 1. cbn [total]. rewrite !EV by lia. change (1 * 6)%nat with 6%nat. rewrite !EI by lia.
    do 3 (destruct i as [|i]; [do 3 (destruct k as [|k]; [cbn; lra|]); lia|]). lia. }
  split.
  - assert (Z : forall k, apply_to (1 * 6) C (fun _ => 0) k = 0) by (intros k; apply total_zero; intros; ring).
    split; [|split]; rewrite Hx by lia; unfold apply_to at 1; cbn [total]; rewrite !Z, !EG by lia; unfold values; cbn; lra.
  - intros i j Hi Hj. rewrite HP by lia. unfold minus. replace (times 3 G (times (1 * 6) C identity) i j) with (if Nat.eqb i j then / 3 else 0).
    { unfold identity. destruct (Nat.eqb i j); lra. }
    assert (EP : forall k, (k < 3)%nat -> times (1 * 6) C identity k j = if Nat.eqb k j then 1 else 0).
    { intros k Hk. unfold times. change (1 * 6)%nat with 6%nat. rewrite (total_single 6 j) by first [lia | intros l Hl Nl; unfold identity; destruct (Nat.eqb_spec l j) as [Q|Q]; [congruence|ring]].
      rewrite EC by lia. unfold identity. rewrite Nat.eqb_refl. ring. }
    unfold times at 1. cbn [total]. rewrite !EG, !EP by lia.
    do 3 (destruct i as [|i]; [do 3 (destruct j as [|j]; [cbn; lra|]); lia|]). lia.
Qed.
Lemma two_steps {Msg S : Type} (body : S -> Msg -> outcome S) a b s s1 s2 : body s a = Ok s1 -> body s1 b = Ok s2 ->
  update_loop body 2 2 0 (q_push (q_push q_empty a) b) s = Ok (Queue [a; b] [1%Z; 1%Z], s2).
Proof. intros E1 E2. cbn. rewrite E1. cbn. rewrite E2. reflexivity. Qed.
Lemma swap_yaw b yaw : yaw_of R (fun r => r) (swap_pose b) yaw -> yaw = 0.
Proof. intros [Y1 Y2]. symmetry. apply heading_unique; auto. pose proof PI_RGT_0. lra. Qed.
Lemma swap_delay b d : delay_of (pose_as R (swap_pose b) 0) 5 1 d <-> d = 0%Z.
Proof.
  unfold delay_of. cbn. replace (IZR (5 - 5) / 1000000000) with 0 by (cbn; lra). rewrite Rmax_left by lra. split; [intros [H1 H2]|intros ->; lra].
  assert (-1 < d)%Z by (apply lt_IZR; lra). assert (d < 1)%Z by (apply lt_IZR; lra). lia.
Qed.
Lemma swap_sane : sane 1 swap_f.
Proof. split; [lia|]. split; [reflexivity|]. split; [reflexivity|]. apply pd_is_psd, identity_pd. Qed.
Lemma swap_step inverse (Hinv : inverts inverse) junk dist g b : sane 1 g ->
  exists g', pose_body exact roundf_exact sin cos atan2 R (fun r => r) (ekf_kalman exact inverse junk) (swap_p dist) 5 1 g (swap_pose b) = Ok g' /\ sane 1 g' /\
    treats 3 1 2 dist 5 1 (pose_as R (swap_pose b) 0) (est g) (est g').
Proof.
  intros (G0 & G1 & G2 & G3).
  destruct (C89_pose inverse Hinv junk R (fun r => r) (swap_p dist) 5 1 g Rlt_0_1 ltac:(cbn; lia) G2 ltac:(cbn; lia) G3 (swap_pose b) (swap_pose_sound b) ltac:(cbn; lia) ltac:(unfold in_seconds; cbn; lra)) as (g' & yaw & E & YY & T).
  rewrite (swap_yaw _ _ YY) in T. exists g'. split; [exact E|]. split; [|exact T].
  refine (proj2 (pose_treated inverse Hinv junk R (fun r => r) (swap_p dist) 5 1 g (swap_pose b) g' 1 0 (proj1 (swap_pose_sound b)) (conj G0 (conj G1 (conj G2 G3))) eq_refl _ Rlt_0_1 _ _ _ E)).
  - cbn. lia.
  - apply noise_scaled; [cbn; lia|apply (swap_pose_sound b)].
  - pose proof PI_RGT_0. lra.
  - apply heading_refl.
Qed.
(** The first of the two poses is accepted. *)
Lemma swap_passes dist a : 1 <= dist -> a * a = 1 -> passes 3 1 dist 5 1 (pose_as R (swap_pose a) 0) (est swap_f).
Proof.
  intros Hd A2. exists 0%Z. split; [lia|]. split; [apply swap_delay; reflexivity|]. split; [lia|]. exists identity. split.
  - split; intros i j Hi Hj; unfold times, identity; do 3 (destruct i as [|i]; [do 3 (destruct j as [|j]; [cbn; lra|]); lia|]); lia.
  - unfold variance_along, values, identity. cbn. nra.
Qed.
Lemma swap_one inverse (Hinv : inverts inverse) junk dist a : 1 <= dist -> a * a = 1 ->
  exists g, pose_body exact roundf_exact sin cos atan2 R (fun r => r) (ekf_kalman exact inverse junk) (swap_p dist) 5 1 swap_f (swap_pose a) = Ok g /\ sane 1 g /\
    (td_x exact g 0%nat = a / 3 /\ td_x exact g 1%nat = 0 /\ td_x exact g 2%nat = 0) /\ forall i j, (i < 3)%nat -> (j < 3)%nat -> td_P exact g i j = if Nat.eqb i j then 2 / 3 else 0.
Proof.
  intros Hd A2. destruct (swap_step inverse Hinv junk dist swap_f a swap_sane) as (g & E1 & S2 & (d & D0 & DD & T)). exists g. split; [exact E1|]. split; [exact S2|].
  apply swap_delay in DD. subst d. destruct T as [[_ T]|[N _]]; [exact (swap_first a _ _ T)|].
  exfalso. apply N. destruct (swap_passes dist a Hd A2) as (d & _ & DD & L & G). apply swap_delay in DD. subst d. split; assumption.
Qed.
Lemma swap_run inverse (Hinv : inverts inverse) junk a : a = 1 \/ a = -1 ->
  exists q f', pose_update exact roundf_exact sin cos atan2 R (fun r => r) (ekf_kalman exact inverse junk) (swap_p (12 / 10)) (q_push (q_push q_empty (swap_pose a)) (swap_pose (- a))) swap_f 5 1 = Ok (q, f') /\ fst (est f') 0%nat = a / 3.
Proof.
  intros Ha. assert (A2 : a * a = 1) by (destruct Ha; subst; lra).
  destruct (swap_one inverse Hinv junk (12 / 10) a ltac:(lra) A2) as (g & E1 & S2 & [X0 [X1 X2]] & PP).
  destruct (swap_step inverse Hinv junk (12 / 10) g (- a) S2) as (g' & E2 & _ & T2).
  destruct T2 as (d' & D0' & DD' & [[[_ (V & [HV _] & GV)] _]|[_ E]]).
  { exfalso. apply swap_delay in DD'. subst d'.
    assert (EV : forall i j, (i < 3)%nat -> (j < 3)%nat -> V i j = if Nat.eqb i j then 3 / 2 else 0).
    { intros i j Hi Hj. specialize (HV i j Hi Hj). revert HV. unfold times. cbn [total col cols pose_as nth]. change (snd (est g)) with (td_P exact g) in *.
      do 3 (destruct i as [|i]; [do 3 (destruct j as [|j]; [cbn; rewrite !PP by lia; cbn; unfold identity; cbn; lra|]); lia|]). lia. }
    revert GV. unfold variance_along. cbn [total]. rewrite !EV by lia. unfold values. cbn. rewrite X0, X1, X2. nra. }
  exists (Queue [swap_pose a; swap_pose (- a)] [1%Z; 1%Z]), g'. split.
  - exact (two_steps _ _ _ _ _ _ E1 E2).
  - rewrite E. exact X0.
Qed.
(** The same two poses in the two orders leave the estimate on different sides. *)
Theorem C128_order_refuted : exists (p : mparams exact) (now : Z) (dt : R) (f : tdkf exact) (m1 m2 : pose_msg exact R),
  sound_pose R m1 /\ sound_pose R m2 /\ p_stamp _ _ m1 = p_stamp _ _ m2 /\ td_dim exact f = 6%nat /\ td_max exact f = m_extend _ p /\ positive_definite 6 (td_P exact f) /\
  forall inverse junk, inverts inverse ->
  let update := pose_update exact roundf_exact sin cos atan2 R (fun r => r) (ekf_kalman exact inverse junk) p in
  exists q1 f1 q2 f2, update (q_push (q_push q_empty m1) m2) f now dt = Ok (q1, f1) /\ update (q_push (q_push q_empty m2) m1) f now dt = Ok (q2, f2) /\
    fst (est f1) 0%nat = / 3 /\ fst (est f2) 0%nat = - / 3.
Proof.
  exists (swap_p (12 / 10)), 5%Z, 1, swap_f, (swap_pose 1), (swap_pose (-1)). split; [apply swap_pose_sound|]. split; [apply swap_pose_sound|]. do 3 (split; [reflexivity|]). split; [apply identity_pd|].
  intros inverse junk Hinv update.
  destruct (swap_run inverse Hinv junk 1 (or_introl eq_refl)) as (q1 & f1 & E1 & X1). destruct (swap_run inverse Hinv junk (-1) (or_intror eq_refl)) as (q2 & f2 & E2 & X2).
  replace (- (1)) with (-1) in E1 by lra. replace (- (-1)) with 1 in E2 by lra.
  exists q1, f1, q2, f2. split; [exact E1|]. split; [exact E2|]. split; [rewrite X1|rewrite X2]; lra.
Qed.

(** ** Cases *)
(** With a wide gate both poses are accepted in either order. *)
Example C128_accepted_case : Permutation [swap_pose 1; swap_pose (-1)] [swap_pose (-1); swap_pose 1] /\
  forall inverse junk, inverts inverse -> exists f1 f2,
    in_turn (pose_taken inverse junk R (fun r => r) (swap_p 100) 5 1) [swap_pose 1; swap_pose (-1)] swap_f f1 /\
    in_turn (pose_taken inverse junk R (fun r => r) (swap_p 100) 5 1) [swap_pose (-1); swap_pose 1] swap_f f2.
Proof.
  split; [constructor|]. intros inverse junk Hinv.
  assert (Y0 : forall b, yaw_of R (fun r => r) (swap_pose b) 0) by (intros b; split; [pose proof PI_RGT_0; lra|apply heading_refl]).
  assert (B : forall a, a * a = 1 -> exists f', in_turn (pose_taken inverse junk R (fun r => r) (swap_p 100) 5 1) [swap_pose a; swap_pose (- a)] swap_f f').
  { intros a A2. destruct (swap_one inverse Hinv junk 100 a ltac:(lra) A2) as (g & E1 & S2 & [X0 [X1 X2]] & PP).
    destruct (swap_step inverse Hinv junk 100 g (- a) S2) as (g' & E2 & _ & _). exists g'.
    apply in_turn_cons with (s1 := g); [|apply in_turn_cons with (s1 := g'); [|constructor]].
    - split; [exact E1|]. exists 0. split; [apply Y0|]. apply swap_passes; [cbn; lra|exact A2].
    - split; [exact E2|]. exists 0. split; [apply Y0|]. exists 0%Z. split; [lia|]. split; [apply swap_delay; reflexivity|]. split; [cbn; lia|].
      exists (fun i j => if Nat.eqb i j then 3 / 2 else 0). split.
      + split; intros i j Hi Hj; unfold times, identity; do 3 (destruct i as [|i]; [do 3 (destruct j as [|j]; [cbn; rewrite !PP by lia; cbn; lra|]); lia|]); lia.
      + unfold variance_along, values. cbn. rewrite X0, X1, X2. nra. }
  destruct (B 1) as [f1 T1]; [lra|]. destruct (B (-1)) as [f2 T2]; [lra|]. exists f1, f2.
  replace (- (1)) with (-1) in T1 by lra. replace (- (-1)) with 1 in T2 by lra. split; [exact T1|exact T2].
Qed.
(** Two readings, of one and of two values, for filters of two states. *)
Definition swap_r1 : reading := Reading 1 (fun _ j => if Nat.eqb j 0 then 1 else 0) identity (fun _ => 5).
Definition swap_r2 : reading := Reading 2 identity identity INR.
Example C127_case : Permutation [swap_r1; swap_r2] [swap_r2; swap_r1] /\ Forall (fun r => positive_definite (size r) (fuzz r)) [swap_r1; swap_r2] /\
  positive_semidefinite 2 (kf_P exact (kf_init exact ex_x0 identity)) /\
  Permutation [(swap_r1, 0%Z); (swap_r2, 2%Z)] [(swap_r2, 2%Z); (swap_r1, 0%Z)] /\ (0 < td_dim exact ex_filter)%nat /\
  Forall (fun r => positive_definite (size (fst r)) (fuzz (fst r)) /\ (0 <= snd r < td_max exact ex_filter)%Z) [(swap_r1, 0%Z); (swap_r2, 2%Z)] /\
  positive_semidefinite (td_size exact ex_filter) (td_P exact ex_filter).
Proof.
  split; [constructor|]. split; [|split; [apply pd_is_psd, identity_pd|split; [constructor|split; [cbn; lia|split; [|apply ex_filter_psd]]]]].
  - apply Forall_cons; [apply identity_pd|]. apply Forall_cons; [apply identity_pd|apply Forall_nil].
  - apply Forall_cons; [split; [apply identity_pd|cbn; lia]|]. apply Forall_cons; [split; [apply identity_pd|cbn; lia]|apply Forall_nil].
Qed.

Print Assumptions C127_plain.
Print Assumptions C127_plain_together.
Print Assumptions C127_delay.
Print Assumptions C127_delay_together.
Print Assumptions C128_accepted_partial.
Print Assumptions C128_order_refuted.
