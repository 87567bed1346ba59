(** C125, C126: the filters use a measurement in the best way, and it draws the estimate
    towards it.  The vocabulary is in SpecBest.v. *)
From Coq Require Import Reals Lra Lia PeanoNat List Bool ZArith String.
From Verif Require Import Base Arith SpecReal AngleProofs EkfModel SpecEkf KalmanModel SpecKalman SpecFusion SpecCycle StackProofs KalmanProofs2 KalmanProofs3 SpecBest BestProofs
  Prop_Interval FusionProofs FusionNodeProofs Prop_Kalman Prop_Ekf Prop_Fusion.
Import ListNotations.
Local Open Scope R_scope.

Lemma weighted_ext h W a b a' b' : (forall i, (i < h)%nat -> a i = a' i) -> (forall i, (i < h)%nat -> b i = b' i) -> weighted h W a b = weighted h W a' b'.
Proof. intros Ha Hb. unfold weighted. apply total_ext. intros i Hi. apply total_ext. intros j Hj. now rewrite Ha, Hb. Qed.
Lemma weighted_scaled h W c a b : weighted h (scaled c W) a b = c * weighted h W a b.
Proof. unfold weighted. rewrite <- total_scal. apply total_ext. intros i Hi. rewrite <- total_scal. apply total_ext. intros j Hj. unfold scaled. ring. Qed.
Lemma drawn_ext h W a b a' b' : (forall i, (i < h)%nat -> a i = a' i) -> (forall i, (i < h)%nat -> b i = b' i) -> drawn h W a b -> drawn h W a' b'.
Proof.
  intros Ha Hb. unfold drawn. rewrite (weighted_ext _ _ _ _ _ _ Hb Hb), (weighted_ext _ _ _ _ _ _ Hb Ha), (weighted_ext _ _ _ _ _ _ Ha Ha). auto.
Qed.
Lemma drawn_scaled h W c a b : 0 < c -> drawn h (scaled c W) a b -> drawn h W a b.
Proof. intros Hc. unfold drawn. rewrite !weighted_scaled. intros [[H1 H2] H3]. repeat split; apply (Rmult_le_reg_l c); rewrite ?Rmult_0_r; auto. Qed.
Lemma drawn_refl h N W a : positive_definite h N -> is_inverse h N W -> drawn h W a a.
Proof. intros PN IW. pose proof (weighted_nonneg a PN IW). split; [split|]; auto; apply Rle_refl. Qed.
(** A delayed measurement sees its copy of the state. *)
Lemma stacked_reading d b n C x k : (0 < d)%nat -> (b < n)%nat -> apply_to (n * d) (stacked_measurement d b C) x k = apply_to d C (fun i => x (b * d + i)%nat) k.
Proof.
  intros Hd Hb. unfold apply_to. replace (n * d)%nat with (b * d + (d + (n - b - 1) * d))%nat by nia.
  rewrite total_split, total_split. rewrite (total_zero (b * d)), (total_zero ((n - b - 1) * d)), Rplus_0_l, Rplus_0_r.
  - apply total_ext. intros i Hi. unfold stacked_measurement. rewrite Nat.div_add_l, (Nat.div_small i d), Nat.add_0_r, Nat.eqb_refl by lia.
    rewrite Nat.add_comm, Nat.mod_add, Nat.mod_small by lia. reflexivity.
  - intros i Hi. unfold stacked_measurement. replace (b * d + (d + i))%nat with ((b + 1) * d + i)%nat by ring. rewrite Nat.div_add_l by lia.
    destruct (Nat.eqb_spec (b + 1 + i / d) b); [lia|ring].
  - intros i Hi. unfold stacked_measurement. assert (Q : (i / d < b)%nat) by (apply Nat.div_lt_upper_bound; lia).
    destruct (Nat.eqb_spec (i / d) b); [lia|ring].
Qed.

Section Filters.
Variable inverse : nat -> (nat -> nat -> R) -> option (nat -> nat -> R).
Hypothesis Hinv : inverts inverse.
Variable junk : nat -> nat -> R.

(** ** C125: the best use of the measurement *)
(** Every combination of the new estimate is the old one plus a combination of what was
    unexpected in the measurement; the reported variance is the variance of its error; and
    no other combination has a smaller one. *)
Theorem C125_plain : forall n h f y C N f', positive_semidefinite n (kf_P exact f) -> positive_definite h N ->
  kf_update_with exact inverse n h f y C N = (Ok tt, f') ->
  forall v, exists l, combination n v (kf_x exact f') = combination n v (kf_x exact f) + combination h l (surprise n C y (kf_x exact f)) /\
    variance_along n (kf_P exact f') v = error_variance n h C (kf_P exact f) N v l /\
    forall l', variance_along n (kf_P exact f') v <= error_variance n h C (kf_P exact f) N v l'.
Proof. intros n h f y C N f' HP HN E. exact (textbook_best HP HN (kf_update_textbook Hinv E)). Qed.
Theorem C125_delay : forall h f y C N delay f', (0 < td_dim exact f)%nat -> (0 <= delay < td_max exact f)%Z ->
  positive_semidefinite (td_size exact f) (td_P exact f) -> positive_definite h N ->
  td_update exact inverse h f y C N delay = (Ok tt, f') ->
  let n := td_size exact f in let D := stacked_measurement (td_dim exact f) (Z.to_nat delay) C in
  forall v, exists l, combination n v (td_x exact f') = combination n v (td_x exact f) + combination h l (surprise n D y (td_x exact f)) /\
    variance_along n (td_P exact f') v = error_variance n h D (td_P exact f) N v l /\
    forall l', variance_along n (td_P exact f') v <= error_variance n h D (td_P exact f) N v l'.
Proof.
  intros h f y C N z f' Hd Hz HP HN E n D. assert (T := @C57_update inverse Hinv junk h f y C N z Hd Hz). cbn zeta in T. rewrite E in T.
  exact (textbook_best HP HN (proj1 T)).
Qed.

(** ** C126: towards the measurement *)
(** Measured by the measurement's own precision W, what remains of the difference between
    measurement and estimate points the way it did and is not larger; it is smaller if there
    was a difference and every measured quantity was uncertain. *)
Theorem C126_plain : forall n h f y C N W f', positive_semidefinite n (kf_P exact f) -> positive_definite h N -> is_inverse h N W ->
  kf_update_with exact inverse n h f y C N = (Ok tt, f') ->
  let before := surprise n C y (kf_x exact f) in let after := surprise n C y (kf_x exact f') in
  drawn h W before after /\
  (positive_definite h (times n C (times n (kf_P exact f) (flip C))) -> (exists k, (k < h)%nat /\ before k <> 0) -> weighted h W after after < weighted h W before before).
Proof.
  intros n h f y C N W f' HP HN HW E before after. assert (T := kf_update_textbook Hinv E). split; [exact (textbook_drawn HP HN HW T)|].
  intros H1 H2. exact (textbook_nearer HP HN HW T H1 H2).
Qed.
(** The same for the copy of the state that a delayed measurement is about. *)
Theorem C126_delay : forall h f y C N W delay f' s s', (0 < td_dim exact f)%nat ->
  positive_semidefinite (td_size exact f) (td_P exact f) -> positive_definite h N -> is_inverse h N W ->
  td_get_x exact f delay = Ok s -> td_update exact inverse h f y C N delay = (Ok tt, f') -> td_get_x exact f' delay = Ok s' ->
  let d := td_dim exact f in let before := surprise d C y s in let after := surprise d C y s' in
  let D := stacked_measurement d (Z.to_nat delay) C in
  drawn h W before after /\
  (positive_definite h (times (td_size exact f) D (times (td_size exact f) (td_P exact f) (flip D))) -> (exists k, (k < h)%nat /\ before k <> 0) -> weighted h W after after < weighted h W before before).
Proof.
  intros h f y C N W z f' s s' Hd HP HN HW G E G' d before after D.
  unfold td_get_x in G. destruct (Z.leb_spec 0 z) as [L1|]; [|discriminate]. destruct (Z.ltb_spec z (td_max exact f)) as [L2|]; [|discriminate]. cbn [andb] in G. injection G as <-.
  assert (T := @C57_update inverse Hinv junk h f y C N z Hd (conj L1 L2)). cbn zeta in T. rewrite E in T. destruct T as (T & M' & D').
  unfold td_get_x in G'. rewrite M', D' in G'. replace ((0 <=? z)%Z && (z <? td_max exact f)%Z) with true in G' by lia. injection G' as <-.
  assert (Q : forall g k, td_max exact g = td_max exact f -> surprise (td_size exact f) D y (td_x exact g) k = surprise d C y (fun i => td_x exact g (Z.to_nat z * td_dim exact f + i)%nat) k).
  { intros g k _. unfold surprise. f_equal. apply stacked_reading; [exact Hd|lia]. }
  split.
  - eapply drawn_ext; [| |exact (textbook_drawn HP HN HW T)]; intros i Hi; apply Q; auto.
  - intros H1 [k [Hk Nz]].
    assert (EA : weighted h W (surprise (td_size exact f) D y (td_x exact f')) (surprise (td_size exact f) D y (td_x exact f')) = weighted h W after after) by (apply weighted_ext; intros i Hi; apply Q; auto).
    assert (EB : weighted h W (surprise (td_size exact f) D y (td_x exact f)) (surprise (td_size exact f) D y (td_x exact f)) = weighted h W before before) by (apply weighted_ext; intros i Hi; apply Q; auto).
    rewrite <- EA, <- EB.
    apply (textbook_nearer HP HN HW T H1). exists k. split; [exact Hk|]. intros Z. apply Nz. unfold before. rewrite <- (Q f k eq_refl). exact Z.
Qed.
End Filters.

(** The node: a pose or twist message, fused or rejected. *)
Lemma treats_drawn h blocks steps dist now dt m s s' W : (forall k, (k < h)%nat -> (col m k < 6)%nat) -> (0 < steps)%Z ->
  positive_semidefinite (blocks * 6) (snd s) -> positive_definite h (noise_of m 1) -> is_inverse h (noise_of m 1) W ->
  treats h blocks steps dist now dt m s s' ->
  exists d, (0 <= d)%Z /\ delay_of m now dt d /\ drawn h W (gap m (Z.to_nat d) s) (gap m (Z.to_nat d) s').
Proof.
  intros HC HS HP HN HW (d & D0 & DD & T). exists d. split; [exact D0|]. split; [exact DD|].
  destruct T as [[[L _] T]|[_ ->]]; [|exact (drawn_refl _ _ _ _ HN HW)].
  assert (SP : 0 < IZR steps) by (apply IZR_lt; lia).
  assert (IW : is_inverse h (noise_of m steps) (scaled (/ IZR steps) W)).
  { destruct HW as [W1 W2]. split; intros i j Hi Hj.
    - rewrite <- (W1 i j Hi Hj). unfold times. apply total_ext. intros l _. unfold noise_of, scaled. field. lra.
    - rewrite <- (W2 i j Hi Hj). unfold times. apply total_ext. intros l _. unfold noise_of, scaled. field. lra. }
  apply (drawn_scaled h W (/ IZR steps)); [apply Rinv_0_lt_compat; exact SP|].
  assert (Q : forall x k, (k < h)%nat -> surprise (blocks * 6) (stacked_measurement 6 (Z.to_nat d) (picks m)) (values m) x k = values m k - x (Z.to_nat d * 6 + col m k)%nat).
  { intros x k Hk. unfold surprise. f_equal. rewrite stacked_reading by lia. unfold apply_to, picks. rewrite (total_single 6 (col m k)).
    - rewrite Nat.eqb_refl. ring.
    - now apply HC.
    - intros i _ Ni. destruct (Nat.eqb_spec i (col m k)); [contradiction|ring]. }
  eapply drawn_ext; [| |exact (textbook_drawn HP (noise_scaled m steps HS h HN) IW T)]; intros i Hi; apply Q; exact Hi.
Qed.
Section Node.
Variable inverse : nat -> (nat -> nat -> R) -> option (nat -> nat -> R).
Hypothesis Hinv : inverts inverse.
Variable junk : nat -> nat -> R.
Variable Orient : Type.
Variable get_yaw : Orient -> R.
Notation K := (ekf_kalman exact inverse junk).
Variable p : mparams exact.
Variable now : Z.
Variable dt : R.
Variable f : tdkf exact.
Hypothesis Hdt : 0 < dt.
Hypothesis Hsteps : (0 < m_steps _ p < 2 ^ 64)%Z.
Hypothesis Hdim : td_dim exact f = 6%nat.
Hypothesis Hmax : td_max exact f = m_extend _ p /\ (0 < m_extend _ p)%Z.
Hypothesis Hpsd : positive_semidefinite (Z.to_nat (m_extend _ p) * 6) (td_P exact f).
(** W is the precision the message claims: the inverse of its covariance. *)
Theorem C126_pose : forall m W, sound_pose Orient m -> (0 <= p_stamp _ _ m)%Z -> in_seconds (now - p_stamp _ _ m) / dt <= IZR (2 ^ 31 - 1) ->
  is_inverse 3 (noise_of (pose_as Orient m 0) 1) W ->
  exists f' yaw d, pose_body exact roundf_exact sin cos atan2 Orient get_yaw K p now dt f m = Ok f' /\ yaw_of Orient get_yaw m yaw /\
    (0 <= d)%Z /\ delay_of (pose_as Orient m yaw) now dt d /\
    drawn 3 W (gap (pose_as Orient m yaw) (Z.to_nat d) (est f)) (gap (pose_as Orient m yaw) (Z.to_nat d) (est f')).
Proof.
  intros m W SM S0 FIT HW. destruct (C89_pose inverse Hinv junk Orient get_yaw p now dt f Hdt Hsteps Hdim Hmax Hpsd m SM S0 FIT) as (f' & yaw & E & Y & T).
  exists f', yaw. assert (HC : forall k, (k < 3)%nat -> (col (pose_as Orient m yaw) k < 6)%nat) by (intros k Hk; destruct k as [|[|[|k]]]; cbn; lia).
  destruct (treats_drawn 3 _ _ _ now dt (pose_as Orient m yaw) (est f) (est f') W HC (proj1 Hsteps) Hpsd (proj2 SM) HW T) as (d & D0 & DD & G). exists d. auto.
Qed.
Theorem C126_twist : forall m W, sound_twist m -> (0 <= t_stamp _ m)%Z -> in_seconds (now - t_stamp _ m) / dt <= IZR (2 ^ 31 - 1) ->
  is_inverse 2 (noise_of (twist_as m) 1) W ->
  exists f' d, twist_body exact roundf_exact K p now dt f m = Ok f' /\ (0 <= d)%Z /\ delay_of (twist_as m) now dt d /\
    drawn 2 W (gap (twist_as m) (Z.to_nat d) (est f)) (gap (twist_as m) (Z.to_nat d) (est f')).
Proof.
  intros m W SM S0 FIT HW. destruct (C89_twist inverse Hinv junk p now dt f Hdt Hsteps Hdim Hmax Hpsd m SM S0 FIT) as (f' & E & T).
  exists f'. assert (HC : forall k, (k < 2)%nat -> (col (twist_as m) k < 6)%nat) by (intros k Hk; destruct k as [|[|k]]; cbn; lia).
  destruct (treats_drawn 2 _ _ _ now dt (twist_as m) (est f) (est f') W HC (proj1 Hsteps) Hpsd (proj2 SM) HW T) as (d & D0 & DD & G). exists d. auto.
Qed.
End Node.

(** ** Cases *)
Lemma identity_own n : is_inverse n identity identity.
Proof.
  assert (H : same_matrix n n (times n identity identity) identity); [|split; exact H].
  intros i j Hi Hj. unfold times. rewrite (total_single n i); auto.
  - unfold identity at 1. rewrite Nat.eqb_refl. ring.
  - intros l _ Nl. unfold identity at 1. destruct (Nat.eqb_spec i l); [congruence|ring].
Qed.
(** A plain filter of two states, one of which is measured as 5. *)
Example C125_plain_case : exists f', kf_update_with exact some_inverse 2 1 (kf_init exact ex_x0 identity) (fun _ => 5) (fun _ j => if Nat.eqb j 0 then 1 else 0) identity = (Ok tt, f') /\
  positive_semidefinite 2 (kf_P exact (kf_init exact ex_x0 identity)) /\ positive_definite 1 identity /\ is_inverse 1 identity identity /\
  surprise 2 (fun _ j => if Nat.eqb j 0 then 1 else 0) (fun _ => 5) (kf_x exact (kf_init exact ex_x0 identity)) 0 <> 0 /\
  positive_definite 1 (times 2 (fun _ j => if Nat.eqb j 0 then 1 else 0) (times 2 identity (flip (fun _ j => if Nat.eqb j 0 then 1 else 0)))).
Proof.
  destruct (kf_update_facts some_inverse_inverts (n := 2) (h := 1) (f := kf_init exact ex_x0 identity) (fun _ => 5) (fun _ j => if Nat.eqb j 0 then 1 else 0)
    (pd_is_psd _ _ (identity_pd 2)) (identity_pd 1)) as [f' [E _]].
  exists f'. split; [exact E|]. split; [apply pd_is_psd, identity_pd|]. split; [apply identity_pd|]. split; [apply identity_own|]. split.
  - unfold surprise, apply_to, kf_init, ex_x0. cbn. lra.
  - split; [intros i j Hi Hj; replace i with 0%nat by lia; replace j with 0%nat by lia; reflexivity|].
    intros v [i [Hi Nz]]. replace i with 0%nat in Nz by lia. unfold variance_along, times, flip, identity. cbn. assert (P : 0 < v 0%nat * v 0%nat) by (apply Rsqr_pos_lt; exact Nz). lra.
Qed.
(** A filter with delayed copies, and a measurement of the last but one. *)
Example C125_delay_case : exists f' s s', td_update exact some_inverse 1 ex_filter (fun _ => 5) (fun _ j => if Nat.eqb j 0 then 1 else 0) identity 1 = (Ok tt, f') /\
  (0 < td_dim exact ex_filter)%nat /\ positive_semidefinite (td_size exact ex_filter) (td_P exact ex_filter) /\ positive_definite 1 identity /\
  td_get_x exact ex_filter 1 = Ok s /\ td_get_x exact f' 1 = Ok s' /\ surprise 2 (fun _ j => if Nat.eqb j 0 then 1 else 0) (fun _ => 5) s 0 <> 0.
Proof.
  destruct (td_update_facts some_inverse_inverts (f := ex_filter) (h := 1) (fun _ => 5) (fun _ j => if Nat.eqb j 0 then 1 else 0) (N := identity) (z := 1%Z)) as [f' [E F]].
  all: try (cbn; lia); try apply identity_pd; try apply ex_filter_psd.
  destruct F as (M & _). exists f'. do 2 eexists. split; [exact E|]. split; [cbn; lia|]. split; [apply ex_filter_psd|]. split; [apply identity_pd|].
  split; [reflexivity|]. split; [unfold td_get_x; rewrite M; reflexivity|]. unfold surprise, apply_to. cbn. change (Pos.to_nat 1) with 1%nat. unfold set_seq, ex_x0. cbn. lra.
Qed.
(** A pose message with unit covariance, and a filter of two copies. *)
Example C126_pose_case : sound_pose R (unit_pose 5) /\ is_inverse 3 (noise_of (pose_as R (unit_pose 5) 0) 1) identity /\ sound_twist (unit_twist 5) /\ is_inverse 2 (noise_of (twist_as (unit_twist 5)) 1) identity /\
  gap (pose_as R (unit_pose 5) 0) 1 (est (Td exact (fun _ => 0) identity 2 6)) 0 <> 0.
Proof.
  split; [apply unit_pose_sound|]. split; [|split; [apply unit_twist_sound|split]].
  - split; intros i j Hi Hj; unfold times, noise_of, identity; do 3 (destruct i as [|i]; [do 3 (destruct j as [|j]; [cbn; ring|]); lia|]); lia.
  - split; intros i j Hi Hj; unfold times, noise_of, identity; do 2 (destruct i as [|i]; [do 2 (destruct j as [|j]; [cbn; ring|]); lia|]); lia.
  - unfold gap, values. cbn. lra.
Qed.

Print Assumptions C125_plain.
Print Assumptions C125_delay.
Print Assumptions C126_plain.
Print Assumptions C126_delay.
Print Assumptions C126_pose.
Print Assumptions C126_twist.
