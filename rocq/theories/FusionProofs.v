(** Proofs about the update cycle of the EKF localizer (C88-C92), in exact arithmetic with the
    repository's time-delay filter. *)
From Coq Require Import Reals Lra Lia PeanoNat List Bool ZArith String.
From Flocq Require Import Core.
From Coquelicot Require Import Coquelicot.
From Verif Require Import Base Arith SpecReal AngleProofs EkfModel SpecEkf EkfProofs KalmanModel SpecKalman SpecFusion SpecCycle StackProofs KalmanProofs2 KalmanProofs3
  IntervalProofs QueueProofs Prop_Interval Prop_Queue EkfNodeProofs Prop_Kalman Prop_Ekf Prop_EkfMore.
Import ListNotations.
Local Open Scope R_scope.

Section Fusion.
Variable inverse : nat -> (nat -> nat -> R) -> option (nat -> nat -> R).
Hypothesis Hinv : inverts inverse.
Variable junk : nat -> nat -> R.
Variable Orient : Type.
Variable get_yaw get_roll get_pitch : Orient -> R.
Notation K := (ekf_kalman exact inverse junk).

(** Filters of the node: six components, [blocks] copies, a valid covariance. *)
Definition sane (blocks : nat) (f : tdkf exact) : Prop :=
  (0 < blocks)%nat /\ td_max exact f = Z.of_nat blocks /\ td_dim exact f = 6%nat /\ positive_semidefinite (blocks * 6) (td_P exact f).
Lemma sane_size blocks f : sane blocks f -> td_size exact f = (blocks * 6)%nat.
Proof. intros (_ & H1 & H2 & _). unfold td_size. rewrite H1, H2, Nat2Z.id. reflexivity. Qed.

(** ** The delay *)
Lemma delay_step_of m now dt d : 0 < dt ->
  compute_delay_step exact roundf_exact (compute_delay_time exact now (stamp m)) dt = Ok d -> (0 <= d)%Z /\ delay_of m now dt d.
Proof.
  intros P. unfold compute_delay_step, roundf_exact, d_max, compute_delay_time, seconds. cbn [exact d_of_Z d_ltb d_div D].
  set (delay := IZR (now - stamp m) / 1000000000).
  replace (if Rltb delay 0 then 0 else delay) with (Rmax delay 0).
  2: { destruct (Rltb delay 0) eqn:E; [apply Rltb_spec in E; apply Rmax_right; lra|]. apply Rmax_left. destruct (Rle_or_lt 0 delay); auto. apply Rltb_spec in H. congruence. }
  destruct (_ && _) eqn:C; [|discriminate]. intros E. injection E as <-.
  assert (Q : 0 <= Rmax delay 0 / dt) by (apply quot_nonneg; auto).
  split.
  - apply Z.le_trans with (ZnearestA (IZR 0)); [rewrite ZnearestA_IZR; lia|]. apply ZnearestA_mono. exact Q.
  - unfold delay_of. fold delay. set (q := Rmax delay 0 / dt) in *.
    unfold Znearest. assert (F1 := Zfloor_lb q). assert (F2 := Zfloor_ub q).
    assert (FN : (0 <= Zfloor q)%Z) by (apply Zfloor_lub; exact Q).
    assert (CF : IZR (Zfloor q) <> q -> Zceil q = (Zfloor q + 1)%Z) by (intros N; apply Zceil_floor_neq; exact N).
    destruct (Rcompare_spec (q - IZR (Zfloor q)) (/ 2)) as [L|L|L].
    + lra.
    + replace (0 <=? Zfloor q)%Z with true by lia. rewrite CF by lra. rewrite plus_IZR. lra.
    + rewrite CF by lra. rewrite plus_IZR. lra.
Qed.

(** ** The gate *)
Lemma gate_inside h dist xs ys cov x y P : List.length xs = h -> same_vector h (list_vector exact xs) x -> same_vector h (list_vector exact ys) y ->
  same_matrix h h (list_matrix exact cov) P ->
  gate exact K dist xs ys cov = true <-> inside_gate h P dist (fun k => x k - y k).
Proof.
  intros L Ex Ey EP. cbn [gate ekf_kalman]. rewrite L. unfold mahalanobis_gate, squared_mahalanobis.
  assert (HI := Hinv h (list_matrix exact cov)). destruct (inverse h (list_matrix exact cov)) as [V|].
  - rewrite distance_variance. rewrite Rleb_true.
    assert (IV : is_inverse h P V) by (eapply is_inverse_ext; [exact EP|exact HI]).
    assert (VE : variance_along h V (vsub exact (list_vector exact xs) (list_vector exact ys)) = variance_along h V (fun k => x k - y k)).
    { apply variance_ext; [intros i j _ _; reflexivity|]. intros i Hi. unfold vsub. cbn [exact d_sub]. now rewrite (Ex i Hi), (Ey i Hi). }
    rewrite VE. split.
    + intros H. exists V. split; [exact IV|exact H].
    + intros (W & HW & H). rewrite (variance_ext h V W _ (fun k => x k - y k)); [exact H|apply (inverse_unique IV HW)|intros i Hi; reflexivity].
  - split; [discriminate|]. intros (W & HW & _). exfalso. apply (HI W). eapply is_inverse_ext; [|exact HW].
    intros i j Hi Hj. symmetry. now apply EP.
Qed.

(** ** The part common to both measurements *)
Lemma core (m : measurement) h blocks steps dist now dt d f f' xs ys cov C N :
  sane blocks f -> (forall k, (k < h)%nat -> (col m k < 6)%nat) -> positive_definite h (noise_of m steps) -> (0 <= d < Z.of_nat blocks)%Z ->
  List.length xs = h -> List.length ys = h ->
  same_vector h (list_vector exact xs) (fun k => td_x exact f (Z.to_nat d * 6 + col m k)%nat) ->
  same_vector h (list_vector exact ys) (values m) ->
  same_matrix h h (list_matrix exact cov) (fun i j => td_P exact f (col m i) (col m j)) ->
  same_matrix h 6 (list_matrix exact C) (picks m) -> same_matrix h h (list_matrix exact N) (noise_of m steps) ->
  (if negb (gate exact K dist xs ys cov) then Ok f else try_update exact K f (kf_update exact K f ys C N d)) = Ok f' ->
  delay_of m now dt d ->
  treats h blocks steps dist now dt m (est f) (est f') /\ sane blocks f'.
Proof.
  intros SF HC HN Hd Lx Ly Ex Ey EP EC EN E ED. pose proof SF as (B0 & S1 & S2 & S3). pose proof (sane_size _ _ SF) as SZ.
  pose proof (gate_inside h dist xs ys cov _ _ _ Lx Ex Ey EP) as G.
  destruct (gate exact K dist xs ys cov) eqn:EG; cbn [negb] in E.
  - assert (HN' : positive_definite h (list_matrix exact N)).
    { split.
      - intros i j Hi Hj. rewrite (EN i j Hi Hj), (EN j i Hj Hi). now apply HN.
      - intros v Hv. rewrite (variance_ext h _ (noise_of m steps) v v EN); [now apply HN|intros i _; reflexivity]. }
    assert (HP : positive_semidefinite (td_size exact f) (td_P exact f)) by (rewrite SZ; exact S3).
    assert (Hd' : (0 <= d < td_max exact f)%Z) by lia.
    destruct (td_update_facts Hinv (list_vector exact ys) (list_matrix exact C) (ltac:(rewrite S2; lia)) HP HN' Hd') as (g & U & G1 & G2 & G3 & _).
    pose proof (@C57_update inverse Hinv junk h f (list_vector exact ys) (list_matrix exact C) (list_matrix exact N) d ltac:(rewrite S2; lia) Hd') as T.
    cbn zeta in T. rewrite U in T. destruct T as [T _]. rewrite S2, SZ in T.
    cbn [kf_update ekf_kalman] in E. rewrite Ly, U in E. cbn [try_update] in E. injection E as <-.
    assert (SG : sane blocks g).
    { split; [exact B0|]. rewrite G1, G2. split; [exact S1|]. split; [exact S2|]. unfold td_size in G3. rewrite G1, G2, S1, S2, Nat2Z.id in G3. exact G3. }
    split; [|exact SG]. exists d. split; [lia|]. split; [exact ED|]. cbn zeta. left. split; [split; [lia|apply G; reflexivity]|].
    unfold est. cbn [fst snd].
    eapply textbook_y_ext; [exact Ey|]. eapply textbook_noise_ext; [exact EN|]. eapply textbook_C_ext; [|exact T].
    intros i j Hi Hj. unfold stacked_measurement. destruct (Nat.eqb _ _); [|reflexivity]. apply EC; [exact Hi|]. apply Nat.mod_upper_bound. lia.
  - injection E as <-. split; [|exact SF]. exists d. split; [lia|]. split; [exact ED|]. cbn zeta. right. split; [|reflexivity].
    intros [_ H]. apply G in H. discriminate.
Qed.
Lemma core_late (m : measurement) h blocks steps dist now dt d f : sane blocks f -> (0 <= d)%Z -> (Z.of_nat blocks <= d)%Z -> delay_of m now dt d ->
  treats h blocks steps dist now dt m (est f) (est f).
Proof. intros SF H0 H1 ED. exists d. split; [exact H0|]. split; [exact ED|]. cbn zeta. right. split; [lia|reflexivity]. Qed.

Lemma all_finite_exact (l : list R) : all_finite exact l = true.
Proof. unfold all_finite. apply forallb_forall. intros x _. reflexivity. Qed.
Lemma noise_entries idx sl (m : measurement) steps N : (0 <= steps < 2 ^ 64)%Z -> idx = map Z.of_nat sl -> slots m = sl ->
  covariance_at exact idx (array m) steps = Ok N -> same_matrix (List.length sl) (List.length sl) (list_matrix exact N) (noise_of m steps).
Proof.
  intros Hs Ei Es. unfold covariance_at. intros H i j Hi Hj.
  assert (GEN : forall {B C} (f : B -> outcome C) l r k, mapM f l = Ok r -> (k < List.length l)%nat -> exists b c, nth_error l k = Some b /\ nth_error r k = Some c /\ f b = Ok c).
  { clear. intros B C f. induction l as [|b l IH]; intros r k E Hk; cbn in *; [lia|].
    destruct (f b) as [c| | | | |] eqn:Eb; try discriminate. cbn [bind] in E. destruct (mapM f l) as [r'| | | | |]; try discriminate. cbn [bind] in E. injection E as <-.
    destruct k as [|k]; [exists b, c; auto|]. cbn [nth_error]. apply (IH r' k eq_refl). lia. }
  destruct (GEN _ _ _ _ _ i H) as (b & row & B1 & B2 & B3). { rewrite Ei, map_length. exact Hi. }
  destruct (GEN _ _ _ _ _ j B3) as (c & v & C1 & C2 & C3). { rewrite Ei, map_length. exact Hj. }
  unfold list_matrix. change (d_of_Z exact 0) with 0. rewrite (nth_error_nth N i [] B2). rewrite (nth_error_nth row j _ C2).
  rewrite Ei, nth_error_map in B1, C1.
  destruct (nth_error sl i) as [a|] eqn:Ea; [|discriminate]. destruct (nth_error sl j) as [e|] eqn:Ee; [|discriminate].
  cbn in B1, C1. injection B1 as <-. injection C1 as <-.
  revert C3. match goal with |- context [@vat ?T ?l ?i] => destruct (@vat T l i) as [q| | | | |] eqn:Q end; try discriminate. cbn [bind]. intros C3. injection C3 as <-.
  unfold noise_of, steps_factor. rewrite Es, (nth_error_nth sl i 0%nat Ea), (nth_error_nth sl j 0%nat Ee). rewrite (Z.mod_small steps) by lia.
  revert Q. unfold vat. destruct (_ <? 0)%Z; [discriminate|]. match goal with |- context [@nth_error ?T ?l ?i] => destruct (@nth_error T l i) as [q'|] eqn:Q' end; [|discriminate]. intros Q. injection Q as <-.
  replace (Z.to_nat (6 * Z.of_nat a + Z.of_nat e)) with (6 * a + e)%nat in Q' by lia.
  rewrite (nth_error_nth _ _ 0 Q'). reflexivity.
Qed.

Ltac small_index := match goal with
  | H : (?i < 1)%nat |- _ => destruct i as [|i]; [|lia]
  | H : (?i < 2)%nat |- _ => destruct i as [|[|i]]; [| |lia]
  | H : (?i < 3)%nat |- _ => destruct i as [|[|[|i]]]; [| | |lia]
  | H : (?i < 6)%nat |- _ => destruct i as [|[|[|[|[|[|i]]]]]]; [| | | | | |lia]
  end.

Lemma pose_treated p now dt f m f' blocks yaw :
  List.length (p_cov _ _ m) = 36%nat -> sane blocks f -> m_extend _ p = Z.of_nat blocks -> (0 < m_steps _ p < 2 ^ 64)%Z -> 0 < dt ->
  positive_definite 3 (noise_of (pose_as Orient m yaw) (m_steps _ p)) -> - PI < yaw <= PI -> same_heading (get_yaw (p_orient _ _ m)) yaw ->
  pose_body exact roundf_exact sin cos atan2 Orient get_yaw K p now dt f m = Ok f' ->
  treats 3 blocks (m_steps _ p) (m_gate _ p) now dt (pose_as Orient m yaw) (est f) (est f') /\ sane blocks f'.
Proof.
  intros L36 SF Hb Hs Hdt HN Hy [k Hk]. unfold pose_body, time_of. destruct (p_stamp _ _ m <? 0)%Z eqn:Est; [discriminate|]. cbn [bind].
  destruct (compute_delay_step _ _ _ _) as [d| | | | |] eqn:ED; try discriminate. cbn [bind].
  destruct (delay_step_of (pose_as Orient m yaw) now dt d Hdt ED) as [D0 DD].
  unfold check_delay_step. rewrite Hb. destruct (Z.ltb_spec d (Z.of_nat blocks)) as [L|L]; cbn [negb].
  2: { intros H. injection H as <-. split; [eapply core_late; eauto|exact SF]. }
  rewrite all_finite_exact. cbn [negb]. pose proof SF as (B0 & S1 & S2 & S3).
  cbn [kf_get_x ekf_kalman]. unfold td_get_x. rewrite S1. replace ((0 <=? d)%Z && (d <? Z.of_nat blocks)%Z) with true by lia. cbn [bind].
  set (xs := get_pose_state exact _). set (ys := pose_measurement_vector _ _ _ _ _ _ _).
  destruct (cov_ok [0; 1; 5]%Z (p_cov _ _ m) (m_steps _ p) L36) as [N EN]; [repeat constructor; lia|]. unfold pose_measurement_covariance. rewrite EN. cbn [bind].
  intros E. eapply (core (pose_as Orient m yaw) 3 blocks (m_steps _ p) (m_gate _ p) now dt d f f' xs ys (pose_covariance exact (kf_latest_p exact K f)) (pose_measurement_matrix exact) N); eauto; try lia.
  - intros i Hi. small_index; cbn; lia.
  - intros i Hi; small_index; unfold xs, list_vector, get_pose_state, of_vector, est, col; cbn; rewrite S2; reflexivity.
  - intros i Hi; small_index; unfold values; cbn; try reflexivity. apply (norm_yaw_unique _ _ k); [exact Hy|exact Hk].
  - intros i j Hi Hj; small_index; small_index; reflexivity.
  - intros i j Hi Hj; small_index; small_index; reflexivity.
  - apply (noise_entries [0; 1; 5]%Z [0; 1; 5]%nat (pose_as Orient m yaw) (m_steps _ p) N); auto; lia.
Qed.

Lemma twist_treated p now dt f m f' blocks :
  List.length (t_cov _ m) = 36%nat -> sane blocks f -> m_extend _ p = Z.of_nat blocks -> (0 < m_steps _ p < 2 ^ 64)%Z -> 0 < dt ->
  positive_definite 2 (noise_of (twist_as m) (m_steps _ p)) ->
  twist_body exact roundf_exact K p now dt f m = Ok f' ->
  treats 2 blocks (m_steps _ p) (m_gate _ p) now dt (twist_as m) (est f) (est f') /\ sane blocks f'.
Proof.
  intros L36 SF Hb Hs Hdt HN. unfold twist_body, time_of. destruct (t_stamp _ m <? 0)%Z eqn:Est; [discriminate|]. cbn [bind].
  destruct (compute_delay_step _ _ _ _) as [d| | | | |] eqn:ED; try discriminate. cbn [bind].
  destruct (delay_step_of (twist_as m) now dt d Hdt ED) as [D0 DD].
  unfold check_delay_step. rewrite Hb. destruct (Z.ltb_spec d (Z.of_nat blocks)) as [L|L]; cbn [negb].
  2: { intros H. injection H as <-. split; [eapply core_late; eauto|exact SF]. }
  rewrite all_finite_exact. cbn [negb]. pose proof SF as (B0 & S1 & S2 & S3).
  cbn [kf_get_x ekf_kalman]. unfold td_get_x. rewrite S1. replace ((0 <=? d)%Z && (d <? Z.of_nat blocks)%Z) with true by lia. cbn [bind].
  set (xs := get_twist_state exact _). set (ys := twist_measurement_vector _ _).
  destruct (cov_ok [0; 5]%Z (t_cov _ m) (m_steps _ p) L36) as [N EN]; [repeat constructor; lia|]. unfold twist_measurement_covariance. rewrite EN. cbn [bind].
  intros E. eapply (core (twist_as m) 2 blocks (m_steps _ p) (m_gate _ p) now dt d f f' xs ys (twist_covariance exact (kf_latest_p exact K f)) (twist_measurement_matrix exact) N); eauto; try lia.
  - intros i Hi. small_index; cbn; lia.
  - intros i Hi; small_index; unfold xs, list_vector, get_twist_state, of_vector, est, col; cbn; rewrite S2; reflexivity.
  - intros i Hi; small_index; unfold values; cbn; reflexivity.
  - intros i j Hi Hj; small_index; small_index; reflexivity.
  - intros i j Hi Hj; small_index; small_index; reflexivity.
  - apply (noise_entries [0; 5]%Z [0; 5]%nat (twist_as m) (m_steps _ p) N); auto; lia.
Qed.

(** ** Prediction *)
Definition prediction (f : tdkf exact) (dt : R) (noise : list R) : tdkf exact :=
  td_predict exact junk f (to_vector exact (predict_next_state exact sin cos atan2 (of_vector exact (td_latest_x exact f)) dt))
    (create_state_transition_matrix exact sin cos Ropp (of_vector exact (td_latest_x exact f)) dt)
    (process_noise_covariance exact (time_scaled_variance exact (nth 0 noise 0) dt) (time_scaled_variance exact (nth 1 noise 0) dt)
       (time_scaled_variance exact (nth 2 noise 0) dt) (time_scaled_variance exact (nth 3 noise 0) dt)).
Lemma diagonal_psd n d : (forall i, 0 <= nth i d 0) -> positive_semidefinite n (diagonal exact d).
Proof.
  intros H. split.
  - intros i j _ _. unfold diagonal. rewrite Nat.eqb_sym. destruct (Nat.eqb_spec j i) as [->|]; reflexivity.
  - intros v. unfold variance_along. rewrite (total_ext n _ (fun i => nth i d 0 * (v i * v i))).
    + apply Rle_trans with (total n (fun _ => 0)); [right; symmetry; apply total_zero; reflexivity|]. apply total_le. intros i _. apply Rmult_le_pos; [apply H|nra].
    + intros i Hi. rewrite (total_single n i); [|exact Hi|].
      * unfold diagonal. rewrite Nat.eqb_refl. cbn [exact d_of_Z D]. ring.
      * intros j Hj Nj. unfold diagonal. replace (i =? j)%nat with false by lia. cbn [exact d_of_Z D]. ring.
Qed.
Lemma prediction_predicts blocks f dt noise : sane blocks f -> predicts blocks dt noise (est f) (est (prediction f dt noise)) /\ sane blocks (prediction f dt noise).
Proof.
  intros SF. pose proof SF as (B0 & S1 & S2 & S3). pose proof (sane_size _ _ SF) as SZ.
  set (s := of_vector exact (td_latest_x exact f)).
  set (F := create_state_transition_matrix exact sin cos Ropp s dt).
  set (Q := process_noise_covariance exact (time_scaled_variance exact (nth 0 noise 0) dt) (time_scaled_variance exact (nth 1 noise 0) dt)
       (time_scaled_variance exact (nth 2 noise 0) dt) (time_scaled_variance exact (nth 3 noise 0) dt)).
  assert (HQ : positive_semidefinite 6 Q).
  { apply diagonal_psd. assert (NN : forall a, 0 <= time_scaled_variance exact a dt).
    { intros a. unfold time_scaled_variance. cbn. replace (a * a * dt * dt) with ((a * dt) * (a * dt)) by ring. apply Rle_0_sqr. }
    intros i. destruct i as [|[|[|[|[|[|i]]]]]]; cbn [nth]; try apply Rle_refl; try apply NN. destruct i; apply Rle_refl. }
  assert (X : forall i, (i < blocks * 6)%nat -> td_x exact (prediction f dt noise) i = if (i <? 6)%nat then to_vector exact (predict_next_state exact sin cos atan2 s dt) i else td_x exact f (i - 6)%nat).
  { intros i Hi. unfold prediction, td_predict. cbn [td_x]. rewrite SZ, S2. rewrite update_x_entry by lia. reflexivity. }
  destruct (@C57_predict junk f (to_vector exact (predict_next_state exact sin cos atan2 s dt)) F Q ltac:(lia)) as [_ TP].
  rewrite S2, SZ in TP.
  assert (PSD := td_predict_facts junk (to_vector exact (predict_next_state exact sin cos atan2 s dt)) F ltac:(rewrite S1; lia) ltac:(rewrite SZ; exact S3) ltac:(rewrite S2; exact HQ)).
  split.
  - unfold predicts. cbn [est fst snd].
    assert (X6 : forall i, (i < 6)%nat -> td_x exact (prediction f dt noise) i = to_vector exact (predict_next_state exact sin cos atan2 s dt) i).
    { intros i Hi. rewrite X by lia. replace (i <? 6)%nat with true by lia. reflexivity. }
    split; [|split; [|split; [|split]]].
    + intros i Hi N2. rewrite X6 by exact Hi. small_index; try (exfalso; lia); unfold to_vector; cbn; try reflexivity; unfold td_latest_x; cbn [exact D]; ring.
    + rewrite X6 by lia. destruct (norm_yaw_spec (st_yaw exact s + st_wz exact s * dt)) as [_ [k E]]. exists k. exact E.
    + rewrite X6 by lia. destruct (norm_yaw_spec (st_yaw exact s + st_wz exact s * dt)) as [B _]. exact B.
    + intros i Hi. rewrite X by lia. replace (i <? 6)%nat with false by lia. reflexivity.
    + exists F. split.
      * intros i j Hi Hj. assert (J := C68_jacobian s dt i j Hi Hj).
        assert (EC : comp s j = td_x exact f j) by (small_index; reflexivity). rewrite <- EC.
        eapply is_derive_ext; [|exact J]. intros t. small_index; clear J EC; small_index; cbn; unfold td_latest_x; cbn [exact D]; try change (@eq (D exact)) with (@eq R); first [reflexivity | ring].
      * intros i j Hi Hj. refine (eq_trans (TP i j Hi Hj) _). unfold plus. f_equal. unfold stacked_noise.
        destruct ((i <? 6) && (j <? 6))%nat eqn:E6; [|reflexivity]. unfold Q, process_noise_covariance, diagonal.
        destruct (Nat.eqb i j); [|reflexivity].
        assert (SP : forall a, time_scaled_variance exact a dt = SpecFusion.spread a dt) by (intros a; unfold time_scaled_variance, SpecFusion.spread; cbn; ring).
        rewrite !SP. reflexivity.
  - split; [exact B0|]. split; [exact S1|]. split; [exact S2|]. rewrite <- SZ. exact PSD.
Qed.
End Fusion.
