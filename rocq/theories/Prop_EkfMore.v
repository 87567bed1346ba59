(** C82-C84 and the covariances of C63: headings, the initial pose and the gate of the EKF
    localizer, in exact arithmetic with the repository's time-delay filter. *)
From Coq Require Import Reals Lra Lia PeanoNat List Bool ZArith String.
From Flocq Require Import Core.
From Verif Require Import Base Arith SpecReal EkfModel SpecEkf EkfProofs KalmanModel SpecKalman StackProofs KalmanProofs2 KalmanProofs3 IntervalProofs Prop_Interval EkfNodeProofs Prop_Kalman.
Import ListNotations.
Local Open Scope R_scope.

Section More.
Variable inverse : nat -> (nat -> nat -> R) -> option (nat -> nat -> R).
Hypothesis Hinv : inverts inverse.
Variable junk : nat -> nat -> R.
Variable Orient : Type.
Variable get_yaw get_roll get_pitch : Orient -> R.
Notation K := (ekf_kalman exact inverse junk).
Notation fuse_pose := (pose_body exact roundf_exact sin cos atan2 Orient get_yaw K).

(** ** C82 *)
(** t is the turn from heading a to heading b along the shorter arc. *)
Definition is_turn (a b t : R) : Prop := - PI < t <= PI /\ exists k : Z, b = a + t + 2 * PI * IZR k.

(** Whatever is fused is fused as a textbook update of the stacked state, with the
    normalised yaw as the third measured value. *)
Definition pose_y (m : pose_msg exact Orient) : nat -> R :=
  list_vector exact [p_x _ _ m; p_y _ _ m; norm_yaw (get_yaw (p_orient _ _ m))].
(** Covariance of the measured values x, y, yaw: rows and columns 0, 1, 5 of the message's
    6 x 6 matrix, times the smoothing steps. *)
Definition slot (k : nat) : nat := match k with 0 => 0 | 1 => 1 | _ => 5 end%nat.
Definition pose_noise (m : pose_msg exact Orient) (steps : Z) : nat -> nat -> R :=
  fun i j => nth (6 * slot i + slot j)%nat (p_cov _ _ m) 0 * IZR (steps mod 2 ^ 64).
Lemma vat_nth (l : list R) i c : vat l i = Ok c -> c = nth (Z.to_nat i) l 0.
Proof. unfold vat. destruct (i <? 0)%Z; [discriminate|]. destruct (nth_error l (Z.to_nat i)) eqn:E; [|discriminate]. intros H. injection H as <-. symmetry. now apply nth_error_nth. Qed.
Lemma pose_noise_entries m steps N : pose_measurement_covariance exact (p_cov _ _ m) steps = Ok N ->
  same_matrix 3 3 (pose_noise m steps) (list_matrix exact N).
Proof.
  unfold pose_measurement_covariance, covariance_at. cbn [mapM]. unfold bind.
  repeat match goal with |- context [vat ?l ?i] => let E := fresh "E" in destruct (vat l i) eqn:E; try discriminate; apply vat_nth in E; cbn in E; subst end.
  intros H. injection H as <-. intros i j Hi Hj.
  (destruct i as [|[|[|i]]]; [| | |lia]); (destruct j as [|[|[|j]]]; [| | |lia]); reflexivity.
Qed.
Lemma is_inverse_ext n S S' V : same_matrix n n S S' -> is_inverse n S V -> is_inverse n S' V.
Proof.
  intros E [H1 H2]. split; intros i j Hi Hj.
  - rewrite <- (H1 i j Hi Hj). apply total_ext. intros l Hl. now rewrite E.
  - rewrite <- (H2 i j Hi Hj). apply total_ext. intros l Hl. now rewrite E.
Qed.
Lemma textbook_noise_ext n h C N N' y x P x' P' : same_matrix h h N N' -> textbook_update n h C N y x P x' P' -> textbook_update n h C N' y x P x' P'.
Proof.
  intros E (V & G & H1 & H2). exists V, G. split; [|exact H2]. eapply is_inverse_ext; [|exact H1].
  intros i j Hi Hj. unfold plus. now rewrite E.
Qed.
Lemma textbook_y_ext n h C N y y' x P x' P' : same_vector h y y' -> textbook_update n h C N y x P x' P' -> textbook_update n h C N y' x P x' P'.
Proof.
  intros E (V & G & H1 & H2 & H3 & H4). exists V, G. split; [exact H1|]. split; [exact H2|]. split; [|exact H4].
  intros i Hi. rewrite (H3 i Hi). f_equal. apply total_ext. intros l Hl. now rewrite E.
Qed.
Lemma textbook_C_ext n h C C' N y x P x' P' : same_matrix h n C C' -> textbook_update n h C N y x P x' P' -> textbook_update n h C' N y x P x' P'.
Proof.
  intros E (V & G & H1 & H2 & H3 & H4). exists V, G. split; [|split; [|split]].
  - eapply is_inverse_ext; [|exact H1]. intros i j Hi Hj. unfold plus. f_equal. apply total_ext. intros l Hl. rewrite E by assumption. f_equal.
    apply total_ext. intros k Hk. unfold flip. now rewrite E.
  - intros i j Hi Hj. rewrite (H2 i j Hi Hj). apply total_ext. intros l Hl. f_equal. apply total_ext. intros k Hk. unfold flip. now rewrite E.
  - intros i Hi. rewrite (H3 i Hi). f_equal. apply total_ext. intros l Hl. f_equal. f_equal. apply total_ext. intros k Hk. now rewrite E.
  - intros i j Hi Hj. rewrite (H4 i j Hi Hj). unfold minus. f_equal. apply total_ext. intros l Hl. f_equal. apply total_ext. intros k Hk. now rewrite E.
Qed.
Lemma fused_textbook p now dt (f : tdkf exact) m f' : td_dim exact f = 6%nat -> fuse_pose p now dt f m = Ok f' ->
  f' = f \/ exists d, (0 <= d < td_max exact f)%Z /\ compute_delay_step exact roundf_exact (compute_delay_time exact now (p_stamp _ _ m)) dt = Ok d /\
    textbook_update (td_size exact f) 3 (stacked_measurement 6 (Z.to_nat d) (list_matrix exact (pose_measurement_matrix exact))) (pose_noise m (m_steps _ p)) (pose_y m)
      (td_x exact f) (td_P exact f) (td_x exact f') (td_P exact f').
Proof.
  intros Hd. unfold pose_body. unfold time_of. destruct (p_stamp _ _ m <? 0)%Z; [discriminate|]. cbn [bind].
  destruct (compute_delay_step _ _ _ _) as [d| | | | |]; try discriminate. cbn [bind].
  destruct (check_delay_step d _); cbn [negb]; [|intros H; injection H as <-; auto].
  destruct (all_finite _ _); cbn [negb]; [|intros H; injection H as <-; auto].
  cbn [kf_get_x ekf_kalman]. unfold td_get_x. destruct ((0 <=? d)%Z && (d <? td_max exact f)%Z) eqn:ED; [|discriminate]. cbn [bind].
  apply andb_prop in ED. destruct ED as [E1 E2]. apply Z.leb_le in E1. apply Z.ltb_lt in E2.
  destruct (gate _ _ _ _ _ _); cbn [negb]; [|intros H; injection H as <-; auto].
  destruct (pose_measurement_covariance _ _ _) as [N| | | | |] eqn:EN; try discriminate. cbn [bind]. unfold try_update. cbn [kf_update ekf_kalman].
  assert (T := @C57_update inverse Hinv junk 3 f (pose_y m) (list_matrix exact (pose_measurement_matrix exact)) (list_matrix exact N) d ltac:(lia) (conj E1 E2)).
  cbn zeta in T. rewrite Hd in T. change (List.length (pose_measurement_vector exact sin cos atan2 Orient get_yaw m)) with 3%nat.
  change (list_vector exact (pose_measurement_vector exact sin cos atan2 Orient get_yaw m)) with (pose_y m).
  destruct (td_update _ _ _ _ _ _ _ _) as [[u| | | | |] g]; try contradiction.
  - intros H. injection H as <-. right. exists d. split; [lia|]. split; [reflexivity|]. destruct T as [T _]. eapply textbook_noise_ext; [|exact T].
    intros i j Hi Hj. symmetry. now apply (pose_noise_entries _ _ _ EN).
  - intros H. injection H as <-. auto.
Qed.
Lemma select_pose n d k (x : nat -> R) : (k < 3)%nat -> (d < n)%nat ->
  apply_to (n * 6) (stacked_measurement 6 d (list_matrix exact (pose_measurement_matrix exact))) x k = x (d * 6 + k)%nat.
Proof.
  intros Hk Hd. unfold apply_to. rewrite (@total_single (n * 6) (d * 6 + k)%nat).
  - unfold stacked_measurement. rewrite Nat.div_add_l by lia. rewrite (Nat.div_small k) by lia. rewrite Nat.add_0_r, Nat.eqb_refl.
    rewrite Nat.add_comm, Nat.mod_add by lia. rewrite Nat.mod_small by lia.
    destruct k as [|[|[|k]]]; [| | |lia]; cbn; ring.
  - nia.
  - intros j Hj Nj. unfold stacked_measurement. destruct (Nat.eqb_spec (j / 6) d) as [E|E]; [|ring].
    assert (J := Nat.div_mod_eq j 6). rewrite E in J. assert (M := Nat.mod_upper_bound j 6 ltac:(lia)).
    assert (Q : (j mod 6 <> k)%nat) by lia. revert Q M. generalize (j mod 6)%nat. intros r Q M.
    destruct k as [|[|[|k]]]; [| | |lia]; (destruct r as [|[|[|[|[|[|r]]]]]]; try lia); cbn; ring.
Qed.

(** What holds: when estimated and measured heading (as represented in the state and
    normalised) differ by less than pi, the update is the one whose heading innovation is the
    shorter turn. *)
Theorem C82_shorter_turn_partial p now dt (f : tdkf exact) m f' : td_dim exact f = 6%nat -> fuse_pose p now dt f m = Ok f' ->
  (forall d, compute_delay_step exact roundf_exact (compute_delay_time exact now (p_stamp _ _ m)) dt = Ok d -> - PI < norm_yaw (get_yaw (p_orient _ _ m)) - td_x exact f (Z.to_nat d * 6 + 2)%nat <= PI) ->
  f' = f \/ exists d t, (0 <= d < td_max exact f)%Z /\ compute_delay_step exact roundf_exact (compute_delay_time exact now (p_stamp _ _ m)) dt = Ok d /\
    let heading := td_x exact f (Z.to_nat d * 6 + 2)%nat in
    is_turn heading (get_yaw (p_orient _ _ m)) t /\
    textbook_update (td_size exact f) 3 (stacked_measurement 6 (Z.to_nat d) (fun i j => if Nat.eqb i j then 1 else 0)) (pose_noise m (m_steps _ p))
      (fun k => nth k [p_x _ _ m; p_y _ _ m; heading + t] 0)
      (td_x exact f) (td_P exact f) (td_x exact f') (td_P exact f').
Proof.
  intros Hd E B. destruct (fused_textbook _ _ _ _ _ _ Hd E) as [->|(d & Hb & Hs & T)]; [auto|]. right.
  exists d, (norm_yaw (get_yaw (p_orient _ _ m)) - td_x exact f (Z.to_nat d * 6 + 2)%nat). split; [lia|]. split; [exact Hs|]. cbn zeta. split.
  - split; [exact (B d Hs)|]. destruct (norm_yaw_spec (get_yaw (p_orient _ _ m))) as [_ [k Ek]]. exists k. rewrite Ek at 1. ring.
  - eapply textbook_y_ext; [|eapply textbook_C_ext; [|exact T]].
    + intros k Hk. destruct k as [|[|[|k]]]; [| | |lia]; unfold pose_y, list_vector; cbn; try reflexivity.
      change (D exact) with R in *. lra.
    + intros i j Hi Hj. unfold stacked_measurement. destruct (Nat.eqb _ _); [|reflexivity].
      assert (M := Nat.mod_upper_bound j 6 ltac:(lia)). revert M. generalize (j mod 6)%nat. intros r M.
      destruct i as [|[|[|i]]]; [| | |lia]; (destruct r as [|[|[|[|[|[|r]]]]]]; try lia); reflexivity.
Qed.
End More.

(** The code violates it across the cut at pi.  Estimated heading a and measured heading -a
    with equal certainty, delay zero: the new heading is 0, whatever a is, so for a near pi
    two headings that almost agree give the opposite one. *)
Definition eye36 : list R := concat (map (fun i => map (identity i) (seq 0 6)) (seq 0 6)).
Definition facing (a : R) : tdkf exact := Td exact (fun i => if Nat.eqb i 2 then a else 0) identity 1 6.
Definition seen (a : R) : pose_msg exact R := PoseMsg exact R "map" 0 0 0 0 a eye36.
Lemma is_inverse_half (S : nat -> nat -> R) : (forall i j, (i < 3)%nat -> (j < 3)%nat -> S i j = 2 * identity i j) -> is_inverse 3 S (fun i j => / 2 * identity i j).
Proof.
  intros H. split; intros i j Hi Hj; unfold times; cbn [total]; rewrite !H by lia;
    (destruct i as [|[|[|i]]]; [| | |lia]); (destruct j as [|[|[|j]]]; [| | |lia]); cbn; lra.
Qed.
Lemma eye_inverse3 V : is_inverse 3 (list_matrix exact (pose_covariance exact identity)) V -> same_matrix 3 3 V identity.
Proof.
  intros H. apply (inverse_unique H). split; intros i j Hi Hj;
    (destruct i as [|[|[|i]]]; [| | |lia]); (destruct j as [|[|[|j]]]; [| | |lia]); cbv; lra.
Qed.
Lemma same_stamp_step dt : compute_delay_step exact roundf_exact (compute_delay_time exact 0 0) dt = Ok 0%Z.
Proof.
  unfold compute_delay_step, compute_delay_time, seconds, d_max. cbn. unfold Rltb.
  destruct (Rlt_dec _ _) as [L|L]; unfold roundf_exact;
  (replace (_ / dt) with 0 by (unfold Rdiv; ring)); change 0 with (IZR 0); rewrite ZnearestA_IZR; reflexivity.
Qed.

Lemma gate_eye inverse (a b : R) : inverts inverse -> Rabs a < 4 -> Rabs b < 4 ->
  mahalanobis_gate exact inverse 3 10000 (list_vector exact [0; 0; a]) (list_vector exact [0; 0; b]) (list_matrix exact (pose_covariance exact identity)) = true.
Proof.
  intros Hinv Ba Bb.
  assert (PD : positive_definite 3 (list_matrix exact (pose_covariance exact identity))).
  { assert (E : forall i j, (i < 3)%nat -> (j < 3)%nat -> list_matrix exact (pose_covariance exact identity) i j = identity i j).
    { intros i j Hi Hj. (destruct i as [|[|[|i]]]; [| | |lia]); (destruct j as [|[|[|j]]]; [| | |lia]); reflexivity. }
    destruct (identity_pd 3) as [I1 I2]. split.
    - intros i j Hi Hj. rewrite !E by assumption. apply I1; assumption.
    - intros v Hv. rewrite (variance_ext 3 _ identity v v); [apply I2; exact Hv| |intros i _; reflexivity].
      intros i j Hi Hj. apply E; assumption. }
  destruct (@C73_gate inverse Hinv 3 _ PD) as [V [HV [G _]]]. apply G.
  rewrite (variance_ext 3 V identity _ (fun i => list_vector exact [0; 0; a] i - list_vector exact [0; 0; b] i)).
  - cbv [variance_along total list_vector nth identity Nat.eqb exact d_of_Z]. 
    apply Rabs_def2 in Ba, Bb. nra.
  - apply eye_inverse3. exact HV.
  - intros i _. reflexivity.
Qed.
Lemma fuse_facing : forall inverse junk a b, inverts inverse -> - PI < a < PI -> - PI < b < PI ->
  exists f', pose_body exact roundf_exact sin cos atan2 R (fun r => r) (ekf_kalman exact inverse junk)
               (MParams exact "map" 1 10000 1) 0 1 (facing a) (seen b) = Ok f' /\ td_x exact f' 2%nat = (a + b) / 2.
Proof.
  intros inverse junk a b Hinv Ha Hb. assert (P3 := PI_4).
  assert (NY : norm_yaw b = b) by (apply norm_yaw_unique with 0%Z; lra).
  unfold pose_body. change (time_of (p_stamp exact R (seen b))) with (Ok 0%Z). cbn [bind]. rewrite same_stamp_step. cbn [bind].
  change (check_delay_step 0 (m_extend exact (MParams exact "map" 1 10000 1))) with true. cbn [negb].
  replace (all_finite _ _) with true by reflexivity. cbn [negb].
  change (kf_get_x exact (ekf_kalman exact inverse junk) (facing a) 0) with (Ok (State exact 0 0 a 0 0 0)). cbn [bind].
  change (pose_measurement_vector exact sin cos atan2 R (fun r => r) (seen b)) with [0; 0; norm_yaw b]. rewrite NY.
  change (get_pose_state exact (State exact 0 0 a 0 0 0)) with [0; 0; a].
  change (gate exact (ekf_kalman exact inverse junk) (m_gate exact (MParams exact "map" 1 10000 1)) [0; 0; a] [0; 0; b] (pose_covariance exact (kf_latest_p exact (ekf_kalman exact inverse junk) (facing a))))
    with (mahalanobis_gate exact inverse 3 10000 (list_vector exact [0; 0; a]) (list_vector exact [0; 0; b]) (list_matrix exact (pose_covariance exact identity))).
  rewrite gate_eye; [|exact Hinv|apply Rabs_def1; lra|apply Rabs_def1; lra]. cbn [negb].
  destruct (pose_measurement_covariance exact (p_cov exact R (seen b)) (m_steps exact (MParams exact "map" 1 10000 1))) as [N| | | | |] eqn:EN; try (exfalso; discriminate EN).
  cbn [bind]. unfold try_update. cbn [kf_update ekf_kalman]. change (List.length [0; 0; b]) with 3%nat.
  assert (T := @C57_update inverse Hinv junk 3 (facing a) (list_vector exact [0; 0; b]) (list_matrix exact (pose_measurement_matrix exact)) (list_matrix exact N) 0 ltac:(cbn; lia) ltac:(cbn; lia)).
  cbn zeta in T. change (td_dim exact (facing a)) with 6%nat in T. change (td_size exact (facing a)) with 6%nat in T.
  change (Z.to_nat 0) with 0%nat in T.
  assert (EN' := pose_noise_entries _ _ _ _ EN).
  assert (S2 : forall i j, (i < 3)%nat -> (j < 3)%nat ->
    plus (times 6 (stacked_measurement 6 0 (list_matrix exact (pose_measurement_matrix exact))) (times 6 (td_P exact (facing a)) (flip (stacked_measurement 6 0 (list_matrix exact (pose_measurement_matrix exact)))))) (list_matrix exact N) i j = 2 * identity i j).
  { intros i j Hi Hj. unfold plus. rewrite <- EN' by assumption.
    (destruct i as [|[|[|i]]]; [| | |lia]); (destruct j as [|[|[|j]]]; [| | |lia]); cbv -[Rmult Rplus IZR]; lra. }
  destruct (td_update _ _ _ _ _ _ _ _) as [[u| | | | |] g]; try contradiction.
  - exists g. split; [reflexivity|]. destruct T as [(V & G & HV & HG & X & _) _].
    assert (EV := inverse_unique HV (is_inverse_half _ S2)).
    rewrite (X 2%nat ltac:(lia)). unfold apply_to at 1. cbn [total]. rewrite !(HG 2%nat) by lia.
    unfold times at 1 3 5. cbn [total]. rewrite !EV by lia.
    change 6%nat with (1 * 6)%nat at 2 4 6. cbn. lra.
  - exfalso. destruct T as [_ T]. exact (T _ (is_inverse_half _ S2)).
Qed.
Theorem C82_opposite_heading_refuted : forall inverse junk a, inverts inverse -> 0 < a < PI ->
  exists f', pose_body exact roundf_exact sin cos atan2 R (fun r => r) (ekf_kalman exact inverse junk)
               (MParams exact "map" 1 10000 1) 0 1 (facing a) (seen (- a)) = Ok f' /\ td_x exact f' 2%nat = 0.
Proof.
  intros inverse junk a Hinv Ha. destruct (fuse_facing inverse junk a (- a) Hinv) as [f' [E X]]; [lra|lra|]. exists f'. split; [exact E|]. rewrite X. lra.
Qed.
(** Within pi of each other: 1 and 2 give 3/2, by the shorter turn 1. *)
Example C82_partial_case : exists f', pose_body exact roundf_exact sin cos atan2 R (fun r => r) (ekf_kalman exact some_inverse (fun _ _ => 0))
               (MParams exact "map" 1 10000 1) 0 1 (facing 1) (seen 2) = Ok f' /\ td_x exact f' 2%nat = 3 / 2 /\ is_turn 1 2 1.
Proof.
  assert (H := PI2_3_2). destruct (fuse_facing some_inverse (fun _ _ => 0) 1 2 some_inverse_inverts) as [f' [E X]]; [lra|lra|].
  exists f'. split; [exact E|]. split; [rewrite X; lra|]. split; [lra|]. exists 0%Z. lra.
Qed.
(** The shorter turn between the two headings is 2 pi - 2 a, towards pi. *)
Example C82_case : forall a, PI / 2 < a < PI -> is_turn a (- a) (2 * PI - 2 * a).
Proof. intros a H. split; [lra|]. exists (-1)%Z. ring. Qed.

(** ** C83: the initial pose *)
(** The point (px, py) of a frame that stands at (tx, ty) turned by theta. *)
Definition moved (theta tx ty px py : R) : R * R := (tx + (cos theta * px - sin theta * py), ty + (sin theta * px + cos theta * py)).
Section Initial.
Variable inverse : nat -> (nat -> nat -> R) -> option (nat -> nat -> R).
Variable junk : nat -> nat -> R.
Variable Orient : Type.
Variable get_yaw get_roll get_pitch : Orient -> R.
Notation K := (ekf_kalman exact inverse junk).
Variable prm : params exact.
Notation start := (callback_initial_pose exact Orient get_yaw get_roll get_pitch K prm).
Lemma start_state n m tr n' : start n m (Some tr) = Ok n' ->
  exists f, n_ekf _ _ _ n' = Some f /\ kf_latest_x _ K f = State exact (p_x _ _ m + tr_x _ _ tr) (p_y _ _ m + tr_y _ _ tr) (get_yaw (p_orient _ _ m) + get_yaw (tr_rot _ _ tr)) 0 0 0.
Proof.
  unfold callback_initial_pose. destruct (erase_begin_slash (pose_frame_id _ prm)); try discriminate. cbn [bind].
  destruct (erase_begin_slash (p_frame _ _ m)); try discriminate. cbn [bind]. cbv zeta.
  destruct (init_covariance _ _) as [P| | | | |]; try discriminate. cbn [bind].
  destruct (kf_new _ _ _ _ _) as [f| | | | |] eqn:EF; try discriminate. cbn [bind].
  destruct (update_simple_filters _ _ _ _ _ _ _) as [n2| | | | |] eqn:EU; try discriminate. cbn [bind]. intros H. injection H as <-.
  apply update_simple_frame in EU. destruct EU as [E1 _]. cbn. rewrite E1. cbn. exists f. split; [reflexivity|].
  cbn in EF. unfold td_new in EF. destruct (0 <? extend_state_step _ prm)%Z eqn:E0; [|discriminate]. injection EF as <-. apply Z.ltb_lt in E0.
  cbn. unfold of_vector, td_latest_x. cbn [td_x].
  rewrite !init_x_entry by nia. reflexivity.
Qed.
(** With an unrotated frame the filter starts at the given pose in the filter's frame. *)
Theorem C83_unrotated_partial n m tr n' : get_yaw (tr_rot _ _ tr) = 0 -> start n m (Some tr) = Ok n' ->
  exists f, n_ekf _ _ _ n' = Some f /\
    (st_x _ (kf_latest_x _ K f), st_y _ (kf_latest_x _ K f)) = moved 0 (tr_x _ _ tr) (tr_y _ _ tr) (p_x _ _ m) (p_y _ _ m) /\
    st_yaw _ (kf_latest_x _ K f) = get_yaw (p_orient _ _ m).
Proof.
  intros H E. destruct (start_state _ _ _ _ E) as [f [E1 E2]]. exists f. split; [exact E1|]. rewrite E2, H. unfold moved. rewrite cos_0, sin_0. cbn.
  split; [f_equal|]; change (D exact) with R in *; ring.
Qed.
(** The rotation of the frame is not applied to the position: it starts wherever it would
    start with any other rotation. *)
Theorem C83_rotation_ignored_refuted n m tr tr' n1 n2 : tr_x _ _ tr = tr_x _ _ tr' -> tr_y _ _ tr = tr_y _ _ tr' ->
  start n m (Some tr) = Ok n1 -> start n m (Some tr') = Ok n2 ->
  exists f1 f2, n_ekf _ _ _ n1 = Some f1 /\ n_ekf _ _ _ n2 = Some f2 /\
    st_x _ (kf_latest_x _ K f1) = st_x _ (kf_latest_x _ K f2) /\ st_y _ (kf_latest_x _ K f1) = st_y _ (kf_latest_x _ K f2).
Proof.
  intros H1 H2 E1 E2. destruct (start_state _ _ _ _ E1) as [f1 [A1 B1]]. destruct (start_state _ _ _ _ E2) as [f2 [A2 B2]].
  exists f1, f2. rewrite B1, B2. cbn. rewrite H1, H2. auto.
Qed.
(** Nor is the transform applied to the height. *)
Theorem C83_height_refuted n m tr n' : f_init _ (n_z _ _ _ n) = false -> start n m (Some tr) = Ok n' -> f_x _ (n_z _ _ _ n') = p_z _ _ m.
Proof.
  intros H. unfold callback_initial_pose. destruct (erase_begin_slash (pose_frame_id _ prm)); try discriminate. cbn [bind].
  destruct (erase_begin_slash (p_frame _ _ m)); try discriminate. cbn [bind]. cbv zeta.
  destruct (init_covariance _ _) as [P| | | | |]; try discriminate. cbn [bind].
  destruct (kf_new _ _ _ _ _) as [f| | | | |]; try discriminate. cbn [bind]. unfold update_simple_filters.
  do 3 (destruct (vat _ _); try discriminate; cbn [bind]). destruct (time_of _); try discriminate. cbn [bind]. intros E. injection E as <-. cbn.
  unfold f1_update. rewrite H. reflexivity.
Qed.
(** Every initial pose in a named frame with available transform is accepted. *)
Lemma start_ok n m tr : pose_frame_id _ prm <> ""%string -> p_frame _ _ m <> ""%string -> (0 <= p_stamp _ _ m)%Z -> List.length (p_cov _ _ m) = 36%nat ->
  (0 < extend_state_step _ prm)%Z -> exists n', start n m (Some tr) = Ok n'.
Proof.
  intros H1 H2 H3 H4 H5. unfold callback_initial_pose. destruct (erase_ok _ H1) as [r1 ->]. cbn [bind]. destruct (erase_ok _ H2) as [r2 ->]. cbn [bind]. cbv zeta.
  assert (V : forall i, (0 <= i < 36)%Z -> exists c, vat (p_cov _ _ m) i = Ok c).
  { intros i Hi. unfold vat. replace (i <? 0)%Z with false by (symmetry; apply Z.ltb_ge; lia).
    destruct (nth_error _ _) eqn:E; [eauto|]. apply nth_error_None in E. lia. }
  unfold init_covariance. destruct (V 0%Z ltac:(lia)) as [c0 ->]. destruct (V 7%Z ltac:(lia)) as [c1 ->]. destruct (V 35%Z ltac:(lia)) as [c2 ->]. cbn [bind].
  cbn [kf_new ekf_kalman]. unfold td_new. replace (0 <? extend_state_step _ prm)%Z with true by (symmetry; apply Z.ltb_lt; lia). cbn [bind].
  match goal with |- context [update_simple_filters ?a ?b ?c ?d ?e ?n1 ?m1] => destruct (update_simple_ok a b c d e n1 m1 H3 H4) as [n2 ->] end. cbn [bind]. eauto.
Qed.
End Initial.
(** A frame turned by a quarter: the pose at (1, 0) is at (0, 1), the filter starts at
    (1, 0). *)
Definition quarter_prm : params exact := Params exact 50 50 "map" 5 10000 10000 2 1 true 1 1 1.
Theorem C83_quarter_turn_refuted : forall inverse junk (n : node exact R (ekf_kalman exact inverse junk)),
  exists n' f, callback_initial_pose exact R (fun r => r) (fun _ => 0) (fun _ => 0) (ekf_kalman exact inverse junk) quarter_prm n
      (PoseMsg exact R "odom" 0 1 0 0 0 eye36) (Some (TransformMsg exact R 0 0 0 (PI / 2))) = Ok n' /\
    n_ekf _ _ _ n' = Some f /\ (st_x _ (kf_latest_x _ _ f), st_y _ (kf_latest_x _ _ f)) = (1, 0) /\ moved (PI / 2) 0 0 1 0 = (0, 1).
Proof.
  intros inverse junk n.
  destruct (start_ok inverse junk R (fun r => r) (fun _ => 0) (fun _ => 0) quarter_prm n (PoseMsg exact R "odom" 0 1 0 0 0 eye36) (TransformMsg exact R 0 0 0 (PI / 2))) as [n' E];
    try (cbn; lia); try (cbn; discriminate); try reflexivity.
  destruct (start_state _ _ _ _ _ _ _ _ _ _ _ E) as [f [E1 E2]]. exists n', f. split; [exact E|]. split; [exact E1|].
  split; [rewrite E2; cbn; f_equal; lra|]. unfold moved. rewrite cos_PI2, sin_PI2. f_equal; lra.
Qed.

(** ** C84: the gate of delayed measurements *)
(** A filter that started with unit covariances and made one prediction that added 3 to the
    heading's variance: 4 now, 1 one step ago. *)
Section Gate.
Variable inverse : nat -> (nat -> nat -> R) -> option (nat -> nat -> R).
Hypothesis Hinv : inverts inverse.
Variable junk : nat -> nat -> R.
Definition ex_now : tdkf exact :=
  td_predict exact junk (Td exact (init_x exact junk 6 (fun _ => 0) 2) (init_p exact 6 identity 2) 2 6) (fun _ => 0) identity
    (fun i j => if (Nat.eqb i 2 && Nat.eqb j 2)%bool then 3 else 0).
Lemma ex_now_created : exists f0, td_new exact junk 6 (fun _ => 0) identity 2 = Ok f0 /\
  ex_now = td_predict exact junk f0 (fun _ => 0) identity (fun i j => if (Nat.eqb i 2 && Nat.eqb j 2)%bool then 3 else 0).
Proof. eexists. split; reflexivity. Qed.
Lemma gate_diag (c a b dist : R) : 0 < c -> 0 <= dist ->
  mahalanobis_gate exact inverse 3 dist (list_vector exact [0; 0; a]) (list_vector exact [0; 0; b]) (list_matrix exact [[1; 0; 0]; [0; 1; 0]; [0; 0; c]]) = true <-> (a - b) * (a - b) <= c * (dist * dist).
Proof.
  intros Hc Hd. unfold mahalanobis_gate, squared_mahalanobis. assert (HI := Hinv 3%nat (list_matrix exact [[1; 0; 0]; [0; 1; 0]; [0; 0; c]])).
  assert (I : is_inverse 3 (list_matrix exact [[1; 0; 0]; [0; 1; 0]; [0; 0; c]]) (list_matrix exact [[1; 0; 0]; [0; 1; 0]; [0; 0; / c]])).
  { split; intros i j Hi Hj; unfold times; cbn [total];
      (destruct i as [|[|[|i]]]; [| | |lia]); (destruct j as [|[|[|j]]]; [| | |lia]); cbn; try lra; field; lra. }
  destruct (inverse 3%nat (list_matrix exact [[1; 0; 0]; [0; 1; 0]; [0; 0; c]])) as [V|]; [|exfalso; exact (HI _ I)].
  assert (U := inverse_unique HI I). unfold mvec. cbn [sum]. rewrite !U by lia. cbn. unfold Rleb. 
  match goal with |- context [Rle_dec ?x ?y] => replace x with ((a - b) * (a - b) / c) by (unfold vsub, list_vector; cbn; field; lra); destruct (Rle_dec ((a - b) * (a - b) / c) y) as [L|L] end.
  - split; [intros _|reflexivity]. apply Rmult_le_compat_l with (r := c) in L; [|lra]. replace (c * ((a - b) * (a - b) / c)) with ((a - b) * (a - b)) in L by (field; lra). exact L.
  - split; [discriminate|]. intros H. exfalso. apply L. apply Rmult_le_reg_l with c; [lra|]. replace (c * ((a - b) * (a - b) / c)) with ((a - b) * (a - b)) by (field; lra). exact H.
Qed.
(** Covariance of x, y and heading [d] steps ago. *)
Definition delayed_covariance (f : tdkf exact) (d : nat) : list (list R) :=
  map (fun i => map (fun j => td_P exact f (6 * d + i) (6 * d + j))%nat [0; 1; 2]%nat) [0; 1; 2]%nat.
(** Without delay only measurements inside the gate of the state's own covariance are fused. *)
Theorem C84_no_delay_partial Orient get_yaw p now dt (f : tdkf exact) (m : pose_msg exact Orient) f' :
  compute_delay_step exact roundf_exact (compute_delay_time exact now (p_stamp _ _ m)) dt = Ok 0%Z ->
  pose_body exact roundf_exact sin cos atan2 Orient get_yaw (ekf_kalman exact inverse junk) p now dt f m = Ok f' -> f' <> f ->
  mahalanobis_gate exact inverse 3 (m_gate _ p) (td_x exact f) (pose_y Orient get_yaw m) (list_matrix exact (delayed_covariance f 0)) = true.
Proof.
  intros ED E NE. unfold pose_body, time_of in E. destruct (p_stamp _ _ m <? 0)%Z; [discriminate|]. cbn [bind] in E. rewrite ED in E. cbn [bind] in E.
  destruct (check_delay_step _ _); cbn [negb] in E; [|injection E as <-; congruence].
  destruct (all_finite _ _); cbn [negb] in E; [|injection E as <-; congruence].
  cbn [kf_get_x ekf_kalman] in E. unfold td_get_x in E. destruct ((0 <=? 0)%Z && (0 <? td_max exact f)%Z); [|discriminate]. cbn [bind] in E.
  destruct (gate _ _ _ _ _ _) eqn:G; cbn [negb] in E; [|injection E as <-; congruence].
  cbn in G. rewrite <- G. unfold mahalanobis_gate, squared_mahalanobis. unfold delayed_covariance.
  change (map (fun i => map (fun j => td_P exact f (6 * 0 + i) (6 * 0 + j))%nat [0; 1; 2]%nat) [0; 1; 2]%nat) with (pose_covariance exact (td_latest_p exact f)).
  destruct (inverse 3%nat _) as [V|]; [|reflexivity]. reflexivity.
Qed.
Lemma one_step_delay : compute_delay_step exact roundf_exact (compute_delay_time exact 1000000000 0) 1 = Ok 1%Z.
Proof.
  unfold compute_delay_step, compute_delay_time, seconds, d_max. cbn. unfold Rltb.
  destruct (Rlt_dec _ _) as [L|L]; [exfalso; lra|]. unfold roundf_exact.
  replace (1000000000 / 1000000000 / 1) with (IZR 1) by lra. rewrite ZnearestA_IZR. reflexivity.
Qed.
(** A heading of 3 measured one step ago, when the estimate was 0 with variance 1, is outside
    the gate of two standard deviations; it is fused all the same. *)
Theorem C84_delayed_outlier_refuted :
  mahalanobis_gate exact inverse 3 2 (list_vector exact [0; 0; 0]) (list_vector exact [0; 0; 3]) (list_matrix exact (delayed_covariance ex_now 1)) = false /\
  exists f', pose_body exact roundf_exact sin cos atan2 R (fun r => r) (ekf_kalman exact inverse junk)
               (MParams exact "map" 2 2 1) 1000000000 1 ex_now (PoseMsg exact R "map" 0 0 0 0 3 eye36) = Ok f' /\ td_x exact f' 2%nat = 3 / 2.
Proof.
  assert (P3 : 3 < PI) by (assert (H := PI2_3_2); lra).
  assert (NY : norm_yaw 3 = 3) by (apply norm_yaw_unique with 0%Z; lra).
  assert (C1 : delayed_covariance ex_now 1 = [[1; 0; 0]; [0; 1; 0]; [0; 0; 1]]) by reflexivity.
  assert (C0 : pose_covariance exact (td_P exact ex_now) = [[1; 0; 0]; [0; 1; 0]; [0; 0; 4]]).
  { cbn. unfold times. repeat (f_equal; try lra). }
  split.
  - rewrite C1. destruct (mahalanobis_gate _ _ _ _ _ _ _) eqn:G; [|reflexivity]. apply gate_diag in G; lra.
  - unfold pose_body. change (time_of (p_stamp exact R (PoseMsg exact R "map" 0 0 0 0 3 eye36))) with (Ok 0%Z). cbn [bind]. rewrite one_step_delay. cbn [bind].
    change (check_delay_step 1 (m_extend exact (MParams exact "map" 2 2 1))) with true. cbn [negb].
    replace (all_finite _ _) with true by reflexivity. cbn [negb].
    change (kf_get_x exact (ekf_kalman exact inverse junk) ex_now 1) with (Ok (State exact 0 0 0 0 0 0)). cbn [bind].
    change (pose_measurement_vector exact sin cos atan2 R (fun r => r) (PoseMsg exact R "map" 0 0 0 0 3 eye36)) with [0; 0; norm_yaw 3]. rewrite NY.
    change (get_pose_state exact (State exact 0 0 0 0 0 0)) with [0; 0; 0].
    change (kf_latest_p exact (ekf_kalman exact inverse junk) ex_now) with (td_P exact ex_now). rewrite C0.
    change (gate exact (ekf_kalman exact inverse junk) (m_gate exact (MParams exact "map" 2 2 1)) [0; 0; 0] [0; 0; 3] [[1; 0; 0]; [0; 1; 0]; [0; 0; 4]])
      with (mahalanobis_gate exact inverse 3 2 (list_vector exact [0; 0; 0]) (list_vector exact [0; 0; 3]) (list_matrix exact [[1; 0; 0]; [0; 1; 0]; [0; 0; 4]])).
    rewrite (proj2 (gate_diag 4 0 3 2 ltac:(lra) ltac:(lra)) ltac:(lra)). cbn [negb].
    destruct (pose_measurement_covariance exact (p_cov exact R (PoseMsg exact R "map" 0 0 0 0 3 eye36)) (m_steps exact (MParams exact "map" 2 2 1))) as [N| | | | |] eqn:EN; try (exfalso; discriminate EN).
    cbn [bind]. unfold try_update. cbn [kf_update ekf_kalman]. change (List.length [0; 0; 3]) with 3%nat.
    assert (T := @C57_update inverse Hinv junk 3 ex_now (list_vector exact [0; 0; 3]) (list_matrix exact (pose_measurement_matrix exact)) (list_matrix exact N) 1 ltac:(cbn; lia) ltac:(cbn; lia)).
    cbn zeta in T. change (td_dim exact ex_now) with 6%nat in T. change (td_size exact ex_now) with 12%nat in T.
    change (Z.to_nat 1) with 1%nat in T.
    assert (EN' := pose_noise_entries _ _ _ _ EN).
    set (D := stacked_measurement 6 1 (list_matrix exact (pose_measurement_matrix exact))) in *.
    assert (DP : forall i k, (i < 12)%nat -> (k < 3)%nat -> times 12 (td_P exact ex_now) (flip D) i k = td_P exact ex_now i (6 + k)%nat).
    { intros i k Hi Hk. change (times 12 (td_P exact ex_now) (flip D) i k) with (total 12 (fun l => td_P exact ex_now i l * D k l)).
      rewrite (@total_ext 12 _ (fun l => D k l * td_P exact ex_now i l)) by (intros; ring).
      exact (select_pose 2 1 k (td_P exact ex_now i) Hk ltac:(lia)). }
    assert (S2 : forall i j, (i < 3)%nat -> (j < 3)%nat -> plus (times 12 D (times 12 (td_P exact ex_now) (flip D))) (list_matrix exact N) i j = 2 * identity i j).
    { intros i j Hi Hj. unfold plus. rewrite <- EN' by assumption.
      change (times 12 D (times 12 (td_P exact ex_now) (flip D)) i j) with (apply_to (2 * 6) D (fun l => times 12 (td_P exact ex_now) (flip D) l j) i).
      unfold D at 1. rewrite select_pose by lia. rewrite DP by lia.
      (destruct i as [|[|[|i]]]; [| | |lia]); (destruct j as [|[|[|j]]]; [| | |lia]); cbv -[Rmult Rplus IZR]; lra. }
    destruct (td_update _ _ _ _ _ _ _ _) as [[u| | | | |] g]; try contradiction.
    + exists g. split; [reflexivity|]. destruct T as [(V & G & HV & HG & X & _) _].
      assert (EV := inverse_unique HV (is_inverse_half _ S2)).
      rewrite (X 2%nat ltac:(lia)). unfold apply_to at 1. cbn [total]. rewrite !(HG 2%nat) by lia.
      unfold times at 1 3 5. cbn [total]. rewrite !DP by lia. rewrite !EV by lia.
      change 12%nat with (2 * 6)%nat. unfold D. rewrite !select_pose by lia.
      cbv -[Rmult Rplus Rminus Rinv Rdiv Ropp IZR]. lra.
    + exfalso. destruct T as [_ T]. exact (T _ (is_inverse_half _ S2)).
Qed.
End Gate.

(** ** C63: the covariance used with k smoothing steps is k times that used with one *)
Theorem C63_pose_covariance_scaled : forall Orient (m : pose_msg exact Orient) k N1 Nk, (0 < k < 2 ^ 64)%Z ->
  pose_measurement_covariance exact (p_cov _ _ m) 1 = Ok N1 -> pose_measurement_covariance exact (p_cov _ _ m) k = Ok Nk ->
  same_matrix 3 3 (list_matrix exact Nk) (scaled (IZR k) (list_matrix exact N1)).
Proof.
  intros Orient m k N1 Nk Hk E1 Ek i j Hi Hj. unfold scaled. rewrite <- (pose_noise_entries _ _ _ _ E1 i j Hi Hj), <- (pose_noise_entries _ _ _ _ Ek i j Hi Hj).
  unfold pose_noise. rewrite (Z.mod_small k) by lia. change (1 mod 2 ^ 64)%Z with 1%Z. ring.
Qed.
Theorem C63_twist_covariance_scaled : forall (m : twist_msg exact) k N1 Nk, (0 < k < 2 ^ 64)%Z ->
  twist_measurement_covariance exact (t_cov _ m) 1 = Ok N1 -> twist_measurement_covariance exact (t_cov _ m) k = Ok Nk ->
  same_matrix 2 2 (list_matrix exact Nk) (scaled (IZR k) (list_matrix exact N1)).
Proof.
  intros m k N1 Nk Hk. unfold twist_measurement_covariance, covariance_at. cbn [mapM]. unfold bind.
  repeat match goal with |- context [vat ?l ?i] => destruct (vat l i); try discriminate end.
  intros H1 H2. injection H1 as <-. injection H2 as <-. intros i j Hi Hj. unfold steps_factor. rewrite (Z.mod_small k) by lia. change (1 mod 2 ^ 64)%Z with 1%Z.
  unfold scaled. (destruct i as [|[|i]]; [| |lia]); (destruct j as [|[|j]]; [| |lia]); cbn; ring.
Qed.
Example C63_scaled_case : exists N1 N5, pose_measurement_covariance exact eye36 1 = Ok N1 /\ pose_measurement_covariance exact eye36 5 = Ok N5.
Proof. do 2 eexists. split; reflexivity. Qed.

Print Assumptions C82_shorter_turn_partial.
Print Assumptions C82_opposite_heading_refuted.
Print Assumptions C83_unrotated_partial.
Print Assumptions C83_quarter_turn_refuted.
Print Assumptions C84_delayed_outlier_refuted.
Print Assumptions C63_pose_covariance_scaled.
