(** Properties C64 and C67-C70 of the EKF localizer. *)
From Coq Require Import String List ZArith Bool Lia Lra Reals.
From Coquelicot Require Import Coquelicot.
From Flocq Require Import Core IEEE754.BinarySingleNaN.
From Verif Require Import Base Arith SpecReal AngleProofs FloatLemmas EkfModel SpecEkf EkfProofs.
Import ListNotations.
Open Scope R_scope.

(** ** C64 *)
Section C64.
Variable A : arith.
Variable roundf : D A -> option Z.
Variable sin cos : D A -> D A.
Variable atan2 : D A -> D A -> D A.
Variable Orient : Type.
Variable get_yaw : Orient -> D A.
Variable K : kalman A.
(** The same message under another frame id. *)
Definition pose_in_frame (frame : string) (m : pose_msg A Orient) : pose_msg A Orient :=
  PoseMsg A Orient frame (p_stamp _ _ m) (p_x _ _ m) (p_y _ _ m) (p_z _ _ m) (p_orient _ _ m) (p_cov _ _ m).
Definition twist_in_frame (frame : string) (m : twist_msg A) : twist_msg A :=
  TwistMsg A frame (t_stamp _ m) (t_vx _ m) (t_wz _ m) (t_cov _ m).
(** Refuted: whatever a pose in the expected frame does to the filter, the same pose in any
    other frame does too. *)
Theorem C64_pose_refuted p now dt f m f' frame : p_frame _ _ m = m_frame A p -> frame <> m_frame A p ->
  pose_body A roundf sin cos atan2 Orient get_yaw K p now dt f m = Ok f' ->
  pose_body A roundf sin cos atan2 Orient get_yaw K p now dt f (pose_in_frame frame m) = Ok f'.
Proof. intros _ _ H. exact H. Qed.
Theorem C64_twist_refuted p now dt f m f' frame : t_frame _ m = "base_link"%string -> frame <> "base_link"%string ->
  twist_body A roundf K p now dt f m = Ok f' -> twist_body A roundf K p now dt f (twist_in_frame frame m) = Ok f'.
Proof. intros _ _ H. exact H. Qed.
End C64.
Print Assumptions C64_pose_refuted.
Print Assumptions C64_twist_refuted.
(** A filter that takes over what it is given, and a pose in frame "odom" where "map" is
    expected: the pose is taken over. *)
Definition take_over : kalman (ieee (fun x => x)) :=
  Kalman (ieee (fun x => x)) (list b64) (fun _ _ _ => Ok []) (fun _ => State (ieee (fun x => x)) (of_Z64 0) (of_Z64 0) (of_Z64 0) (of_Z64 0) (of_Z64 0) (of_Z64 0)) (fun _ _ _ => of_Z64 0)
    (fun _ _ => Ok (State (ieee (fun x => x)) (of_Z64 0) (of_Z64 0) (of_Z64 0) (of_Z64 0) (of_Z64 0) (of_Z64 0))) (fun f _ _ _ => Ok f) (fun _ y _ _ _ => Ok y) (fun _ _ _ _ => true).
Example ex_C64 : match pose_body (ieee (fun x => x)) (fun _ => Some 0%Z) (fun x => x) (fun x => x) (fun y _ => y) b64 (fun x => x) take_over
    (MParams (ieee (fun x => x)) "map" 50 (of_Z64 10) 5) 1000 (of_Z64 1) []
    (PoseMsg (ieee (fun x => x)) b64 "odom" 1000 (of_Z64 7) (of_Z64 8) (of_Z64 9) (of_Z64 1) (repeat (of_Z64 1) 36)) with
  | Ok [x; y; _] => Beqb x (of_Z64 7) && Beqb y (of_Z64 8) | _ => false end = true.
Proof. vm_compute. reflexivity. Qed.

(** ** C67 *)
Theorem C67_normalized y :
  (- PI < normalize_yaw exact sin cos atan2 y <= PI) /\
  (exists k : Z, y = normalize_yaw exact sin cos atan2 y + 2 * PI * IZR k) /\
  (forall r k, - PI < r <= PI -> y = r + 2 * PI * IZR k -> r = normalize_yaw exact sin cos atan2 y).
Proof.
  destruct (norm_yaw_spec y) as [H1 H2]. split; auto. split; auto. intros r k Hr E. symmetry. apply norm_yaw_unique with k; auto.
Qed.
Print Assumptions C67_normalized.
(** The predicted yaw is normalised and congruent to the integrated yaw. *)
Theorem C67_predicted s dt :
  - PI < st_yaw exact (predict_next_state exact sin cos atan2 s dt) <= PI /\
  exists k : Z, st_yaw exact s + st_wz exact s * dt = st_yaw exact (predict_next_state exact sin cos atan2 s dt) + 2 * PI * IZR k.
Proof. apply norm_yaw_spec. Qed.
Print Assumptions C67_predicted.
Example ex_C67 : normalize_yaw exact sin cos atan2 (3 * PI) = PI /\ normalize_yaw exact sin cos atan2 (- PI / 2) = - PI / 2.
Proof. pose proof PI_RGT_0. split; [apply norm_yaw_unique with 1%Z|apply norm_yaw_unique with 0%Z]; lra. Qed.

(** ** C68 *)
(** Component i of the predicted state (with the yaw as integrated) as a function of
    component j of the current one has derivative (i, j) of the matrix, at every state. *)
Theorem C68_jacobian (s : state exact) (dt : R) i j : (i < 6)%nat -> (j < 6)%nat ->
  is_derive (fun v => comp (predict_with exact sin cos (fun yaw => yaw) (with_comp s j v) dt) i) (comp s j)
    (create_state_transition_matrix exact sin cos Ropp s dt i j).
Proof. apply jacobian_raw. Qed.
Print Assumptions C68_jacobian.
(** With the normalisation too, wherever the next yaw is not on the cut. *)
Theorem C68_jacobian_normalized (s : state exact) (dt : R) i j : (i < 6)%nat -> (j < 6)%nat ->
  st_yaw exact (predict_next_state exact sin cos atan2 s dt) <> PI ->
  is_derive (fun v => comp (predict_next_state exact sin cos atan2 (with_comp s j v) dt) i) (comp s j)
    (create_state_transition_matrix exact sin cos Ropp s dt i j).
Proof. apply jacobian_full. Qed.
Print Assumptions C68_jacobian_normalized.
Example ex_C68 : st_yaw exact (predict_next_state exact sin cos atan2 (State exact 1 2 0 0 3 1) (1 / 10)) <> PI.
Proof.
  cbn. rewrite (norm_yaw_unique _ (1 / 10) 0); pose proof PI_RGT_0; pose proof (PI2_1); lra.
Qed.

(** ** C69 *)
Lemma mul64_1 (x : b64) : mul64 x (of_Z64 1) = x.
Proof.
  destruct (of_Z64_ok 1 ltac:(cbn; lia)) as [V1 F1].
  destruct x as [s|s| |s m e B]; try (destruct s; reflexivity); try reflexivity.
  set (x := B754_finite s m e B : b64).
  pose proof (Bmult_correct 53 1024 prec64 emax64 mode_NE x (of_Z64 1)) as C. change (round_mode mode_NE) with ZnearestE in C.
  fold (val x) (val (of_Z64 1)) in C. rewrite V1, Rmult_1_r in C. fold (rnd (val x)) in C. rewrite rnd_exact in C by apply fmt_val.
  rewrite Rlt_bool_true in C by apply (abs_B2R_lt_emax 53 1024 x). destruct C as [C1 [C2 C3]].
  change (Bmult mode_NE x (of_Z64 1)) with (mul64 x (of_Z64 1)) in *. unfold fin in F1. rewrite F1 in C2. cbn [is_finite x andb] in C2.
  apply B2R_Bsign_inj; auto. rewrite C3; [|destruct (mul64 x (of_Z64 1)); auto; discriminate]. cbn. destruct s; reflexivity.
Qed.
(** Doubles, bit for bit (NaN and infinities included): reading the pose part back. *)
Theorem C69_pose_round_trip acosf (P : matrix (ieee acosf)) :
  pose_measurement_covariance (ieee acosf) (pose_message_covariance (ieee acosf) P) 1 = Ok (pose_covariance (ieee acosf) P).
Proof.
  unfold pose_measurement_covariance, covariance_at, pose_message_covariance, pose_covariance, steps_factor. change (1 mod 2 ^ 64)%Z with 1%Z. cbv [mapM bind vat]. cbn. unfold Pos.to_nat. cbn. rewrite !mul64_1. reflexivity.
Qed.
Theorem C69_twist_round_trip acosf (P : matrix (ieee acosf)) :
  twist_measurement_covariance (ieee acosf) (twist_message_covariance (ieee acosf) P) 1 = Ok (twist_covariance (ieee acosf) P).
Proof.
  unfold twist_measurement_covariance, covariance_at, twist_message_covariance, twist_covariance, steps_factor. change (1 mod 2 ^ 64)%Z with 1%Z. cbv [mapM bind vat]. cbn. unfold Pos.to_nat. cbn. rewrite !mul64_1. reflexivity.
Qed.
(** The layout, in any arithmetic: row i, column j of the 6x6 message is the filter's entry
    for x, y, yaw at 0, 1, 5 of a pose and vx, wz at 0, 5 of a twist, and zero elsewhere. *)
Definition pose_slot (i : nat) : option nat := match i with 0 => Some 0 | 1 => Some 1 | 5 => Some 2 | _ => None end%nat.
Definition twist_slot (i : nat) : option nat := match i with 0 => Some 4 | 5 => Some 5 | _ => None end%nat.
Definition slotted A (slot : nat -> option nat) (P : matrix A) (i j : nat) : D A :=
  match slot i, slot j with Some a, Some b => P a b | _, _ => d_of_Z A 0 end.
Theorem C69_pose_layout A (P : matrix A) : length (pose_message_covariance A P) = 36%nat /\
  forall i j, (i < 6)%nat -> (j < 6)%nat -> nth_error (pose_message_covariance A P) (6 * i + j) = Some (slotted A pose_slot P i j).
Proof.
  split; [reflexivity|]. intros i j Hi Hj. revert i Hi j Hj. apply (forall6 (fun i => forall j, (j < 6)%nat -> nth_error (pose_message_covariance A P) (6 * i + j) = Some (slotted A pose_slot P i j)));
    match goal with |- forall j, _ -> nth_error ?l (6 * ?i + j) = _ => apply (forall6 (fun j => nth_error l (6 * i + j) = Some (slotted A pose_slot P i j))) end; reflexivity.
Qed.
Theorem C69_twist_layout A (P : matrix A) : length (twist_message_covariance A P) = 36%nat /\
  forall i j, (i < 6)%nat -> (j < 6)%nat -> nth_error (twist_message_covariance A P) (6 * i + j) = Some (slotted A twist_slot P i j).
Proof.
  split; [reflexivity|]. intros i j Hi Hj. revert i Hi j Hj. apply (forall6 (fun i => forall j, (j < 6)%nat -> nth_error (twist_message_covariance A P) (6 * i + j) = Some (slotted A twist_slot P i j)));
    match goal with |- forall j, _ -> nth_error ?l (6 * ?i + j) = _ => apply (forall6 (fun j => nth_error l (6 * i + j) = Some (slotted A twist_slot P i j))) end; reflexivity.
Qed.
Print Assumptions C69_pose_round_trip.
Print Assumptions C69_twist_round_trip.
Print Assumptions C69_pose_layout.
Print Assumptions C69_twist_layout.
Example ex_C69 : nth_error (pose_message_covariance (ieee (fun x => x)) (fun i j => of_Z64 (Z.of_nat (10 * i + j)))) 11 = Some (of_Z64 12).
Proof. reflexivity. Qed.

(** ** C70 *)
(** A history: observations, their standard deviations, and stamps in nanoseconds. *)
Definition observe (proc : R) (h : list (R * R * Z)) : filter1d exact :=
  fold_left (fun f o => f1_update exact f (fst (fst o)) (snd (fst o)) (snd o)) h (f1_new exact proc).
Theorem C70_uninitialised proc h : f_init _ (observe proc h) = true <-> h <> [].
Proof.
  split.
  - intros H ->. discriminate H.
  - destruct h as [|o h]; [congruence|]. intros _. unfold observe. cbn [fold_left].
    assert (G : forall h f, f_init exact f = true -> f_init exact (fold_left (fun f o => f1_update exact f (fst (fst o)) (snd (fst o)) (snd o)) h f) = true).
    { clear. induction h as [|o h IH]; intros f I; cbn [fold_left]; auto. apply IH. unfold f1_update. rewrite I. reflexivity. }
    apply G. reflexivity.
Qed.
Lemma observe_snoc proc h o : observe proc (h ++ [o]) = f1_update exact (observe proc h) (fst (fst o)) (snd (fst o)) (snd o).
Proof. unfold observe. rewrite fold_left_app. reflexivity. Qed.
Lemma observe_proc proc h : f_proc _ (observe proc h) = proc.
Proof.
  induction h as [|o h IH] using rev_ind; [reflexivity|]. rewrite observe_snoc. rewrite <- IH at 2. unfold f1_update. destruct (f_init _ _); reflexivity.
Qed.
(** The estimate stays within the range of the observations, the deviation positive. *)
Theorem C70_between proc h lo hi : h <> [] -> Forall (fun o => lo <= fst (fst o) <= hi /\ 0 < snd (fst o)) h ->
  lo <= f_x _ (observe proc h) <= hi /\ 0 < f_stddev _ (observe proc h).
Proof.
  induction h as [|o h IH] using rev_ind; [congruence|]. intros _ F. apply Forall_app in F. destruct F as [F1 F2]. inversion F2 as [|? ? [B P] _]; subst.
  rewrite observe_snoc. destruct h as [|o' h].
  - cbn. auto.
  - destruct (IH ltac:(discriminate) F1) as [I1 I2]. assert (FI : f_init _ (observe proc (o' :: h)) = true) by (apply C70_uninitialised; discriminate).
    destruct (f1_step _ (fst (fst o)) (snd (fst o)) (snd o) FI I2 P) as (_ & _ & _ & S & X & _ & S2). cbv zeta in *.
    set (f' := f1_update exact _ _ _ _) in *. set (f := observe proc (o' :: h)) in *. split; auto. change (D exact) with R in *. rewrite X.
    set (s2 := Rsqr (f_stddev exact f) + _) in *. clearbody s2. set (x := f_x exact f) in *. clearbody x. clear - I1 B P S2.
    assert (R2 : 0 < Rsqr (snd (fst o))) by (apply Rsqr_pos_lt; lra). set (r2 := Rsqr (snd (fst o))) in *. clearbody r2. split.
    + apply Rmult_le_reg_r with (r2 + s2); [lra|]. unfold Rdiv. rewrite Rmult_assoc, Rinv_l, Rmult_1_r by lra. destruct I1, B. nra.
    + apply Rmult_le_reg_r with (r2 + s2); [lra|]. unfold Rdiv. rewrite Rmult_assoc, Rinv_l, Rmult_1_r by lra. destruct I1, B. nra.
Qed.
(** One more observation: the variance is positive, at most that of the observation, and at
    most the previous one plus the process noise of the elapsed time. *)
Theorem C70_variance proc h o : h <> [] -> Forall (fun o => 0 < snd (fst o)) (h ++ [o]) ->
  let f := observe proc h in let f' := observe proc (h ++ [o]) in
  let elapsed := IZR (snd o - f_time _ f) / 1000000000 in
  0 < Rsqr (f_stddev _ f') /\ Rsqr (f_stddev _ f') <= Rsqr (snd (fst o)) /\
  Rsqr (f_stddev _ f') <= Rsqr (f_stddev _ f) + Rsqr (proc * elapsed).
Proof.
  intros NE F. cbv zeta. apply Forall_app in F. destruct F as [F1 F2]. inversion F2 as [|? ? P _]; subst.
  assert (BD : exists lo hi, Forall (fun o => lo <= fst (fst o) <= hi /\ 0 < snd (fst o)) h).
  { clear - F1. induction F1 as [|[[x r] t] h P _ [lo [hi IH]]]; [exists 0, 0; constructor|]. exists (Rmin x lo), (Rmax x hi). constructor.
    - cbn in *. split; auto. split; [apply Rmin_l|apply Rmax_l].
    - eapply Forall_impl; [|exact IH]. cbn. intros [[x' r'] t'] [B ?]. cbn in *. split; auto. pose proof (Rmin_r x lo). pose proof (Rmax_r x hi). lra. }
  destruct BD as [lo [hi BD]]. destruct (C70_between proc h lo hi NE BD) as [_ S0].
  rewrite observe_snoc. assert (FI : f_init _ (observe proc h) = true) by (apply C70_uninitialised; auto).
  destruct (f1_step _ (fst (fst o)) (snd (fst o)) (snd o) FI S0 P) as (_ & _ & _ & S & _ & V & S2). cbv zeta in *. rewrite observe_proc in V, S2. change (D exact) with R in *.
  set (s2 := Rsqr (f_stddev exact _) + _) in *. rewrite V. assert (R2 : 0 < Rsqr (snd (fst o))) by (apply Rsqr_pos_lt; lra). set (r2 := Rsqr (snd (fst o))) in *.
  split; [apply Rdiv_lt_0_compat; nra|]. split; (apply Rmult_le_reg_r with (s2 + r2); [lra|]; unfold Rdiv; rewrite Rmult_assoc, Rinv_l, Rmult_1_r by lra; nra).
Qed.
(** One more observation is averaged in with weights inverse to the variances: that of the
    estimate so far, grown by the process noise, and that of the observation. *)
Theorem C70_weighted proc h o : h <> [] -> Forall (fun o => 0 < snd (fst o)) (h ++ [o]) ->
  let f := observe proc h in let f' := observe proc (h ++ [o]) in
  let prior := Rsqr (f_stddev _ f) + Rsqr (proc * (IZR (snd o - f_time _ f) / 1000000000)) in
  / Rsqr (f_stddev _ f') = / prior + / Rsqr (snd (fst o)) /\
  f_x _ f' / Rsqr (f_stddev _ f') = f_x _ f / prior + fst (fst o) / Rsqr (snd (fst o)) /\
  f_time _ f' = snd o.
Proof.
  intros NE F. cbv zeta. apply Forall_app in F. destruct F as [F1 F2]. inversion F2 as [|? ? P _]; subst.
  assert (BD : exists lo hi, Forall (fun o => lo <= fst (fst o) <= hi /\ 0 < snd (fst o)) h).
  { clear - F1. induction F1 as [|[[x r] t] h P _ [lo [hi IH]]]; [exists 0, 0; constructor|]. exists (Rmin x lo), (Rmax x hi). constructor.
    - cbn in *. split; auto. split; [apply Rmin_l|apply Rmax_l].
    - eapply Forall_impl; [|exact IH]. cbn. intros [[x' r'] t'] [B ?]. cbn in *. split; auto. pose proof (Rmin_r x lo). pose proof (Rmax_r x hi). lra. }
  destruct BD as [lo [hi BD]]. destruct (C70_between proc h lo hi NE BD) as [_ S0].
  rewrite observe_snoc. assert (FI : f_init _ (observe proc h) = true) by (apply C70_uninitialised; auto).
  destruct (f1_step _ (fst (fst o)) (snd (fst o)) (snd o) FI S0 P) as (_ & _ & T & S & X & V & S2). cbv zeta in *. rewrite observe_proc in V, S2, X. change (D exact) with R in *.
  set (s2 := Rsqr (f_stddev exact _) + _) in *. assert (R2 : 0 < Rsqr (snd (fst o))) by (apply Rsqr_pos_lt; lra). set (r2 := Rsqr (snd (fst o))) in *.
  rewrite V, X. split; [field; lra|]. split; [field; lra|exact T].
Qed.
(** Without process noise: the mean of all observations weighted by their inverse variances,
    whose own inverse variance is the sum of the weights. *)
Definition weight (o : R * R * Z) : R := / Rsqr (snd (fst o)).
Definition sum_of (l : list R) : R := fold_right Rplus 0 l.
Theorem C70_weighted_mean h : h <> [] -> Forall (fun o => 0 < snd (fst o)) h ->
  / Rsqr (f_stddev _ (observe 0 h)) = sum_of (map weight h) /\
  f_x _ (observe 0 h) = sum_of (map (fun o => weight o * fst (fst o)) h) / sum_of (map weight h).
Proof.
  intros NE F. assert (SA : forall a b, sum_of (a ++ b) = sum_of a + sum_of b).
  { clear. induction a as [|x a IH]; intros b; [cbn; unfold sum_of; ring|]. unfold sum_of in *. cbn [app fold_right]. rewrite IH. ring. }
  assert (G : / Rsqr (f_stddev _ (observe 0 h)) = sum_of (map weight h) /\ f_x _ (observe 0 h) / Rsqr (f_stddev _ (observe 0 h)) = sum_of (map (fun o => weight o * fst (fst o)) h)).
  { induction h as [|o h IH] using rev_ind; [congruence|]. destruct h as [|o' h].
    - cbn. unfold weight, Rdiv. change (D exact) with R in *. cbn. split; ring.
    - apply Forall_app in F as FF. destruct FF as [F1 F2]. destruct (IH ltac:(discriminate) F1) as [I1 I2].
      destruct (C70_weighted 0 (o' :: h) o ltac:(discriminate) F) as (W1 & W2 & _). cbv zeta in W1, W2.
      rewrite Rmult_0_l, Rsqr_0, Rplus_0_r in W1, W2. rewrite W1, W2, I1. rewrite I2. rewrite !map_app, !SA. change (sum_of (map weight [o])) with (weight o + 0). change (sum_of (map (fun o => weight o * fst (fst o)) [o])) with (weight o * fst (fst o) + 0). unfold Rdiv. fold (weight o).
      change (D exact) with R in *. split; [ring|]. ring. }
  destruct G as [G1 G2]. split; [exact G1|]. rewrite <- G1, <- G2.
  assert (P : 0 < sum_of (map weight h)).
  { destruct h as [|o h]; [congruence|]. inversion F as [|? ? Po Fh]; subst. assert (W0 : forall o, 0 < snd (fst o) -> 0 < weight o) by (intros o0 H; unfold weight; apply Rinv_0_lt_compat, Rsqr_pos_lt; lra).
    cbn [map sum_of fold_right]. fold (sum_of (map weight h)). assert (N : 0 <= sum_of (map weight h)).
    { clear - Fh W0. induction Fh as [|o h P _ IH]; [cbn; lra|]. cbn [map sum_of fold_right]. fold (sum_of (map weight h)). specialize (W0 o P). lra. }
    specialize (W0 o Po). lra. }
  rewrite <- G1 in P. change (D exact) with R in *. unfold Rdiv. rewrite Rmult_assoc, Rinv_r, Rmult_1_r by lra. reflexivity.
Qed.
Print Assumptions C70_weighted.
Print Assumptions C70_weighted_mean.
Print Assumptions C70_uninitialised.
Print Assumptions C70_between.
Print Assumptions C70_variance.
Example ex_C70 : f_x _ (observe 0 [((1, 1), 0%Z); ((3, 1), 0%Z)]) = 2.
Proof.
  unfold observe. cbn [fold_left fst snd].
  destruct (f1_step (f1_update exact (f1_new exact 0) 1 1 0) 3 1 0 eq_refl) as (_ & _ & _ & _ & X & _); cbn; try lra. cbv zeta in X. cbn [f1_update f1_new f1_init f_init f_x f_stddev f_proc f_time] in *.
  change (D exact) with R in *. unfold Rsqr in X. cbn in X. rewrite X. lra.
Qed.
(** Zero variances, outside the property: two poses with the same stamp and a zero variance
    leave NaN in the filter, for good. *)
Theorem C70_zero_variance_refuted :
  is_nan (f_x _ (fold_left (fun f (o : b64) => f1_update (ieee (fun x => x)) f o (of_Z64 0) 5) [of_Z64 1; of_Z64 1] (f1_new (ieee (fun x => x)) (of_Z64 1))) : b64) = true.
Proof. vm_compute. reflexivity. Qed.
Print Assumptions C70_zero_variance_refuted.
