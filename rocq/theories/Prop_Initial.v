(** Property C107: the uncertainty of the initial pose, in exact arithmetic with the
    repository's time-delay filter. *)
From Coq Require Import Reals Lra Lia PeanoNat List Bool ZArith ZifyBool ZifyNat String.
From Verif Require Import Base Arith SpecReal EkfModel SpecEkf EkfProofs IntervalProofs Prop_Interval Prop_Queue EkfNodeProofs KalmanModel SpecKalman SpecFusion SpecCycle
  StackProofs QueueProofs Prop_EkfNode Prop_Kalman FusionProofs FusionNodeProofs Prop_Fusion BiasProofs Prop_Bias SpecOrigin OriginProofs TurnNodeProofs Prop_Origin SpecInitial.
Import ListNotations.
Local Open Scope R_scope.
Unset Asymmetric Patterns.

Section Initial.
Variable inverse : nat -> (nat -> nat -> R) -> option (nat -> nat -> R).
Variable junk : nat -> nat -> R.
Variable Orient : Type.
Variable get_yaw get_roll get_pitch : Orient -> R.
Variable prm : params exact.
Notation K := (ekf_kalman exact inverse junk).
Notation step := (node_step exact roundf_exact sin cos atan2 Ropp Orient get_yaw get_roll get_pitch K prm).
Notation run := (node_run exact roundf_exact sin cos atan2 Ropp Orient get_yaw get_roll get_pitch K prm).
Notation pub := (published inverse junk roundf_exact sin cos atan2 Orient get_yaw get_roll get_pitch prm).

(** Correlations in the covariance of an initial pose never count: without them everything
    published, at any time, is the same. *)
Theorem C107_never_used_refuted : forall h, Forall (complete Orient) h -> pub (map (uncorrelated Orient) h) = pub h.
Proof.
  intros h HC. unfold published, node_run. generalize (node_new exact Orient K). induction h as [|e h IH]; intros n; [reflexivity|].
  inversion HC; subst. cbn [map foldM]. replace (step n (uncorrelated Orient e)) with (step n e).
  - destruct (step n e); cbn [bind]; try reflexivity. apply IH. assumption.
  - destruct e as [t1 t2 t3 t4 t5|m tf|m|m]; try reflexivity. cbn [uncorrelated complete] in *.
    assert (E : forall k, In k [0; 7; 14; 21; 28; 35]%Z -> vat (without_correlations (p_cov exact Orient m)) k = vat (p_cov exact Orient m) k).
    { intros k Hk. assert (HL : @List.length R (p_cov exact Orient m) = 36%nat) by assumption.
      transitivity (@Ok R (nth (Z.to_nat k) (p_cov exact Orient m) 0)).
      - assert (HW : @List.length R (without_correlations (p_cov exact Orient m)) = 36%nat) by reflexivity.
        transitivity (@Ok R (nth (Z.to_nat k) (without_correlations (p_cov exact Orient m)) 0)); [exact (vat_list (without_correlations (p_cov exact Orient m)) k ltac:(rewrite HW; cbn [In] in Hk; lia) ltac:(cbn [In] in Hk; lia))|].
        cbn [In] in Hk. destruct Hk as [<-|[<-|[<-|[<-|[<-|[<-|[]]]]]]]; reflexivity.
      - symmetry. exact (vat_list (p_cov exact Orient m) k ltac:(rewrite HL; cbn [In] in Hk; lia) ltac:(cbn [In] in Hk; lia)). }
    cbn [node_step]. unfold callback_initial_pose, init_covariance, update_simple_filters. cbn [p_frame p_stamp p_x p_y p_z p_orient p_cov].
    rewrite !E by (cbn; auto 10). reflexivity.
Qed.

(** The published covariance of the tick after an initial pose: the variances are those of
    the message, grown by the motion over the interval with a speed and a turn rate of
    variance 1/100 each; nothing of its correlations. *)
Theorem C107_variances_partial : forall h m tr n t1 t2 t3 t4 t5, complete Orient (EvInitialPose exact Orient m (Some tr)) ->
  run (h ++ [EvInitialPose exact Orient m (Some tr)]) = Ok n -> (forall l, n_last _ _ _ n = Some l -> l < in_seconds t1) ->
  exists n' o pose cov vx wz twist_cov dt,
    run (h ++ [EvInitialPose exact Orient m (Some tr); EvTimer exact Orient t1 t2 t3 t4 t5]) = Ok n' /\
    n_out _ _ _ n' = n_out _ _ _ n ++ [o; OutOdometry exact t5 (pose_frame_id _ prm) pose cov vx wz twist_cov] /\
    interval_is prm (n_last _ _ _ n) t1 dt /\
    let given k := nth k (p_cov _ _ m) 0 in
    let yaw := get_yaw (p_orient _ _ m) + get_yaw (tr_rot _ _ tr) in
    let dx := cos yaw * dt in let dy := sin yaw * dt in
    cov = [given 0%nat + dx * dx / 100; dx * dy / 100; 0; 0; 0; 0;
           dx * dy / 100; given 7%nat + dy * dy / 100; 0; 0; 0; 0;
           0; 0; 0; 0; 0; 0;
           0; 0; 0; 0; 0; 0;
           0; 0; 0; 0; 0; 0;
           0; 0; 0; 0; 0; given 35%nat + dt * dt / 100 + SpecFusion.spread (yaw_covariance _ prm) dt].
Proof.
  intros h m tr n t1 t2 t3 t4 t5 HL E HT. unfold node_run in *. rewrite foldM_app in *.
  destruct (foldM step (node_new exact Orient K) h) as [n0| | | | |]; try discriminate. cbn [bind foldM] in *.
  destruct (step n0 (EvInitialPose exact Orient m (Some tr))) as [n1| | | | |] eqn:S1; try discriminate. cbn [bind] in E. injection E as ->. cbn [bind].
  cbn [node_step] in S1. unfold callback_initial_pose in S1.
  destruct (erase_begin_slash _) in S1; try discriminate. cbn [bind] in S1. destruct (erase_begin_slash _) in S1; try discriminate. cbn [bind] in S1.
  assert (EW : forall i, (0 <= i < 36)%Z -> vat (p_cov exact Orient m) i = Ok (nth (Z.to_nat i) (p_cov exact Orient m) 0)).
  { intros i Hb. assert (HL2 : @List.length R (p_cov exact Orient m) = 36%nat) by exact HL. exact (vat_list (p_cov exact Orient m) i ltac:(rewrite HL2; lia) ltac:(lia)). }
  unfold init_covariance, update_simple_filters in S1. rewrite !EW in S1 by lia. cbn [bind] in S1.
  change (Z.to_nat 0) with 0%nat in S1. change (Z.to_nat 7) with 7%nat in S1. change (Z.to_nat 35) with 35%nat in S1.
  cbn [kf_new ekf_kalman] in S1. unfold td_new in S1. destruct (0 <? extend_state_step exact prm)%Z eqn:EX; try discriminate. cbn [bind] in S1.
  destruct (time_of _) in S1; try discriminate. cbn [bind] in S1. injection S1 as <-. cbn [n_last n_out] in *.
  destruct (interval_tick prm _ t1 HT) as (dt & EI & ID & DP).
  cbn [node_step]. unfold timer_callback. cbn [n_ekf n_last n_pose n_twist n_z n_roll n_pitch n_out q_clear]. rewrite EI.
  cbn [kf_predict kf_latest_x ekf_kalman bind].
  match goal with |- context [pose_update exact _ _ _ _ _ _ K ?a ?q ?g ?b ?c] => assert (EP : pose_update exact roundf_exact sin cos atan2 Orient get_yaw K a q g b c = Ok (q, g)) by reflexivity; rewrite EP; clear EP end.
  cbn [bind].
  match goal with |- context [twist_update exact _ K ?a ?q ?g ?b ?c] => assert (EP : twist_update exact roundf_exact K a q g b c = Ok (q, g)) by reflexivity; rewrite EP; clear EP end.
  cbn [bind]. do 8 eexists. split; [reflexivity|]. cbn [n_out]. split; [reflexivity|]. split; [exact ID|].
  cbn zeta. cbn [kf_latest_p ekf_kalman]. unfold td_latest_p, td_predict. cbn [td_P td_dim td_x]. unfold td_latest_x. cbn [td_x].
  unfold pose_message_covariance.
  assert (SZ : (6 <= Z.to_nat (extend_state_step exact prm) * 6)%nat) by lia.
  unfold td_size. cbn [td_max td_dim]. rewrite !update_p_entry by lia. cbn [Nat.ltb Nat.leb].
  set (P0 := diagonal exact _). set (x0 := to_vector exact _).
  set (P := init_p exact 6 P0 _). set (x := init_x exact junk 6 x0 _).
  assert (HP : forall i j, (i < 6)%nat -> (j < 6)%nat -> P i j = P0 i j).
  { intros i j Hi Hj. unfold P. rewrite init_p_entry by lia. rewrite !Nat.div_small, !Nat.mod_small by lia. reflexivity. }
  assert (HX : forall i, (i < 6)%nat -> x i = x0 i).
  { intros i Hi. unfold x. rewrite init_x_entry by lia. rewrite Nat.mod_small by lia. reflexivity. }
  unfold of_vector. rewrite !HX by lia. unfold x0, to_vector, init_state. cbn [nth st_x st_y st_yaw st_bias st_vx st_wz].
  cbn -[P cos sin]. rewrite !HP by lia. unfold P0, diagonal. cbn -[cos sin nth]. cbn [nth]. rewrite !Rplus_0_r.
  unfold SpecFusion.spread.
  assert (CE : forall (a b : R) l l', a = b -> l = l' -> a :: l = b :: l') by (intros; subst; reflexivity).
  repeat (apply CE; [field|]). reflexivity.
Qed.
End Initial.
Print Assumptions C107_never_used_refuted.
Print Assumptions C107_variances_partial.

(** An initial pose at the origin with heading along the x axis and the covariance
    [[u, w], [w, v]] of the position. *)
Definition blurred36 (u v w : R) : list R :=
  [u; w; 0; 0; 0; 0;  w; v; 0; 0; 0; 0;  0; 0; 1; 0; 0; 0;  0; 0; 0; 1; 0; 0;  0; 0; 0; 0; 1; 0;  0; 0; 0; 0; 0; 1].
Definition blurred (u v w : R) : pose_msg exact R := PoseMsg exact R "map" 0 0 0 0 0 (blurred36 u v w).
Definition blurred_history (u v w : R) : list (event exact R) := [EvInitialPose _ _ (blurred u v w) (Some ex_tf); every 1000000000].
Lemma blurred_sound u v w : 0 < u -> w * w < u * v -> sound_history R (blurred_history u v w).
Proof.
  intros Hu Hw. split; [|cbn; repeat constructor; cbn; intuition lia]. repeat (apply Forall_cons; [|]); try constructor; try exact Logic.I.
  - reflexivity.
  - split.
    + intros i j Hi Hj. do 3 (destruct i as [|i]; [do 3 (destruct j as [|j]; [reflexivity|]); lia|]). lia.
    + intros x (i & Hi & N).
      replace (variance_along 3 _ x) with (u * (x 0%nat * x 0%nat) + v * (x 1%nat * x 1%nat) + 2 * w * (x 0%nat * x 1%nat) + x 2%nat * x 2%nat) by (unfold variance_along, noise_of; cbn; ring).
      assert (P : forall a : R, a <> 0 -> 0 < a * a) by (intros; apply Rsqr_pos_lt; assumption).
      pose proof (Rle_0_sqr (x 2%nat)) as Q2. unfold Rsqr in Q2.
      set (a := x 0%nat) in *. set (b := x 1%nat) in *. set (c := x 2%nat) in *.
      assert (E : u * (u * (a * a) + v * (b * b) + 2 * w * (a * b)) = (u * a + w * b) * (u * a + w * b) + (u * v - w * w) * (b * b)) by ring.
      pose proof (Rle_0_sqr (u * a + w * b)) as Q0. unfold Rsqr in Q0. pose proof (Rle_0_sqr b) as Q1. unfold Rsqr in Q1.
      assert (N0 : 0 <= u * (u * (a * a) + v * (b * b) + 2 * w * (a * b))) by nra.
      assert (N1 : 0 <= u * (a * a) + v * (b * b) + 2 * w * (a * b)) by (apply (Rmult_le_reg_l u); lra).
      destruct (Req_dec c 0) as [C0|C0]; [|specialize (P c C0); lra].
      assert (0 < u * (u * (a * a) + v * (b * b) + 2 * w * (a * b))) as L.
      { rewrite E. destruct (Req_dec b 0) as [B0|B0].
        - assert (a <> 0) by (destruct i as [|[|[|i]]]; [exact N|contradiction|contradiction|lia]). rewrite B0. specialize (P a H).
          replace ((u * a + w * 0) * (u * a + w * 0) + (u * v - w * w) * (0 * 0)) with ((u * u) * (a * a)) by ring. apply Rmult_lt_0_compat; [nra|exact P].
        - specialize (P b B0). assert (0 < (u * v - w * w) * (b * b)) by (apply Rmult_lt_0_compat; lra). lra. }
      assert (0 < u * (a * a) + v * (b * b) + 2 * w * (a * b)) by (apply (Rmult_lt_reg_l u); lra). rewrite C0. lra.
Qed.

Section Witness.
Variable inverse : nat -> (nat -> nat -> R) -> option (nat -> nat -> R).
Variable junk : nat -> nat -> R.
Notation get_yaw := (fun r : R => r). Notation zero := (fun _ : R => 0).
Notation pub := (published inverse junk roundf_exact sin cos atan2 R get_yaw zero zero bias_prm).
Lemma initial_published m : p_frame _ _ m = "map"%string -> p_stamp _ _ m = 0%Z -> complete R (EvInitialPose _ _ m (Some ex_tf)) ->
  exists o pose vx wz twist_cov,
    let given k := nth k (p_cov _ _ m) 0 in let dx := cos (p_orient _ _ m) in let dy := sin (p_orient _ _ m) in
    pub [EvInitialPose _ _ m (Some ex_tf); every 1000000000] =
      Ok [o; OutOdometry exact 1000000000 "map" pose
        [given 0%nat + dx * dx / 100; dx * dy / 100; 0; 0; 0; 0;
         dx * dy / 100; given 7%nat + dy * dy / 100; 0; 0; 0; 0;
         0; 0; 0; 0; 0; 0;
         0; 0; 0; 0; 0; 0;
         0; 0; 0; 0; 0; 0;
         0; 0; 0; 0; 0; given 35%nat + 1 / 100] vx wz twist_cov].
Proof.
  intros HF HS HL.
  assert (EW : forall i, (0 <= i < 36)%Z -> vat (p_cov exact R m) i = Ok (nth (Z.to_nat i) (p_cov exact R m) 0)).
  { intros i Hb. assert (HL2 : @List.length R (p_cov exact R m) = 36%nat) by exact HL. exact (vat_list (p_cov exact R m) i ltac:(rewrite HL2; lia) ltac:(lia)). }
  assert (E : exists n, node_run exact roundf_exact sin cos atan2 Ropp R get_yaw zero zero (ekf_kalman exact inverse junk) bias_prm ([] ++ [EvInitialPose _ _ m (Some ex_tf)]) = Ok n /\
    n_last _ _ _ n = None /\ n_out _ _ _ n = []).
  { cbn [app]. unfold node_run. cbn [foldM node_step]. unfold callback_initial_pose, init_covariance, update_simple_filters. rewrite HF, !EW by lia. cbn [p_frame erase_begin_slash]. rewrite HS.
    eexists. split; [reflexivity|]. split; reflexivity. }
  destruct E as (n & E & L0 & O0).
  destruct (C107_variances_partial inverse junk R get_yaw zero zero bias_prm [] m ex_tf n 1000000000 1000000000 1000000000 1000000000 1000000000 HL E ltac:(intros l Hl; congruence))
    as (n' & o & pose & cov & vx & wz & tc & dt & E' & O' & I & C).
  rewrite L0 in I. cbn [interval_is default_frequency bias_prm] in I. rewrite Rmax_left in I by lra. rewrite Rinv_1 in I. subst dt.
  exists o, pose, vx, wz, tc. cbn zeta in *. unfold published. cbn [app] in E'. unfold every. rewrite E'. cbn [bind]. rewrite O', O0, C. cbn [app].
  cbn [tr_rot ex_tf]. rewrite Rplus_0_r, !Rmult_1_r. unfold SpecFusion.spread. cbn [yaw_covariance bias_prm pose_frame_id].
  replace (nth 35 (p_cov exact R m) 0 + 1 / 100 + 0 * 1 * (0 * 1)) with (nth 35 (p_cov exact R m) 0 + 1 / 100) by ring. reflexivity.
Qed.

(** The position of the initial pose is given with covariance 1/2 between x and y; the tick
    right after it publishes none. *)
Theorem C107_correlations_refuted : exists o pose cov vx wz twist_cov,
  sound_params bias_prm /\ sound_history R (blurred_history 1 1 (1 / 2)) /\ nth 1 (blurred36 1 1 (1 / 2)) 0 = 1 / 2 /\
  pub (blurred_history 1 1 (1 / 2)) = Ok [o; OutOdometry exact 1000000000 "map" pose cov vx wz twist_cov] /\ nth 1 cov 0 = 0.
Proof.
  destruct (initial_published (blurred 1 1 (1 / 2)) eq_refl eq_refl eq_refl) as (o & pose & vx & wz & tc & E).
  do 6 eexists. split; [exact bias_params_sound|]. split; [apply blurred_sound; lra|]. split; [reflexivity|]. split; [exact E|].
  cbn. rewrite sin_0. lra.
Qed.

(** C106: for the same reason the published covariance depends on the axes of the map.  An
    initial pose more uncertain along x than along y, with axes turned by 45 degrees. *)
Theorem C106_initial_covariance_refuted : exists theta h o pose cov vx wz tc o' pose' cov' vx' wz' tc',
  sound_params bias_prm /\ sound_history R h /\
  pub h = Ok [o; OutOdometry exact 1000000000 "map" pose cov vx wz tc] /\
  pub (map (turned_event R theta (fun yaw => yaw + theta)) h) = Ok [o'; OutOdometry exact 1000000000 "map" pose' cov' vx' wz' tc'] /\
  cov' <> turned_covariance theta cov.
Proof.
  exists (PI / 4), (blurred_history 4 1 0).
  destruct (initial_published (blurred 4 1 0) eq_refl eq_refl eq_refl) as (o & pose & vx & wz & tc & E).
  destruct (initial_published (turned_pose R (PI / 4) (fun yaw => yaw + PI / 4) (blurred 4 1 0)) eq_refl eq_refl eq_refl) as (o' & pose' & vx' & wz' & tc' & E').
  do 12 eexists. split; [exact bias_params_sound|]. split; [apply blurred_sound; lra|]. split; [exact E|]. split; [exact E'|].
  intros H. apply (f_equal (fun l => nth 1 l 0)) in H. revert H. cbn -[PI sin cos]. rewrite Rplus_0_l, cos_0, sin_0, cos_PI4, sin_PI4.
  assert (S : / sqrt 2 * / sqrt 2 = / 2) by (rewrite <- Rinv_mult, sqrt_sqrt by lra; reflexivity).
  unfold Rdiv. set (r := 1 * / sqrt 2) in *. assert (HR : r * r = / 2) by (unfold r; rewrite Rmult_1_l; exact S). intros H. nra.
Qed.
End Witness.
Print Assumptions C107_correlations_refuted.
Print Assumptions C106_initial_covariance_refuted.

(** The hypotheses of C107 are met by the histories above. *)
Example C107_case : Forall (complete R) (blurred_history 4 1 (1 / 2)) /\
  map (uncorrelated R) (blurred_history 4 1 (1 / 2)) = blurred_history 4 1 0.
Proof. split; [repeat constructor|reflexivity]. Qed.
