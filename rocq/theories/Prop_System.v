(** Property C135: the EKF localizer and the lidar localizer as they are launched, each
    listening to the other. *)
From Coq Require Import Reals Lra Lia PeanoNat List Bool ZArith String.
From Verif Require Import Base Arith SpecReal AngleProofs EkfModel SpecEkf EkfProofs KalmanModel SpecKalman SpecFusion SpecCycle StackProofs
  IntervalProofs Prop_Interval QueueProofs EkfNodeProofs Prop_EkfNode Prop_Kalman Prop_EkfMore FusionProofs FusionNodeProofs Prop_Fusion BiasNodeProofs Prop_Bias Prop_Initial.
From Verif Require Import PoseModel SpecPose RotProofs Prop_Rotation PublishModel SpecPublish Prop_Publish SystemModel SpecSystem SystemProofs.
From Verif Require LibModel MsgModel SpecMsg Prop_Msg LocModel LocNodeModel OptModel ProblemModel SpecOpt SpecLib Prop_Optimizer WitnessProofs Prop_Fit LeastSquares LibProofs Prop_LocOrigin.
Import ListNotations.
Local Open Scope R_scope.
Unset Asymmetric Patterns.

(** ** Scans that tell nothing *)
(** A scan without features (after downsampling) leaves the lidar localizer where it is. *)
Theorem C135_no_features principal qr find downsample eig llt sel edge_map surface_map max_iter scan T :
  (1 <= max_iter)%Z -> is_rotation (lin T) -> fst scan = [] -> downsample (snd scan) = [] ->
  tells_nothing _ (LocNodeModel.localize principal qr find downsample eig llt sel edge_map surface_map max_iter) T scan.
Proof.
  intros HM HR E1 E2. unfold tells_nothing, LocNodeModel.localize, ProblemModel.localizer_result, OptModel.optimize, LocModel.opt_run.
  pose proof (WitnessProofs.make_of_pose T HR) as MP. destruct (of_pose T) as [q t]. cbn [fst snd] in MP.
  replace (Z.to_nat max_iter) with (S (Z.to_nat (max_iter - 1))) by lia. replace (max_iter <? 0)%Z with false by lia.
  cbn [LocModel.opt_loop]. rewrite MP. unfold ProblemModel.loam_problem. rewrite E1, E2. reflexivity.
Qed.
Print Assumptions C135_no_features.
(** So does a scan for which the eigenvalue solver reports an eigenvalue below 0.1: a
    direction in which the features say nothing. *)
Theorem C135_degenerate principal qr find downsample eig llt sel edge_map surface_map max_iter scan T J res :
  SpecLib.valid_nth exact sel -> (1 <= max_iter)%Z -> is_rotation (lin T) ->
  ProblemModel.loam_problem principal qr find downsample edge_map surface_map ProblemModel.n_neighbors scan T = Ok (J, res) ->
  res <> [] -> SpecOpt.well_shaped J res -> (exists e, In e (eig 7%nat (SpecOpt.normal_matrix J)) /\ Rabs e < / 10) ->
  tells_nothing _ (LocNodeModel.localize principal qr find downsample eig llt sel edge_map surface_map max_iter) T scan.
Proof.
  intros HN HM HR HP NE HW HD. unfold tells_nothing, LocNodeModel.localize, ProblemModel.localizer_result.
  destruct (Prop_Optimizer.C41_degenerate_succeeds_refuted eig llt sel _ max_iter T J res HN HR HM HP NE HW HD) as (r & -> & _ & _ & <-). reflexivity.
Qed.
Print Assumptions C135_degenerate.
(** A single wall, here the plane y + z = 1, says nothing about the way along it. *)
Example C135_degenerate_case principal llt :
  tells_nothing _ (LocNodeModel.localize principal LeastSquares.cramer (@Prop_Optimizer.first_neighbors vec) (fun l => l) Prop_Optimizer.diag_eig llt LibProofs.sel_sort [] Prop_Fit.wall 10)
    Prop_LocOrigin.home ([], [V3 7 8 9]).
Proof.
  assert (EW : ProblemModel.estimate_plane LeastSquares.cramer Prop_Fit.wall_neighbors = V3 0 (-1) (-1)) by apply Prop_LocOrigin.ex_C111.
  eapply C135_degenerate; [apply LibProofs.sel_sort_valid|lia|apply Prop_LocOrigin.home_rotation| | | |].
  - unfold ProblemModel.loam_problem. cbn [fst snd mapM bind]. unfold ProblemModel.surface_term, ProblemModel.plane_fit. change ProblemModel.n_neighbors with 15%nat.
    rewrite Prop_Fit.wall_found. cbn [bind]. rewrite EW. reflexivity.
  - discriminate.
  - repeat constructor.
  - exists 0. split; [|rewrite Rabs_R0; lra]. apply in_map_iff. exists 4%nat. split; [|apply in_seq; lia].
    unfold SpecOpt.normal_matrix. cbn -[vnorm]. ring.
Qed.

Section Properties.
Variable inverse : nat -> (nat -> nat -> R) -> option (nat -> nat -> R).
Hypothesis Hinv : inverts inverse.
Variable junk : nat -> nat -> R.
Variable get_yaw get_roll get_pitch : quat -> R.
Hypothesis Hread : reads_angles get_yaw get_roll get_pitch.
Variable sign : quat -> quat.
Hypothesis Hsign : SpecMsg.up_to_sign sign.
Variable prm : params exact.
Hypothesis Hprm : sound_params prm.
Variable Scan : Type.
Variable localize : Scan -> pose -> outcome pose.
Notation K := (ekf_kalman exact inverse junk).
Notation step := (node_step exact roundf_exact sin cos atan2 Ropp quat get_yaw get_roll get_pitch K prm).
Notation tick := (timer_callback exact roundf_exact sin cos atan2 Ropp quat get_yaw K prm).
Notation sys_step := (system_step inverse junk roundf_exact get_yaw get_roll get_pitch sign prm Scan localize).
Notation sys_run := (system_run inverse junk roundf_exact get_yaw get_roll get_pitch sign prm Scan localize).
Notation node := (node exact quat K).
Notation inv := (inv inverse junk quat prm).

(** The pose that an initial pose message sets: the offset of the transform is added. *)
Definition start_yaw (m : pose_msg exact quat) (tr : transform_msg exact quat) : R := get_yaw (p_orient _ _ m) + get_yaw (tr_rot _ _ tr).
Definition start_pose (m : pose_msg exact quat) (tr : transform_msg exact quat) : pose :=
  make_pose_from_xyzrpy (p_x _ _ m + tr_x _ _ tr) (p_y _ _ m + tr_y _ _ tr) (p_z _ _ m) (get_roll (p_orient _ _ m)) (get_pitch (p_orient _ _ m)) (start_yaw m tr).
(** An initial pose with a regular covariance, whose heading is written as an angle in
    (-PI, PI], and which does not point straight up or down. *)
Definition sound_start (m : pose_msg exact quat) (tr : transform_msg exact quat) : Prop :=
  sound_pose quat m /\ - PI < start_yaw m tr <= PI /\ Rabs (sin (get_pitch (p_orient _ _ m))) < 99999 / 100000.

Lemma first_state m tr (n : node) : sound_start m tr -> step (node_new exact quat K) (EvInitialPose exact quat m (Some tr)) = Ok n ->
  parked_ekf inverse junk get_yaw get_roll get_pitch prm (p_x _ _ m + tr_x _ _ tr) (p_y _ _ m + tr_y _ _ tr) (p_z _ _ m) (get_roll (p_orient _ _ m)) (get_pitch (p_orient _ _ m)) (start_yaw m tr) n /\
  n_out _ _ _ n = [] /\ n_last _ _ _ n = None /\ n_pose _ _ _ n = q_empty /\ n_twist _ _ _ n = q_empty /\
  exists f, n_ekf _ _ _ n = Some f /\ uncertain (snd (est f)).
Proof.
  intros ([L36 [_ V]] & HY & _) E. cbn [node_step] in E. assert (E' := E). apply initial_clears in E'. destruct E' as (_ & Q1 & Q2 & Q3 & Q4).
  unfold parked_ekf. rewrite Q1, Q2, Q3, Q4. unfold callback_initial_pose in E.
  destruct (erase_begin_slash (pose_frame_id _ prm)) in E; try discriminate. cbn [bind] in E.
  destruct (erase_begin_slash (p_frame _ _ m)) in E; try discriminate. cbn [bind] in E. cbv zeta in E.
  destruct (init_covariance _ _) as [P| | | | |] eqn:EC; try discriminate. cbn [bind] in E.
  destruct (kf_new _ _ _ _ _) as [f| | | | |] eqn:EF; try discriminate. cbn [bind] in E.
  unfold update_simple_filters in E. destruct (vat _ 14) in E; try discriminate. destruct (vat _ 21) in E; try discriminate. destruct (vat _ 28) in E; try discriminate.
  destruct (time_of _) in E; try discriminate. cbn [bind] in E. injection E as <-. cbn [n_ekf n_z n_roll n_pitch].
  cbn in EF. unfold td_new in EF. destruct (0 <? extend_state_step _ prm)%Z eqn:E0; [|discriminate]. injection EF as <-. apply Z.ltb_lt in E0.
  assert (ST : still (blocks prm) (p_x _ _ m + tr_x _ _ tr) (p_y _ _ m + tr_y _ _ tr) (start_yaw m tr) (est (Td exact (init_x exact junk 6 (to_vector exact (init_state exact (d_add exact (p_x exact quat m) (tr_x exact quat tr)) (d_add exact (p_y exact quat m) (tr_y exact quat tr)) (d_add exact (get_yaw (p_orient exact quat m)) (get_yaw (tr_rot exact quat tr))))) (Z.to_nat (extend_state_step exact prm))) (init_p exact 6 P (Z.to_nat (extend_state_step exact prm))) (extend_state_step exact prm) 6))).
  { intros i Hi. unfold est. cbn [fst td_x]. rewrite init_x_entry by exact Hi. unfold to_vector, init_state, rest, start_yaw. cbn [st_x st_y st_yaw st_bias st_vx st_wz].
    assert (M := Nat.mod_upper_bound i 6 ltac:(lia)). destruct (i mod 6)%nat as [|[|[|[|[|[|k]]]]]]; try lia; reflexivity. }
  split; [split; [eexists; split; [reflexivity|exact ST]|]|].
  { split; [constructor|]. split; [constructor|]. split; [|constructor]. auto. }
  split; [reflexivity|]. split; [reflexivity|]. split; [reflexivity|]. split; [reflexivity|]. eexists. split; [reflexivity|].
  unfold init_covariance in EC.
  destruct (vat (p_cov _ _ m) 0) as [c0| | | | |] eqn:V0; try discriminate. destruct (vat (p_cov _ _ m) 7) as [c1| | | | |] eqn:V1; try discriminate.
  destruct (vat (p_cov _ _ m) 35) as [c2| | | | |] eqn:V2; try discriminate. cbn [bind] in EC. injection EC as <-.
  apply vat_nth in V0, V1, V2. change (Z.to_nat 0) with 0%nat in V0. change (Z.to_nat 7) with 7%nat in V1. change (Z.to_nat 35) with 35%nat in V2.
  assert (DD : forall k, (k < 3)%nat -> 0 < variance_along 3 (noise_of (pose_as quat m 0) 1) (fun i => if Nat.eqb i k then 1 else 0)).
  { intros k Hk. apply V. exists k. split; [exact Hk|]. rewrite Nat.eqb_refl. lra. }
  assert (D0 := DD 0%nat ltac:(lia)). assert (D1 := DD 1%nat ltac:(lia)). assert (D2 := DD 2%nat ltac:(lia)).
  unfold variance_along, noise_of, pose_as in D0, D1, D2. cbn [total Nat.eqb slots array nth Nat.mul Nat.add] in D0, D1, D2.
  rewrite <- V0 in D0. rewrite <- V1 in D1. rewrite <- V2 in D2. change (D exact) with R in *.
  assert (H0 : 0 < c0) by (clear - D0; nra). assert (H1 : 0 < c1) by (clear - D1; nra). assert (H2 : 0 < c2) by (clear - D2; nra).
  intros v (i & Hi & Vi). unfold est. cbn [snd td_P].
  replace (variance_along 6 _ v) with (c0 * (v 0%nat * v 0%nat) + c1 * (v 1%nat * v 1%nat) + c2 * (v 2%nat * v 2%nat) + 1 / 10000 * (v 3%nat * v 3%nat) + 1 / 100 * (v 4%nat * v 4%nat) + 1 / 100 * (v 5%nat * v 5%nat)).
  - assert (N : forall c k, 0 < c -> 0 <= c * (v k * v k)) by (intros; apply Rmult_le_pos; [lra|apply Rle_0_sqr]).
    assert (P0 : forall c, 0 < c -> 0 < c * (v i * v i)) by (intros; apply Rmult_lt_0_compat; [lra|apply Rsqr_pos_lt; exact Vi]).
    pose proof (N c0 0%nat H0). pose proof (N c1 1%nat H1). pose proof (N c2 2%nat H2). pose proof (N (1 / 10000) 3%nat ltac:(lra)). pose proof (N (1 / 100) 4%nat ltac:(lra)). pose proof (N (1 / 100) 5%nat ltac:(lra)).
    pose proof (P0 c0 H0). pose proof (P0 c1 H1). pose proof (P0 c2 H2). destruct i as [|[|[|i]]]; try lia; lra.
  - assert (EN : forall i j, (i < 6)%nat -> (j < 6)%nat -> init_p exact 6 (diagonal exact [c0; c1; c2; lit_0001 exact; lit_01 exact; lit_01 exact]) (Z.to_nat (extend_state_step exact prm)) i j
      = diagonal exact [c0; c1; c2; lit_0001 exact; lit_01 exact; lit_01 exact] i j).
    { intros i' j' Ha Hb. rewrite init_p_entry by lia. rewrite (Nat.div_small i'), (Nat.div_small j'), (Nat.mod_small i'), (Nat.mod_small j') by assumption. reflexivity. }
    rewrite (variance_ext 6 _ (diagonal exact [c0; c1; c2; lit_0001 exact; lit_01 exact; lit_01 exact]) v v); [|intros i' j' Ha Hb; apply EN; assumption|intros i' Ha; reflexivity].
    unfold variance_along, diagonal, lit_0001, lit_01. cbn -[Rdiv]. ring.
Qed.

(** ** What holds: the loop keeps the pose *)
(** A vehicle that is parked, from the initial pose on: whatever the order of ticks, scans
    that tell nothing, twists without motion and messages between the two nodes, and whichever
    messages are lost, every published message of the EKF localizer tells the initial pose and
    no speed, and every pose of the lidar localizer is the initial pose. *)
Theorem C135_parked_partial : forall m tr es s,
  sound_start m tr -> Forall (parked_event Scan localize (start_pose m tr)) es -> NoDup (clock Scan es) ->
  sys_run (SysInitial Scan m (Some tr) :: es) = Ok s ->
  Forall (reports_all (p_x _ _ m + tr_x _ _ tr) (p_y _ _ m + tr_y _ _ tr) (p_z _ _ m) (get_roll (p_orient _ _ m)) (get_pitch (p_orient _ _ m)) (start_yaw m tr))
    (n_out _ _ _ (s_ekf _ _ s)) /\
  Forall (fun o => LocModel.pub_pose o = start_pose m tr) (LocModel.outs (s_lidar _ _ s)).
Proof.
  intros m tr es s SS FE ND E. unfold system_run in E. cbn [foldM system_step] in E. unfold ekf_does in E. cbn [s_ekf system_new s_lidar] in E.
  destruct (step (node_new exact quat K) _) as [n| | | | |] eqn:EN; try discriminate. cbn [bind] in E.
  destruct (first_state m tr n SS EN) as (PE & _). destruct SS as (S1 & S2 & S3).
  assert (RA : - PI < get_roll (p_orient _ _ m) <= PI /\ - PI / 2 <= get_pitch (p_orient _ _ m) <= PI / 2) by apply Hread. destruct RA as [RA RB].
  assert (I : inv [EvInitialPose exact quat m (Some tr)] n).
  { eapply inv_run; [exact Hinv|exact Hprm| |unfold node_run; cbn [foldM]; rewrite EN; reflexivity]. split; [constructor; [exact S1|constructor]|constructor]. }
  match type of E with foldM _ ?a _ = _ => set (s0 := a) in E end.
  assert (P := parked_run inverse Hinv junk get_yaw get_roll get_pitch Hread sign Hsign prm Hprm Scan localize _ _ _ _ _ _ S2 RA (conj RB S3) es _ s0 s I
    (conj PE (conj (Forall_nil _) (Forall_nil _))) FE ND E).
  destruct P as [(_ & _ & _ & _ & PO) [_ PL]]. split; [|exact PL].
  eapply Forall_impl; [|exact PO]. intros o TO. destruct o as [a b c|a b c d vx wz tc]; cbn [tells reports_all] in *.
  - exists (start_yaw m tr). split; [exact TO|apply heading_refl].
  - destruct TO as (TO & V & W). split; [|auto]. exists (start_yaw m tr). split; [exact TO|apply heading_refl].
Qed.

(** ** What is refuted: without information, the filter becomes more certain *)
Lemma initial_defined m tr : sound_pose quat m -> pose_frame_id _ prm <> ""%string -> p_frame _ _ m <> ""%string -> (0 <= p_stamp _ _ m)%Z ->
  exists n, step (node_new exact quat K) (EvInitialPose exact quat m (Some tr)) = Ok n.
Proof.
  intros [L36 _] F1 F2 S0. cbn [node_step]. unfold callback_initial_pose.
  assert (ES : forall w, w <> ""%string -> exists w', erase_begin_slash w = Ok w').
  { intros [|c w] H; [congruence|]. unfold erase_begin_slash. destruct (Ascii.eqb c _); eauto. }
  destruct (ES _ F1) as [w1 ->]. destruct (ES _ F2) as [w2 ->]. cbn [bind]. cbv zeta.
  assert (VA : forall k, (0 <= k < 36)%Z -> exists v, vat (p_cov _ _ m) k = Ok v).
  { intros k Hk. unfold vat. replace (k <? 0)%Z with false by lia. destruct (nth_error (p_cov _ _ m) (Z.to_nat k)) eqn:EN; [eauto|]. apply nth_error_None in EN. lia. }
  destruct (VA 0%Z ltac:(lia)) as [c0 V0]. destruct (VA 7%Z ltac:(lia)) as [c1 V1]. destruct (VA 35%Z ltac:(lia)) as [c2 V2].
  destruct (VA 14%Z ltac:(lia)) as [c3 V3']. destruct (VA 21%Z ltac:(lia)) as [c4 V4]. destruct (VA 28%Z ltac:(lia)) as [c5 V5].
  unfold init_covariance. rewrite V0, V1, V2. cbn [bind]. cbn [kf_new ekf_kalman]. unfold td_new.
  destruct Hprm as [HE _]. replace (0 <? extend_state_step _ prm)%Z with true by lia. cbn [bind].
  unfold update_simple_filters, time_of. rewrite V3', V4, V5. replace (p_stamp _ _ m <? 0)%Z with false by lia. cbn [bind]. eauto.
Qed.
(** A tick with at most one pose waiting is defined, unless the delay overflows. *)
Lemma tick_defined (n : node) (f : tdkf exact) t1 t2 t3 t4 t5 m a dt : n_ekf _ _ _ n = Some f -> sane (blocks prm) f ->
  n_pose _ _ _ n = Queue [m] [a] -> n_twist _ _ _ n = q_empty -> (forall l, n_last _ _ _ n = Some l -> l < in_seconds t1) ->
  interval_is prm (n_last _ _ _ n) t1 dt -> sound_pose quat m -> (0 <= p_stamp _ _ m)%Z -> in_seconds (t2 - p_stamp _ _ m) / dt <= IZR (2 ^ 31 - 1) ->
  exists n', tick n t1 t2 t3 t4 t5 = Ok n'.
Proof.
  intros EF SF EQ ET HL HI SM S0 FIT. unfold timer_callback. rewrite EF. destruct (interval_tick prm _ _ HL) as (dt' & -> & I1 & I2).
  assert (dt' = dt). { unfold interval_is in *. destruct (n_last _ _ _ n); congruence. } subst dt'.
  cbn [kf_predict ekf_kalman bind kf_latest_x].
  change (td_predict exact junk f (to_vector exact (predict_next_state exact sin cos atan2 (of_vector exact (td_latest_x exact f)) dt))
    (create_state_transition_matrix exact sin cos Ropp (of_vector exact (td_latest_x exact f)) dt) (process_noise exact prm dt)) with (prediction junk f dt (noise prm)).
  destruct (prediction_predicts junk (blocks prm) f dt (noise prm) SF) as [_ (B0 & S1 & S2 & S3)]. set (f1 := prediction junk f dt (noise prm)) in *.
  destruct Hprm as (HE & HS1 & HS2). unfold pose_update, twist_update. rewrite EQ, ET. cbn [msgs List.length].
  destruct (C89_pose inverse Hinv junk quat get_yaw (pose_params exact prm) t2 dt f1 I2 HS1 S2) with (m := m) as (f2 & w & E2 & _); auto.
  { cbn [m_extend pose_params]. rewrite S1. unfold blocks. lia. }
  cbn [update_loop]. change (q_size (Queue [m] [a])) with 1%Z. cbn [Z.ltb Z.compare]. unfold q_pop. cbn [msgs ages app]. cbn [bind]. rewrite E2. cbn [bind].
  change (0 + 1)%Z with 1%Z. destruct (a + 1 <? _)%Z; cbn [update_loop]; unfold q_size; cbn; eauto.
Qed.

(** One scan that tells nothing, between two ticks.  The pose published by the first tick is
    the prior of the scan, the lidar localizer sends it back as a measurement, and the filter
    takes it for one: after the second tick the published variance of x is smaller than in the
    same run without the scan, and the published pose is the same. *)
Theorem C135_no_information_refuted : forall m tr scan stamp a1 a2 a3 a4 a5 b1 b2 b3 b4 b5,
  sound_start m tr -> pose_frame_id _ prm <> ""%string -> p_frame _ _ m <> ""%string -> (0 <= p_stamp _ _ m)%Z ->
  tells_nothing Scan localize (start_pose m tr) scan ->
  (0 <= stamp)%Z -> (a5 <= stamp + 1000000000)%Z -> (a1 < b1)%Z ->
  in_seconds (b2 - stamp) < Rmin (in_seconds b1 - in_seconds a1) 10 / 2 ->
  let first := [SysInitial Scan m (Some tr); SysTick Scan a1 a2 a3 a4 a5] in
  let second := SysTick Scan b1 b2 b3 b4 b5 in
  exists without_scan with_scan p v w,
    sys_run (first ++ [second]) = Ok without_scan /\
    sys_run (first ++ [SysOdometry Scan 1; SysScan Scan stamp scan; SysPose Scan 0; second]) = Ok with_scan /\
    ends_with (n_out _ _ _ (s_ekf _ _ without_scan)) p v /\ ends_with (n_out _ _ _ (s_ekf _ _ with_scan)) p w /\ w < v.
Proof.
  cbv zeta. intros m tr scan stamp a1 a2 a3 a4 a5 b1 b2 b3 b4 b5 SS FR1 FR2 P0 TN T0 T5 AB DL.
  assert (SS' := SS). destruct SS' as (SM & S2 & S3).
  destruct (initial_defined m tr SM FR1 FR2 P0) as [n0 E0].
  destruct (first_state m tr n0 SS E0) as (PE & O0 & L0 & Q1 & Q2 & f0 & F0 & U0).
  assert (RA : - PI < get_roll (p_orient _ _ m) <= PI /\ - PI / 2 <= get_pitch (p_orient _ _ m) <= PI / 2) by apply Hread. destruct RA as [RA RB].
  unfold start_pose in TN.
  set (x := p_x _ _ m + tr_x _ _ tr) in *. set (y := p_y _ _ m + tr_y _ _ tr) in *. set (z := p_z _ _ m) in *.
  set (roll := get_roll (p_orient _ _ m)) in *. set (pitch := get_pitch (p_orient _ _ m)) in *. set (yaw := start_yaw m tr) in *.
  assert (I0 : inv [EvInitialPose exact quat m (Some tr)] n0).
  { eapply inv_run; [exact Hinv|exact Hprm| |unfold node_run; cbn [foldM]; rewrite E0; reflexivity]. split; [constructor; [exact SM|constructor]|constructor]. }
  assert (BP := blocks_pos prm Hprm Scan localize x y z roll pitch yaw).
  assert (OK0 : sane (blocks prm) f0) by (apply I0; exact F0).
  (* the first tick *)
  destruct (idle_tick inverse Hinv junk quat get_yaw prm Hprm n0 a1 a2 a3 a4 a5 f0 F0 OK0) as (n1 & f1 & dta & EA & F1 & OK1 & W1 & W2 & M1 & M2 & L1 & _ & DTA & PA & pca & tca & OUTA);
    try (rewrite ?Q1, ?Q2; first [reflexivity|split; [reflexivity|constructor]|constructor]).
  { intros l Hl. rewrite L0 in Hl. discriminate. }
  assert (HLA : forall l, n_last _ _ _ n0 = Some l -> l < in_seconds a1) by (intros l Hl; rewrite L0 in Hl; discriminate).
  assert (PE1 : parked_ekf inverse junk get_yaw get_roll get_pitch prm x y z roll pitch yaw n1).
  { eapply parked_tick; [exact Hinv|exact Hprm|exact localize|exact S2|exact I0|exact PE|intros []|exact EA]. }
  destruct PE as ((f0' & F0' & ST0) & _ & _ & (Z1 & Z2 & Z3) & _). rewrite F0 in F0'. injection F0' as <-.
  assert (U1 : uncertain (snd (est f1))).
  { eapply rest_predicts; [exact BP| |exact U0|exact PA]. rewrite (still_low _ _ _ _ _ 4%nat BP ST0) by lia. reflexivity. }
  assert (PE1' := PE1). destruct PE1' as ((f1' & F1' & ST1) & _ & _ & (Z1' & Z2' & Z3') & TO1). rewrite F1 in F1'. injection F1' as <-.
  cbv zeta in OUTA. rewrite O0 in OUTA. cbn [app] in OUTA.
  assert (Q1' : n_pose _ _ _ n1 = q_empty).
  { destruct (n_pose _ _ _ n1) as [l g]. unfold wf in W1. cbn in *. subst l. destruct g; [reflexivity|discriminate]. }
  assert (Q2' : n_twist _ _ _ n1 = q_empty).
  { destruct (n_twist _ _ _ n1) as [l g]. unfold wf in W2. cbn in *. subst l. destruct g; [reflexivity|discriminate]. }
  assert (LAB : in_seconds a1 < in_seconds b1). { unfold in_seconds. apply IZR_lt in AB. lra. }
  assert (HLB : forall l, n_last _ _ _ n1 = Some l -> l < in_seconds b1). { intros l Hl. rewrite L1 in Hl. injection Hl as <-. exact LAB. }
  (* the second tick without a scan *)
  destruct (idle_tick inverse Hinv junk quat get_yaw prm Hprm n1 b1 b2 b3 b4 b5 f1 F1 OK1 W1 W2 M1 M2 HLB) as (n2 & _ & _ & EB & _).
  destruct (tick_does inverse Hinv junk quat get_yaw prm Hprm n1 b1 b2 b3 b4 b5 n2 f1 F1 OK1 W1 W2 ltac:(rewrite M1; constructor) ltac:(rewrite M2; constructor) HLB EB)
    as (f2 & pub2 & F2 & OK2 & _ & _ & _ & _ & _ & _ & O2 & EFF2).
  assert (EFF2' := EFF2). rewrite M1, M2, Z1', Z2', Z3' in EFF2'.
  destruct (parked_effect junk get_yaw get_roll get_pitch prm Hprm Scan localize x y z roll pitch yaw S2 _ _ _ _ _ _ b1 b2 b3 b4 b5 ST1 ltac:(constructor) ltac:(constructor) EFF2') as [ST2 TO2].
  rewrite M1, M2 in EFF2. destruct EFF2 as (dt & s1 & s2 & kp & kt & I1 & DT & PP & _ & TP & _ & TT & EO). rewrite firstn_nil in TP, TT. inversion TP; subst s2. inversion TT; subst s1. clear TP TT.
  (* the scan *)
  set (o := LocModel.Build_published pose stamp (make_pose_from_xyzrpy x y z roll pitch yaw) stamp (make_pose_from_xyzrpy x y z roll pitch yaw)).
  set (msg := lidar_message sign o).
  assert (EM : echo get_yaw get_roll get_pitch x y z roll pitch yaw msg) by (apply lidar_echo; [exact Hread|exact Hsign|exact S2|exact RA|split; assumption|reflexivity]).
  assert (SMSG : sound_pose quat msg) by (unfold msg; eapply lidar_sound; eassumption).
  destruct (callback_pose exact quat get_roll get_pitch K n1 msg) as [n3| | | | |] eqn:EP.
  2-6: exfalso; unfold callback_pose, update_simple_filters, time_of in EP; change (p_stamp exact quat msg) with stamp in EP; replace (stamp <? 0)%Z with false in EP by lia; discriminate EP.
  destruct (pose_frame exact quat get_roll get_pitch K n1 msg n3 EP) as (A3 & D3 & G3 & B3 & C3).
  assert (PE3 : parked_ekf inverse junk get_yaw get_roll get_pitch prm x y z roll pitch yaw n3) by (eapply parked_pose; eassumption).
  destruct PE3 as (_ & _ & _ & (Z1'' & Z2'' & Z3'') & _).
  rewrite Q1' in B3. rewrite Q2' in C3.
  assert (HL3 : forall l, n_last _ _ _ n3 = Some l -> l < in_seconds b1) by (rewrite D3; exact HLB).
  assert (FIT : in_seconds (b2 - stamp) / dt < / 2).
  { assert (ED : dt = Rmin (in_seconds b1 - in_seconds a1) 10) by (rewrite L1 in I1; exact I1). rewrite <- ED in DL.
    apply Rmult_lt_reg_r with dt; [exact DT|]. unfold Rdiv at 1. rewrite Rmult_assoc, Rinv_l by lra. lra. }
  destruct (tick_defined n3 f1 b1 b2 b3 b4 b5 msg 0%Z dt) as [n4 E4]; auto.
  { rewrite A3. exact F1. }
  { rewrite D3. exact I1. }
  { change (p_stamp exact quat msg) with stamp. eapply Rle_trans; [apply Rlt_le; exact FIT|]. change (2 ^ 31 - 1)%Z with 2147483647%Z. lra. }
  assert (W3 : wf (n_pose _ _ _ n3)) by (rewrite B3; reflexivity). assert (W3' : wf (n_twist _ _ _ n3)) by (rewrite C3; reflexivity).
  assert (M3 : msgs (n_pose _ _ _ n3) = [msg]) by (rewrite B3; reflexivity). assert (M3' : msgs (n_twist _ _ _ n3) = []) by (rewrite C3; reflexivity).
  destruct (tick_does inverse Hinv junk quat get_yaw prm Hprm n3 b1 b2 b3 b4 b5 n4 f1 ltac:(rewrite A3; exact F1) OK1 W3 W3' ltac:(rewrite M3; constructor; [exact SMSG|constructor]) ltac:(rewrite M3'; constructor) HL3 E4)
    as (f4 & pub4 & F4 & OK4 & _ & _ & _ & _ & _ & _ & O4 & EFF4).
  assert (EFF4' := EFF4). rewrite M3, M3', Z1'', Z2'', Z3'' in EFF4'.
  destruct (parked_effect junk get_yaw get_roll get_pitch prm Hprm Scan localize x y z roll pitch yaw S2 _ _ _ _ _ _ b1 b2 b3 b4 b5 ST1 ltac:(constructor; [exact EM|constructor]) ltac:(constructor) EFF4') as [ST4 TO4].
  rewrite M3, M3', D3 in EFF4. destruct EFF4 as (dt' & s1 & s2 & kq & ku & I1' & DT' & PP' & KP & TP & _ & TT & EO4). rewrite firstn_nil in TT. inversion TT; subst s2. clear TT.
  assert (dt' = dt). { rewrite L1 in I1, I1'. cbn in I1, I1'. congruence. } subst dt'.
  assert (kq = 1%nat) by (cbn in KP; lia). subst kq. cbn [firstn] in TP. inversion TP as [|? ? ? sb ? TR TN']; subst. inversion TN'; subst. clear TP TN'. destruct TR as (w & [WR WY] & TR).
  assert (w = yaw). { destruct EM as (_ & _ & _ & E4' & _). rewrite E4' in WY. symmetry. apply heading_unique; auto. } subst w.
  assert (ST1' : still (blocks prm) x y yaw s1) by (eapply still_predicts; [exact BP|exact S2|exact ST1|exact PP']).
  assert (SHR : snd (est f4) 0%nat 0%nat < snd s1 0%nat 0%nat).
  { apply (echo_shrinks (blocks prm) (pose_smoothing_steps _ prm) (pose_gate_dist _ prm) b2 dt (pose_as quat msg yaw) s1 (est f4)); [exact BP|apply Hprm|reflexivity| | | |exact DT| | |exact TR].
    - eapply predicts_psd; [exact BP| |exact PP']. apply OK1.
    - eapply rest_predicts; [exact BP| |exact U1|exact PP']. rewrite (still_low _ _ _ _ _ 4%nat BP ST1) by lia. reflexivity.
    - apply SMSG.
    - exact FIT.
    - intros k Hk. rewrite (still_low _ _ _ _ _ k BP ST1') by lia. destruct EM as (M1x & M1y & _). unfold values, pose_as, rest. cbn [vals].
      destruct k as [|[|[|k]]]; try lia; cbn [nth]; auto. }
  assert (SAME := predicts_same _ _ _ _ _ _ BP PP PP' 0%nat 0%nat ltac:(lia) ltac:(lia)).
  set (p := [x; y; z; roll; pitch; yaw]).
  assert (OD : forall (e : estimate), still (blocks prm) x y yaw e -> [fst e 0%nat; fst e 1%nat; z; roll; pitch; fst e 2%nat + fst e 3%nat] = p).
  { intros e STe. rewrite !(still_low _ _ _ _ _ _ BP STe) by lia. unfold rest, p. cbn [nth]. rewrite Rplus_0_r. reflexivity. }
  rewrite Z1, Z2, Z3 in OUTA. apply (fun E => eq_trans E (f_equal (fun q => [OutTransform exact a4 (pose_frame_id _ prm) q; OutOdometry exact a5 (pose_frame_id _ prm) q pca (fst (est f1) 4%nat) (fst (est f1) 5%nat) tca]) (OD _ ST1))) in OUTA.
  exists (System inverse junk n2 (LocModel.Build_node exact pose [] [])), (System inverse junk n4 (LocModel.Build_node exact pose [(IZR a5, make_pose_from_xyzrpy x y z roll pitch yaw)] [o])),
    p, (snd (est f2) 0%nat 0%nat), (snd (est f4) 0%nat 0%nat).
  assert (FST : sys_run [SysInitial Scan m (Some tr); SysTick Scan a1 a2 a3 a4 a5] = Ok (System inverse junk n1 (LocModel.Build_node exact pose [] []))).
  { unfold system_run. cbn [foldM system_step]. unfold ekf_does. cbn [s_ekf s_lidar system_new]. rewrite E0. cbn [bind foldM system_step]. unfold ekf_does. cbn [s_ekf s_lidar node_step].
    rewrite EA. reflexivity. }
  unfold system_run in *. rewrite !foldM_app, FST. cbn [bind].
  split; [cbn [foldM system_step]; unfold ekf_does; cbn [s_ekf s_lidar node_step]; rewrite EB; reflexivity|].
  split.
  { cbn [foldM system_step]. cbn [s_ekf]. rewrite OUTA. cbn [nth_error odometry_prior]. unfold lidar_does. cbn [s_lidar s_ekf LocModel.node_step bind].
    unfold p. rewrite (told_back sign Hsign). unfold LocModel.on_prior, LocModel.on_scan. cbn [LocModel.priors LocModel.outs LocModel.st_insert s_lidar].
    assert (LT : d_ltb exact (d_add exact (LocModel.nanoseconds exact stamp) (d_of_Z exact 1000000000)) (LocModel.nanoseconds exact a5) = false).
    { apply not_true_iff_false. intros H. apply Rltb_spec in H. apply IZR_le in T5. rewrite plus_IZR in T5. change (LocModel.nanoseconds exact a5) with (IZR a5) in H. cbn in H. unfold LocModel.nanoseconds in H. cbn in H. lra. }
    unfold LocModel.st_get_closest, LocModel.st_remove_older_than. cbn [LocModel.st_lower_bound LocModel.st_upper_bound]. rewrite LT.
    destruct (d_ltb exact (LocModel.nanoseconds exact a5) (LocModel.nanoseconds exact stamp)); cbn [LocModel.st_prev rev app fst snd bind]; rewrite TN; cbn [bind LocModel.outs s_lidar app];
      fold o; fold msg; unfold ekf_does; cbn [s_ekf s_lidar node_step]; rewrite EP; cbn [bind s_ekf s_lidar]; rewrite E4; reflexivity. }
  change (D exact) with R in *.
  split; [|split].
  - cbn [s_ekf]. rewrite O2, EO, Z1', Z2', Z3'. cbv zeta. rewrite (OD _ ST2). unfold ends_with. match goal with |- context [_ ++ [?a; _]] => exists (n_out _ _ _ n1 ++ [a]) end. do 6 eexists. split; [rewrite <- app_assoc; reflexivity|]. reflexivity.
  - cbn [s_ekf]. rewrite O4, EO4, Z1'', Z2'', Z3''. cbv zeta. rewrite (OD _ ST4). unfold ends_with. match goal with |- context [_ ++ [?a; _]] => exists (n_out _ _ _ n3 ++ [a]) end. do 6 eexists. split; [rewrite <- app_assoc; reflexivity|]. reflexivity.
  - rewrite SAME. exact SHR.
Qed.
End Properties.
Print Assumptions C135_parked_partial.
Print Assumptions C135_no_information_refuted.

(** The vehicle on its back of C131 heading along the negative x axis, ticks at 1 s and 1.1 s
    and a scan without features at 1.08 s: both theorems apply. *)
Section Case.
Variable inverse : nat -> (nat -> nat -> R) -> option (nat -> nat -> R).
Hypothesis Hinv : inverts inverse.
Variable junk : nat -> nat -> R.
(** The localizer of the repository on any map, with at most 20 iterations. *)
Variable principal : mat3 -> vec.
Variable qr : list vec -> list R -> vec.
Variable find : list vec -> vec -> nat -> list nat.
Variable eig : nat -> (nat -> nat -> R) -> list R.
Variable llt : nat -> (nat -> nat -> R) -> (nat -> R) -> (nat -> R).
Variable sel : LibModel.selector exact.
Variable edge_map surface_map : list vec.
Notation Scan := (list vec * list vec)%type.
Notation localize := (LocNodeModel.localize principal qr find (fun l => l) eig llt sel edge_map surface_map 20).
Lemma case_start : sound_start read_yaw read_pitch first_pose here.
Proof.
  destruct C131_case as (_ & B & C). assert (Y0 : read_yaw qid = 0).
  { unfold read_yaw, to_rotation, qid. cbn [m10 m00 qw qx qy qz]. replace (2 * 0 * 0 + 2 * 1 * 0) with 0 by ring. rewrite atan2_zero. destruct (Rlt_dec _ 0); [exfalso; lra|reflexivity]. }
  split; [apply blurred_pose|]. unfold start_yaw, first_pose, here. cbn [p_orient tr_rot]. rewrite B, C, Y0. pose proof PI_RGT_0. split; [lra|]. apply nose_up.
Qed.
Lemma case_scan : tells_nothing Scan localize (start_pose read_yaw read_roll read_pitch first_pose here) ([], []).
Proof. apply C135_no_features; [lia| |reflexivity|reflexivity]. apply to_rotation_is_rotation. apply C46_rpy. Qed.
Definition case_events : list (system_event Scan) :=
  [SysTick Scan 1000000000 1000000000 1000000000 1000000000 1000000000; SysOdometry Scan 1; SysScan Scan 1080000000 ([], []); SysPose Scan 0;
   SysTick Scan 1100000000 1100000000 1100000000 1100000000 1100000000].
Example C135_case : exists without_scan with_scan p v w,
  system_run inverse junk roundf_exact read_yaw read_roll read_pitch SpecMsg.qopp bias_prm Scan localize
    [SysInitial Scan first_pose (Some here); SysTick Scan 1000000000 1000000000 1000000000 1000000000 1000000000; SysTick Scan 1100000000 1100000000 1100000000 1100000000 1100000000] = Ok without_scan /\
  system_run inverse junk roundf_exact read_yaw read_roll read_pitch SpecMsg.qopp bias_prm Scan localize (SysInitial Scan first_pose (Some here) :: case_events) = Ok with_scan /\
  ends_with (n_out _ _ _ (s_ekf _ _ without_scan)) p v /\ ends_with (n_out _ _ _ (s_ekf _ _ with_scan)) p w /\ w < v /\
  Forall (reports_all 1 2 3 PI (- (PI / 6)) PI) (n_out _ _ _ (s_ekf _ _ with_scan)) /\
  Forall (fun o => LocModel.pub_pose o = make_pose_from_xyzrpy 1 2 3 PI (- (PI / 6)) PI) (LocModel.outs (s_lidar _ _ with_scan)).
Proof.
  destruct (C135_no_information_refuted inverse Hinv junk read_yaw read_roll read_pitch ex_reads_angles SpecMsg.qopp opposite bias_prm bias_params_sound Scan localize first_pose here ([], []) 1080000000
    1000000000 1000000000 1000000000 1000000000 1000000000 1100000000 1100000000 1100000000 1100000000 1100000000 case_start) as (s1 & s2 & p & v & w & E1 & E2 & R1 & R2 & LT);
    [discriminate|discriminate|cbn; lia|exact case_scan|lia|lia|lia|unfold in_seconds; cbn [Z.sub Z.add Z.opp Z.pos_sub]; rewrite Rmin_left; simpl; lra|].
  destruct (C135_parked_partial inverse Hinv junk read_yaw read_roll read_pitch ex_reads_angles SpecMsg.qopp opposite bias_prm bias_params_sound Scan localize first_pose here case_events s2 case_start) as [O L].
  - repeat constructor. exact case_scan.
  - cbn. repeat constructor; cbn; lia.
  - exact E2.
  - exists s1, s2, p, v, w. do 5 (split; [assumption|]). destruct case_start as (_ & YR & _).
    assert (EQ : start_yaw read_yaw first_pose here = PI /\ read_roll (p_orient _ _ first_pose) = PI /\ read_pitch (p_orient _ _ first_pose) = - (PI / 6)).
    { destruct C131_case as (A & B & C). split; [|split; assumption]. unfold start_yaw, first_pose, here. cbn [p_orient tr_rot]. rewrite C.
      unfold read_yaw, to_rotation, qid. cbn [m10 m00 qw qx qy qz]. replace (2 * 0 * 0 + 2 * 1 * 0) with 0 by ring. rewrite atan2_zero. destruct (Rlt_dec _ 0); [exfalso; lra|ring]. }
    destruct EQ as (EY & ER & EP). unfold start_pose in L. rewrite EY, ER, EP in *. cbn [p_x p_y p_z tr_x tr_y first_pose here] in *. rewrite !Rplus_0_r in *. auto.
Qed.
End Case.
Print Assumptions C135_case.
