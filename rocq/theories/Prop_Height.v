(** Properties C97-C100: height, roll and pitch as the EKF localizer publishes them.  The
    vocabulary is in SpecHeight.v; entries 2, 3 and 4 of a published pose are height, roll
    and pitch. *)
From Coq Require Import List ZArith Bool Lia Lra Reals Psatz String.
From Flocq Require Import Core IEEE754.BinarySingleNaN.
From Verif Require Import Base Arith SpecIeee FloatLemmas AngleProofs EkfModel SpecEkf SpecHeight EkfNodeProofs IntervalProofs QueueProofs KalmanModel Prop_Kalman Prop_Interval Prop_EkfNode HeightProofs HeightExactProofs.
Import ListNotations.
Open Scope Z_scope.

(** ** C97: a bad message and what follows it, in doubles *)
Section Doubles.
Variable acosf : b64 -> b64.
Notation A := (ieee acosf).
Variable roundf : b64 -> option Z.
Variable sin cos : b64 -> b64.
Variable atan2 : b64 -> b64 -> b64.
Variable neg : b64 -> b64.
Variable Orient : Type.
Variable get_yaw get_roll get_pitch : Orient -> b64.
Variable K : kalman A.
Variable prm : params A.
Notation step := (node_step A roundf sin cos atan2 neg Orient get_yaw get_roll get_pitch K prm).
Notation run := (node_run A roundf sin cos atan2 neg Orient get_yaw get_roll get_pitch K prm).
Notation given := (given A Orient get_roll get_pitch).
Notation variance := (variance A Orient).
Notation poses_of := (poses_of A Orient).
(** Everything published after the history h1 has no usable entry k. *)
Definition useless_after (k : nat) (h1 : list (event A Orient)) (n : node A Orient K) : Prop :=
  exists n1 later, run h1 = Ok n1 /\ n_out _ _ _ n = n_out _ _ _ n1 ++ later /\ Forall (fun o => is_nan (entry A k o : b64) = true) later.

Lemma run_app h1 h2 n : run (h1 ++ h2) = Ok n -> exists n1, run h1 = Ok n1 /\ foldM step n1 h2 = Ok n.
Proof.
  unfold node_run. generalize (node_new A Orient K). induction h1 as [|e h1 IH]; intros n0; cbn [app foldM]; [eauto|].
  destruct (step n0 e) as [n1| | | | |]; try discriminate. cbn [bind]. apply IH.
Qed.
Lemma poisoned k h2 n n' : (2 <= k <= 4)%nat -> f_init _ (filter_of A Orient K k n) = true /\ is_nan (f_x _ (filter_of A Orient K k n) : b64) = true -> foldM step n h2 = Ok n' ->
  exists later, n_out _ _ _ n' = n_out _ _ _ n ++ later /\ Forall (fun o => is_nan (entry A k o : b64) = true) later.
Proof.
  intros Hk P E.
  destruct (shown A roundf sin cos atan2 neg Orient get_yaw get_roll get_pitch K prm (fun f => f_init _ f = true /\ is_nan (f_x _ f : b64) = true) (fun _ => True) k Hk) with (h := h2) (n := n) (n' := n') as [_ (pub & O & F)]; auto.
  - intros f m _ [I N]. apply nan_stays; assumption.
  - apply Forall_forall. auto.
  - exists pub. split; [exact O|]. eapply Forall_impl; [|exact F]. intros o (f & [_ N] & ->). exact N.
Qed.
Lemma after_pose k h1 m h2 n : (2 <= k <= 4)%nat ->
  (forall n1, run h1 = Ok n1 -> f_init _ (feed A Orient get_roll get_pitch k (filter_of A Orient K k n1) m) = true /\ is_nan (f_x _ (feed A Orient get_roll get_pitch k (filter_of A Orient K k n1) m) : b64) = true) ->
  run (h1 ++ EvPose _ _ m :: h2) = Ok n -> useless_after k h1 n.
Proof.
  intros Hk P E. apply run_app in E. destruct E as (n1 & E1 & E). cbn [foldM] in E. destruct (step n1 (EvPose _ _ m)) as [n2| | | | |] eqn:E2; try discriminate. cbn [bind] in E.
  destruct (event_effect _ _ _ _ _ _ _ _ _ _ _ _ _ _ _ E2) as [EF _]. specialize (EF k Hk). cbn [SpecHeight.poses_of flat_map app fold_left] in EF.
  cbn [node_step] in E2. destruct (pose_frame _ _ _ _ _ _ _ _ E2) as (_ & _ & O & _).
  destruct (poisoned k h2 n2 n Hk) as (later & O2 & F); [rewrite EF; apply P; exact E1|exact E|].
  exists n1, later. rewrite O2, O. auto.
Qed.
(** A single pose whose height (roll, pitch) is not a number: no later message has a usable
    height (roll, pitch), whatever arrives then, a new initial pose included. *)
Theorem C97_value_refuted : forall k h1 m h2 n, (2 <= k <= 4)%nat -> is_nan (given k m) = true ->
  run (h1 ++ EvPose _ _ m :: h2) = Ok n -> useless_after k h1 n.
Proof. intros k h1 m h2 n Hk N. apply after_pose; [exact Hk|]. intros n1 _. apply nan_enters. exact N. Qed.
(** The same after a negative variance, if a pose has arrived before. *)
Theorem C97_variance_refuted : forall k h1 m h2 n, (2 <= k <= 4)%nat -> poses_of h1 <> [] -> (val (variance k m) < 0)%R ->
  run (h1 ++ EvPose _ _ m :: h2) = Ok n -> useless_after k h1 n.
Proof.
  intros k h1 m h2 n Hk P N. apply after_pose; [exact Hk|]. intros n1 E1. apply nan_variance; [|apply negative_sqrt; exact N].
  rewrite (feed_all _ _ _ _ _ _ _ _ _ _ _ _ k h1 Hk _ _ E1). destruct (poses_of h1) as [|m0 l] using rev_ind; [congruence|]. rewrite fold_left_app. cbn [fold_left].
  unfold feed at 1, f1_update. destruct (f_init A _); reflexivity.
Qed.
(** The same after two poses of the same stamp with variance zero: 0/0. *)
Theorem C97_repeated_refuted : forall k h1 m m' h2 n, (2 <= k <= 4)%nat -> p_stamp _ _ m' = p_stamp _ _ m -> val (variance k m) = 0%R -> fin (variance k m) -> val (variance k m') = 0%R -> fin (variance k m') ->
  run (h1 ++ EvPose _ _ m :: EvPose _ _ m' :: h2) = Ok n -> useless_after k h1 n.
Proof.
  intros k h1 m m' h2 n Hk T V F V' F' E. change (EvPose _ _ m :: EvPose _ _ m' :: h2) with ([EvPose _ _ m] ++ EvPose _ _ m' :: h2) in E. rewrite app_assoc in E.
  destruct (after_pose k (h1 ++ [EvPose _ _ m]) m' h2 n Hk) as (n1 & later & E1 & O & FL); [|exact E|].
  - intros n1 E1. apply run_app in E1. destruct E1 as (n0 & E0 & E1). cbn [foldM] in E1. destruct (step n0 (EvPose _ _ m)) as [n1'| | | | |] eqn:E2; try discriminate. injection E1 as ->.
    destruct (event_effect _ _ _ _ _ _ _ _ _ _ _ _ _ _ _ E2) as [EF _]. specialize (EF k Hk). cbn [SpecHeight.poses_of flat_map app fold_left] in EF. rewrite EF.
    unfold feed. rewrite T. apply certain_twice; [|apply zero_sqrt, zero_of_val; assumption|apply zero_sqrt, zero_of_val; assumption].
    rewrite (feed_all _ _ _ _ _ _ _ _ _ _ _ _ k h1 Hk _ _ E0). destruct (fresh_sound acosf) as [(_ & [S1 _] & _) (_ & [S2 _] & _)].
    assert (P0 : fin (f_proc _ (filter_of A Orient K k (node_new _ _ _)))) by (destruct k as [|[|[|[|[|k]]]]]; try lia; [exact S1|exact S2|exact S2]).
    revert P0. generalize (filter_of A Orient K k (node_new A Orient K)). generalize (poses_of h1). intros l. induction l as [|m0 l IH]; intros f P0; [exact P0|]. cbn [fold_left]. apply IH.
    unfold feed, f1_update. destruct (f_init A f); exact P0.
  - apply run_app in E1. destruct E1 as (n0 & E0 & E1). cbn [foldM] in E1. destruct (step n0 (EvPose _ _ m)) as [n1'| | | | |] eqn:E2; try discriminate. injection E1 as ->.
    cbn [node_step] in E2. destruct (pose_frame _ _ _ _ _ _ _ _ E2) as (_ & _ & O2 & _). exists n0, later. rewrite O, O2. auto.
Qed.
(** What holds: if no pose is extreme, every published height, roll and pitch is a number of
    moderate size. *)
Theorem C97_finite_partial : forall h n, Forall (tame acosf Orient get_roll get_pitch) (poses_of h) -> run h = Ok n ->
  Forall (fun o => forall k, (2 <= k <= 4)%nat -> at_most (bpow radix2 1000) (entry A k o)) (n_out _ _ _ n).
Proof.
  intros h n T E. apply Forall_forall. intros o HI k Hk.
  destruct (shown A roundf sin cos atan2 neg Orient get_yaw get_roll get_pitch K prm (sound acosf) (tame acosf Orient get_roll get_pitch) k Hk) with (h := h) (n := node_new A Orient K) (n' := n) as [_ (pub & O & F)]; auto.
  - intros f m [TS TM] S. destruct (TM k Hk) as (G & FV & BV). apply update_sound; auto. split; assumption.
  - destruct (fresh_sound acosf) as [S1 S2]. destruct k as [|[|[|[|[|k]]]]]; try lia; assumption.
  - rewrite O in HI. cbn in HI. rewrite Forall_forall in F. destruct (F o HI) as (f & S & ->). apply S.
Qed.
End Doubles.

(** ** Concrete histories in doubles, with a filter that only predicts *)
Definition acos0 (x : b64) : b64 := x.
Definition reckoning : kalman (ieee acos0) :=
  Kalman (ieee acos0) (state (ieee acos0)) (fun x _ _ => Ok x) (fun f => f) (fun _ _ _ => of_Z64 0) (fun f _ => Ok f) (fun _ x _ _ => Ok x) (fun f _ _ _ _ => Ok f) (fun _ _ _ _ => true).
Definition prm64 : params (ieee acos0) :=
  Params (ieee acos0) (of_Z64 50) 50 "map" 5 (of_Z64 10000) (of_Z64 10000) 2 (of_Z64 1) true (of_Z64 1) (of_Z64 1) (of_Z64 1).
Definition pose64 (stamp : Z) (z var : b64) : pose_msg (ieee acos0) unit := PoseMsg (ieee acos0) unit "map" stamp (of_Z64 1) (of_Z64 2) z tt (repeat var 36).
Definition tf64 : transform_msg (ieee acos0) unit := TransformMsg (ieee acos0) unit (of_Z64 0) (of_Z64 0) (of_Z64 0) tt.
Definition tick64 (s : Z) : event (ieee acos0) unit := EvTimer _ _ (s * 1000000000) (s * 1000000000) (s * 1000000000) (s * 1000000000) (s * 1000000000).
Notation run64 := (node_run (ieee acos0) roundf64 (fun _ => of_Z64 0) (fun _ => of_Z64 1) (fun y _ => y) (fun x => x) unit (fun _ => of_Z64 0) (fun _ => of_Z64 0) (fun _ => of_Z64 0) reckoning prm64).
(** Which of the published heights are not numbers. *)
Definition spoilt (r : outcome (node (ieee acos0) unit reckoning)) : option (list bool) :=
  match r with Ok n => Some (map (fun o => is_nan (entry (ieee acos0) 2 o : b64)) (n_out _ _ _ n)) | _ => None end.
Definition start64 : list (event (ieee acos0) unit) := [EvInitialPose _ _ (pose64 1000000000 (of_Z64 3) (of_Z64 1)) (Some tf64); tick64 1].
Definition good64 (s : Z) : list (event (ieee acos0) unit) := [EvPose _ _ (pose64 (s * 1000000000) (of_Z64 5) (of_Z64 1)); tick64 s].
Definition restart64 (s : Z) : list (event (ieee acos0) unit) := [EvInitialPose _ _ (pose64 (s * 1000000000) (of_Z64 3) (of_Z64 1)) (Some tf64); tick64 s].
Example C97_value_case : is_nan (given (ieee acos0) unit (fun _ => of_Z64 0) (fun _ => of_Z64 0) 2 (pose64 2000000000 B754_nan (of_Z64 1)) : b64) = true /\
  spoilt (run64 (start64 ++ EvPose _ _ (pose64 2000000000 B754_nan (of_Z64 1)) :: tick64 2 :: good64 3 ++ restart64 4 ++ good64 5)) = Some [false; false; true; true; true; true; true; true; true; true].
Proof. split; vm_compute; reflexivity. Qed.
Example C97_variance_case : (val (variance (ieee acos0) unit 2 (pose64 2000000000 (of_Z64 3) (of_Z64 (-1)))) < 0)%R /\ poses_of _ _ start64 <> [] /\
  spoilt (run64 (start64 ++ EvPose _ _ (pose64 2000000000 (of_Z64 3) (of_Z64 (-1))) :: tick64 2 :: good64 3)) = Some [false; false; true; true; true; true].
Proof.
  split; [|split; [discriminate|vm_compute; reflexivity]]. unfold variance, pose64. cbn [p_cov repeat nth Nat.mul Nat.add]. destruct (of_Z64_ok (-1) ltac:(lia)) as [-> _]. lra.
Qed.
Example C97_repeated_case :
  spoilt (run64 (start64 ++ EvPose _ _ (pose64 2000000000 (of_Z64 3) (of_Z64 0)) :: EvPose _ _ (pose64 2000000000 (of_Z64 3) (of_Z64 0)) :: tick64 2 :: good64 3)) = Some [false; false; true; true; true; true] /\
  spoilt (run64 (start64 ++ EvPose _ _ (pose64 2000000000 (of_Z64 3) (of_Z64 0)) :: tick64 2 :: good64 3)) = Some [false; false; false; false; false; false].
Proof. split; vm_compute; reflexivity. Qed.
Example C97_finite_case : Forall (tame acos0 unit (fun _ => of_Z64 0) (fun _ => of_Z64 0)) (poses_of _ _ (start64 ++ good64 2)) /\
  spoilt (run64 (start64 ++ good64 2)) = Some [false; false; false; false].
Proof.
  split; [|vm_compute; reflexivity].
  assert (B : forall z, Z.abs z <= 1000 -> at_most (bpow radix2 1000) (of_Z64 z)).
  { intros z Hz. destruct (of_Z64_ok z ltac:(lia)) as [V F]. split; [exact F|]. rewrite V. apply Rle_trans with (bpow radix2 10); [|apply bpow_le; lia].
    rewrite <- abs_IZR. apply IZR_le. change (Zaux.radix_val radix2 ^ 10)%Z with 1024%Z. cbn. lia. }
  assert (V : fin (of_Z64 1) /\ (bpow radix2 (-200) <= val (of_Z64 1) <= bpow radix2 200)%R).
  { destruct (of_Z64_ok 1 ltac:(lia)) as [V F]. split; [exact F|]. rewrite V. split; [apply (bpow_le radix2 (-200) 0)|apply (bpow_le radix2 0 200)]; lia. }
  assert (T : forall s z, 0 <= s < 2 ^ 62 -> Z.abs z <= 1000 -> tame acos0 unit (fun _ => of_Z64 0) (fun _ => of_Z64 0) (pose64 s (of_Z64 z) (of_Z64 1))).
  { intros s z Hs Hz. split; [exact Hs|]. intros k Hk. destruct k as [|[|[|[|[|k]]]]]; try lia; split; try exact V; apply B; lia. }
  apply Forall_cons; [apply T; lia|]. apply Forall_cons; [apply T; lia|]. apply Forall_nil.
Qed.

(** ** C98-C100, over the real numbers, for every Kalman filter *)
Section Exact.
Variable sin cos : R -> R.
Variable atan2 : R -> R -> R.
Variable neg : R -> R.
Variable Orient : Type.
Variable get_yaw get_roll get_pitch : Orient -> R.
Variable K : kalman exact.
Variable prm : params exact.
Notation step := (node_step exact roundf_exact sin cos atan2 neg Orient get_yaw get_roll get_pitch K prm).
Notation run := (node_run exact roundf_exact sin cos atan2 neg Orient get_yaw get_roll get_pitch K prm).
Notation given := (given exact Orient get_roll get_pitch).
Notation variance := (variance exact Orient).
Notation measured := (measured Orient get_roll get_pitch).
Notation uncertain := (uncertain Orient).
Notation poses_of := (poses_of exact Orient).
Local Open Scope R_scope.

(** C98: what a tick publishes as height (roll, pitch) is the estimate of the textbook
    filter over all poses received so far. *)
Theorem C98_textbook : forall k h n t1 t2 t3 t4 t5 n', (2 <= k <= 4)%nat -> Forall uncertain (poses_of h) ->
  run h = Ok n -> step n (EvTimer _ _ t1 t2 t3 t4 t5) = Ok n' ->
  exists published, n_out _ _ _ n' = n_out _ _ _ n ++ published /\
    Forall (fun o => exists s, tracks (drift k) (map (measured k) (poses_of h)) s /\ entry exact k o = mean s) published.
Proof.
  intros k h n t1 t2 t3 t4 t5 n' Hk F E T. destruct (tick_shows _ _ _ _ _ _ _ _ _ _ _ _ _ _ _ _ _ _ _ T) as [_ (pub & O & FP)].
  pose proof (run_holds roundf_exact sin cos atan2 neg Orient get_yaw get_roll get_pitch K prm k h n Hk F E) as H. destruct (poses_of h) as [|m l] eqn:EP.
  - exists []. rewrite (silent _ _ _ _ _ _ _ _ _ _ _ h n _ _ _ _ _ n' EP E T), app_nil_r. split; [reflexivity|constructor].
  - exists pub. split; [exact O|]. eapply Forall_impl; [|exact FP]. intros o Ho. cbn [map tracks]. eexists. split; [reflexivity|].
    rewrite (Ho k Hk). destruct H as (_ & _ & _ & ->). reflexivity.
Qed.
Lemma tracks_between q lo hi l s : Forall (fun o => lo <= mean o <= hi /\ 0 < snd (fst o)) l -> tracks q l s -> lo <= mean s <= hi.
Proof.
  intros F. destruct l as [|o l]; [contradiction|]. cbn [tracks]. intros ->. inversion F as [|? ? H Fl]; subst. revert o H F. induction l as [|[[z v] t] l IH]; intros o H F; [apply H|].
  inversion Fl as [|? ? [Hm Hv] Fl']; subst. cbn [mean fst snd] in Hm, Hv. cbn [fold_left]. destruct (fuse_between q o z v t (proj2 H) Hv) as (w & W & M & P). cbn [mean fst snd] in *.
  assert (N : lo <= mean (fuse q o (z, v, t)) <= hi /\ 0 < snd (fst (fuse q o (z, v, t)))) by (rewrite M; destruct H as [H _]; split; [nra|exact P]).
  apply IH; [exact Fl'|exact N|constructor; [exact N|exact Fl']].
Qed.
(** C98: it lies between the smallest and the largest height (roll, pitch) received. *)
Theorem C98_between : forall k lo hi h n, (2 <= k <= 4)%nat -> Forall (fun m => uncertain m /\ lo <= given k m <= hi) (poses_of h) -> run h = Ok n ->
  Forall (fun o => lo <= entry exact k o <= hi) (n_out _ _ _ n).
Proof.
  intros k lo hi h. induction h as [|e h IH] using rev_ind; intros n Hk F E; [injection E as <-; constructor|].
  destruct (run_snoc _ _ _ _ _ _ _ _ _ _ _ h e n E) as (n0 & E0 & S).
  assert (F0 : Forall (fun m => uncertain m /\ lo <= given k m <= hi) (poses_of h)).
  { unfold SpecHeight.poses_of in F |- *. rewrite flat_map_app in F. apply Forall_app in F. apply F. }
  specialize (IH n0 Hk F0 E0). destruct e as [t1 t2 t3 t4 t5|m tf|m|m].
  - destruct (C98_textbook k h n0 t1 t2 t3 t4 t5 n Hk) as (pub & O & FP); auto; [eapply Forall_impl; [|exact F0]; tauto|].
    rewrite O. apply Forall_app. split; [exact IH|]. eapply Forall_impl; [|exact FP]. intros o (s & T & ->). eapply tracks_between; [|exact T].
    apply Forall_map. eapply Forall_impl; [|exact F0]. intros m [U B]. split; [exact B|exact (U k Hk)].
  - destruct (event_effect _ _ _ _ _ _ _ _ _ _ _ _ _ _ _ S) as [_ _]. cbn [node_step] in S. destruct (initial_clears exact Orient get_yaw get_roll get_pitch K prm n0 m tf n S) as (_ & _ & _ & _ & O). rewrite O. exact IH.
  - cbn [node_step] in S. destruct (pose_frame exact Orient get_roll get_pitch K n0 m n S) as (_ & _ & O & _). rewrite O. exact IH.
  - cbn [node_step] in S. injection S as <-. exact IH.
Qed.

(** C99: a pose that is too old for the filter and leaves it unchanged still moves the
    published height (roll, pitch), unless it agrees with it. *)
Theorem C99_rejected_pose_counts_refuted : forall k h n m n1 t1 t2 t3 t4 t5 n2 n3, (2 <= k <= 4)%nat ->
  Forall uncertain (poses_of h) -> uncertain m -> run h = Ok n -> msgs (n_pose _ _ _ n) = [] ->
  (0 < extend_state_step _ prm)%Z -> 10 * IZR (extend_state_step _ prm) < IZR (t2 - p_stamp _ _ m) / 1000000000 ->
  step n (EvPose _ _ m) = Ok n1 ->
  step n (EvTimer _ _ t1 t2 t3 t4 t5) = Ok n2 -> step n1 (EvTimer _ _ t1 t2 t3 t4 t5) = Ok n3 ->
  n_ekf _ _ _ n3 = n_ekf _ _ _ n2 /\
  exists without with_, n_out _ _ _ n2 = n_out _ _ _ n ++ without /\ n_out _ _ _ n3 = n_out _ _ _ n ++ with_ /\
    Forall2 (fun a b => entry exact 0 a = entry exact 0 b /\ entry exact 1 a = entry exact 1 b /\ entry exact 5 a = entry exact 5 b /\
      (entry exact k a <> given k m -> entry exact k b <> entry exact k a)) without with_.
Proof.
  intros k h n m n1 t1 t2 t3 t4 t5 n2 n3 Hk F U E Q EXT OLD S1 S2 S3.
  destruct (event_effect _ _ _ _ _ _ _ _ _ _ _ _ _ _ _ S1) as [FK _]. specialize (FK k Hk). cbn [SpecHeight.poses_of flat_map app fold_left] in FK.
  cbn [node_step] in S1. destruct (pose_frame exact Orient get_roll get_pitch K n m n1 S1) as (P1 & P2 & P3 & P4 & P5).
  assert (PN := run_holds roundf_exact sin cos atan2 neg Orient get_yaw get_roll get_pitch K prm k h n Hk F E).
  destruct (tick_shows _ _ _ _ _ _ _ _ _ _ _ _ _ _ _ _ _ _ _ S2) as [_ (pub2 & O2 & F2)]. destruct (tick_shows _ _ _ _ _ _ _ _ _ _ _ _ _ _ _ _ _ _ _ S3) as [_ (pub3 & O3 & F3)].
  assert (MOVE : n_ekf _ _ _ n <> None -> f_x _ (filter_of exact Orient K k n) <> given k m -> f_x _ (filter_of exact Orient K k n1) <> f_x _ (filter_of exact Orient K k n)).
  { intros NN NE. rewrite FK. destruct (poses_of h) as [|m0 l] eqn:EP.
    - exfalso. apply NN. refine (proj1 (before_initial _ _ _ _ _ _ _ _ _ _ _ _ h n _ E)). apply poses_initial. exact EP.
    - destruct PN as (I & PR & SD & _). assert (H : holds (drift k) (filter_of exact Orient K k n) (f_x _ (filter_of exact Orient K k n), f_stddev _ (filter_of exact Orient K k n) * f_stddev _ (filter_of exact Orient K k n), f_time _ (filter_of exact Orient K k n))) by (split; [exact I|split; [exact PR|split; [exact SD|reflexivity]]]).
      destruct (update_fuses _ _ _ (given k m) (variance k m) (p_stamp _ _ m) H (U k Hk)) as (_ & _ & _ & EQ). apply (f_equal mean) in EQ.
      match type of EQ with mean (fuse ?q ?s _) = _ => destruct (fuse_between q s (given k m) (variance k m) (p_stamp _ _ m)) as (w & W & M & _) end; [cbn [fst snd]; apply Rmult_lt_0_compat; exact SD|exact (U k Hk)|].
      unfold feed. cbn [d_sqrt exact]. unfold mean in EQ, M. cbn [fst snd] in EQ, M. change (D exact) with R in *. rewrite <- EQ. rewrite M.
      intros C. assert (Z : w * (given k m - f_x exact (filter_of exact Orient K k n)) = 0) by lra. apply Rmult_integral in Z. destruct Z as [Z|Z]; [lra|]. apply NE. lra. }
  cbn [node_step] in S2, S3. unfold timer_callback in S2, S3. rewrite P1, P2, P4, P5 in S3. destruct (n_ekf _ _ _ n) as [f0|] eqn:EF.
  2:{ injection S2 as <-. injection S3 as <-. split; [congruence|]. exists [], []. rewrite !app_nil_r. split; [reflexivity|]. split; [exact P3|constructor]. }
  specialize (MOVE ltac:(discriminate)).
  destruct (interval_compute _ _ _ _) as [r lst] eqn:EI. destruct r as [dt| | | | |]; try discriminate.
  - assert (DT : 0 < dt <= 10).
    { unfold interval_compute in EI. assert (CI : forall fr, 0 < compute_interval exact fr <= 10).
      { intros fr. unfold compute_interval, d_max, tenth. cbn [D exact d_ltb d_div d_of_Z]. assert (X : 1 / 10 <= if Rltb fr (1 / 10) then 1 / 10 else fr).
        { destruct (Rltb fr (1 / 10)) eqn:L; [lra|]. destruct (Rle_or_lt (1 / 10) fr); auto. apply Rltb_spec in H. congruence. }
        set (y := if Rltb fr (1 / 10) then 1 / 10 else fr) in *. split; [apply Rdiv_lt_0_compat; lra|]. apply Rmult_le_reg_r with y; [lra|]. unfold Rdiv. rewrite Rmult_assoc, Rinv_l by lra. lra. }
      destruct (n_last _ _ _ n) as [l0|]; [destruct (d_ltb _ _ _); [discriminate|]|]; injection EI as <- _; apply CI. }
    destruct (kf_predict _ _ _ _ _ _) as [f1| | | | |]; try discriminate. cbn [bind] in S2, S3.
    assert (U2 : pose_update exact roundf_exact sin cos atan2 Orient get_yaw K (pose_params _ prm) (n_pose _ _ _ n) f1 t2 dt = Ok (n_pose _ _ _ n, f1)).
    { unfold pose_update. rewrite Q. cbn [List.length update_loop]. unfold q_size. rewrite Q. reflexivity. }
    rewrite U2 in S2. cbn [bind] in S2.
    assert (U3 : forall r, pose_update exact roundf_exact sin cos atan2 Orient get_yaw K (pose_params _ prm) (q_push (n_pose _ _ _ n) m) f1 t2 dt = Ok r -> snd r = f1).
    { intros r. unfold pose_update, q_push. cbn [msgs]. rewrite Q. cbn [app List.length update_loop q_size msgs]. change (0 <? zlen [m])%Z with true. cbv iota.
      unfold q_pop. cbn [msgs ages]. destruct (ages (n_pose _ _ _ n) ++ [0%Z]) as [|a ag]; [discriminate|]. cbn [bind].
      destruct (pose_body _ _ _ _ _ _ _ _ _ _ _ _ _) as [f'| | | | |] eqn:PB; try discriminate. cbn [bind].
      assert (f' = f1).
      { unfold pose_body in PB. cbv zeta in PB. destruct (time_of _) as [st| | | | |] eqn:TO; try discriminate. cbn [bind] in PB. unfold time_of in TO. destruct (_ <? 0)%Z; [discriminate|]. injection TO as <-.
        destruct (compute_delay_step _ _ _ _) as [d| | | | |] eqn:CD; try discriminate. cbn [bind] in PB. destruct (C66_nearest_exact _ _ _ (proj1 DT) CD) as [_ NEAR].
        unfold compute_delay_time, seconds in NEAR. cbn [d_div d_of_Z exact] in NEAR. assert (E10 : 0 < IZR (extend_state_step _ prm)) by (apply IZR_lt; exact EXT).
        rewrite Rmax_left in NEAR by lra. assert (BIG : IZR (extend_state_step _ prm) < IZR (t2 - p_stamp _ _ m) / 1000000000 / dt).
        { apply Rmult_lt_reg_r with dt; [lra|]. unfold Rdiv at 1. rewrite (Rmult_assoc _ (/ dt)), Rinv_l by lra. nra. }
        apply Rabs_le_inv in NEAR. assert (LE : (extend_state_step _ prm <= d)%Z) by (apply Z.lt_succ_r, lt_IZR; unfold Z.succ; rewrite plus_IZR; lra).
        unfold check_delay_step in PB. cbn [pose_params m_extend] in PB. replace (d <? extend_state_step exact prm)%Z with false in PB by lia. cbn [negb] in PB. injection PB as <-. reflexivity. }
      subst f'. destruct (a + 1 <? _)%Z; cbn [msgs ages app List.length zlen]; intros X; cbn [update_loop q_size msgs] in X; injection X as <-; reflexivity. }
    destruct (pose_update _ _ _ _ _ _ _ _ _ (q_push _ _) _ _ _) as [[pq f2]| | | | |]; try discriminate. cbn [bind] in S3. specialize (U3 _ eq_refl). cbn [snd] in U3. subst f2.
    destruct (twist_update _ _ _ _ _ _ _ _) as [[tq f3]| | | | |]; try discriminate. cbn [bind] in S2, S3. cbv zeta in S2, S3. injection S2 as <-. injection S3 as <-. cbn [n_ekf n_out] in *.
    split; [reflexivity|]. rewrite P3. eexists; eexists. split; [reflexivity|]. split; [reflexivity|].
    assert (SHOW : forall nn j, (2 <= j <= 4)%nat -> nth j [st_x exact (kf_latest_x exact K f3); st_y exact (kf_latest_x exact K f3); f_x _ (n_z _ _ K nn); f_x _ (n_roll _ _ K nn); f_x _ (n_pitch _ _ K nn); d_add exact (st_yaw exact (kf_latest_x exact K f3)) (st_bias exact (kf_latest_x exact K f3))] (d_of_Z exact 0) = f_x _ (filter_of exact Orient K j nn)).
    { intros nn j Hj. destruct j as [|[|[|[|[|j]]]]]; try lia; reflexivity. }
    constructor; [|constructor; [|constructor]]; (split; [reflexivity|]; split; [reflexivity|]; split; [reflexivity|]); unfold entry, pose_in; cbn [d_add exact] in SHOW |- *; rewrite !SHOW by exact Hk; exact MOVE.
  - injection S2 as <-. injection S3 as <-. cbn [n_ekf n_out] in *. split; [reflexivity|]. exists [], []. rewrite !app_nil_r. split; [reflexivity|]. split; [exact P3|constructor].
Qed.

(** C100: the first pose of all is taken as it is ... *)
Theorem C100_first_partial : forall k h1 m tf h2 n, (2 <= k <= 4)%nat -> uncertain m -> poses_of h1 = [] -> poses_of h2 = [] ->
  run (h1 ++ EvInitialPose _ _ m tf :: h2) = Ok n -> Forall (fun o => entry exact k o = given k m) (n_out _ _ _ n).
Proof.
  intros k h1 m tf h2 n Hk U P1 P2 E.
  assert (P : poses_of (h1 ++ EvInitialPose _ _ m tf :: h2) = [m]) by (unfold SpecHeight.poses_of in *; rewrite flat_map_app, P1; cbn [flat_map app]; rewrite P2; reflexivity).
  assert (B := C98_between k (given k m) (given k m) _ n Hk ltac:(rewrite P; constructor; [split; [exact U|lra]|constructor]) E).
  eapply Forall_impl; [|exact B]. intros o Ho. cbn beta in Ho. apply Rle_antisym; apply Ho.
Qed.
(** ... but a later initial pose does not restart height, roll and pitch: they are never
    the given ones, unless the estimate was the same already. *)
Theorem C100_restart_refuted : forall k h1 m tf h2 n s, (2 <= k <= 4)%nat -> Forall uncertain (poses_of h1) -> uncertain m -> poses_of h2 = [] ->
  tracks (drift k) (map (measured k) (poses_of h1)) s -> mean s <> given k m ->
  run (h1 ++ EvInitialPose _ _ m tf :: h2) = Ok n ->
  exists n1 later, run h1 = Ok n1 /\ n_out _ _ _ n = n_out _ _ _ n1 ++ later /\ Forall (fun o => entry exact k o <> given k m) later.
Proof.
  intros k h1 m tf h2 n s Hk F U P2 T NE E.
  unfold node_run in E. rewrite foldM_app in E. destruct (foldM step (node_new _ _ _) h1) as [n1| | | | |] eqn:E1; try discriminate. cbn [bind foldM] in E.
  destruct (step n1 (EvInitialPose _ _ m tf)) as [n2| | | | |] eqn:E2; try discriminate. cbn [bind] in E.
  assert (PN := run_holds roundf_exact sin cos atan2 neg Orient get_yaw get_roll get_pitch K prm k h1 n1 Hk F E1).
  destruct (poses_of h1) as [|m0 l]; [contradiction|]. cbn [map tracks] in T. rewrite <- T in PN.
  destruct (event_effect _ _ _ _ _ _ _ _ _ _ _ _ _ _ _ E2) as [FK _]. specialize (FK k Hk). cbn [SpecHeight.poses_of flat_map app fold_left] in FK.
  destruct (update_fuses _ _ _ (given k m) (variance k m) (p_stamp _ _ m) PN (U k Hk)) as (_ & _ & _ & EQ). apply (f_equal mean) in EQ.
  destruct (fuse_between (drift k) s (given k m) (variance k m) (p_stamp _ _ m)) as (w & W & M & _); [destruct PN as (_ & _ & SD & ->); cbn [fst snd]; apply Rmult_lt_0_compat; exact SD|exact (U k Hk)|].
  assert (X : f_x _ (filter_of exact Orient K k n2) <> given k m).
  { rewrite FK. unfold feed. cbn [d_sqrt exact]. unfold mean at 2 in EQ. cbn [fst snd] in EQ. change (D exact) with R in *. rewrite <- EQ, M. intros C. apply NE. nra. }
  cbn [node_step] in E2. destruct (initial_clears exact Orient get_yaw get_roll get_pitch K prm n1 m tf n2 E2) as (_ & _ & _ & _ & O).
  destruct (shown exact roundf_exact sin cos atan2 neg Orient get_yaw get_roll get_pitch K prm (fun f => f_x _ f <> given k m) (fun _ => False) k Hk) with (h := h2) (n := n2) (n' := n) as [_ (pub & O2 & FP)]; auto; [rewrite P2; constructor|].
  exists n1, pub. split; [exact E1|]. rewrite O2, O. split; [reflexivity|]. eapply Forall_impl; [|exact FP]. intros o (f & NQ & ->). exact NQ.
Qed.
End Exact.

(** ** A concrete history over the real numbers *)
(** An initial pose of height 3, a pose of height 9 that arrives 600 seconds late, a new
    initial pose of height 7, and ticks. *)
Definition high_pose (stamp : Z) (z : R) : pose_msg exact R := PoseMsg exact R "map" stamp 1%R 2%R z 0%R ex_cov.
Definition tick_at (t : Z) : event exact R := EvTimer _ _ t t t t t.
Definition early : list (event exact R) :=
  [EvInitialPose _ _ (high_pose 0 3) (Some ex_tf); tick_at 20000000] .
Definition late : list (event exact R) := [EvPose _ _ (high_pose 0 9); tick_at 600000000000].
Definition again : list (event exact R) := [EvInitialPose _ _ (high_pose 600000000000 7) (Some ex_tf); tick_at 601000000000].
Definition ex_run := node_run exact roundf_exact Rtrigo_def.sin Rtrigo_def.cos (fun _ _ => 0%R) Ropp R (fun r => r) (fun r => r) (fun r => r) (ekf_kalman exact some_inverse (fun _ _ => 0%R)) ex_prm.
Lemma ones_uncertain s z : uncertain R (high_pose s z).
Proof. intros k Hk. destruct k as [|[|[|[|[|k]]]]]; try lia; cbn; lra. Qed.
Lemma ex_accepts h : calm R 0 1000000000000 20000000 None h -> exists n, ex_run h = Ok n.
Proof. intros C. eapply C81_defined_partial with (lo := 0%Z) (hi := 1000000000000%Z) (g := 20000000%Z); eauto; try lia; cbn; try lia; try lra; discriminate. Qed.
Example C99_case : Forall (uncertain R) (poses_of _ _ early) /\ uncertain R (high_pose 0 9) /\
  (10 * IZR (extend_state_step _ ex_prm) < IZR (600000000000 - p_stamp _ _ (high_pose 0 9)) / 1000000000)%R /\
  (exists n, ex_run early = Ok n /\ msgs (n_pose _ _ _ n) = [] /\ n_ekf _ _ _ n <> None) /\
  (exists n, ex_run (early ++ [tick_at 600000000000]) = Ok n) /\ (exists n, ex_run (early ++ late) = Ok n).
Proof.
  split; [repeat constructor; apply ones_uncertain|]. split; [apply ones_uncertain|]. split; [cbn; lra|]. split; [|split].
  - unfold ex_run, node_run, early. cbn. eexists. split; [reflexivity|]. split; [reflexivity|discriminate].
  - apply ex_accepts. cbn. unfold good_pose. cbn. repeat split; try lia; discriminate.
  - apply ex_accepts. cbn. unfold good_pose. cbn. repeat split; try lia; discriminate.
Qed.
Example C100_case : tracks (drift 2) (map (measured R (fun r => r) (fun r => r) 2) (poses_of _ _ early)) (3, 1, 0%Z)%R /\ mean (3, 1, 0%Z)%R <> given exact R (fun r => r) (fun r => r) 2 (high_pose 600000000000 7) /\
  poses_of _ _ [tick_at 601000000000] = [] /\ exists n, ex_run (early ++ again) = Ok n.
Proof.
  split; [reflexivity|]. split; [cbn; lra|]. split; [reflexivity|]. apply ex_accepts. cbn. unfold good_pose. cbn. repeat split; try lia; discriminate.
Qed.
(** Two poses one second apart: variance 1 grows to 2, the share of the second is 2/3. *)
Example C98_case : tracks (drift 2) [(3, 1, 0%Z); (6, 1, 1000000000%Z)]%R (5, 2 / 3, 1000000000%Z)%R.
Proof. unfold tracks, drift, fuse. cbn [fold_left]. replace (1000000000 - 0)%Z with 1000000000%Z by lia. f_equal. f_equal; field. Qed.

Print Assumptions C97_value_refuted.
Print Assumptions C97_variance_refuted.
Print Assumptions C97_repeated_refuted.
Print Assumptions C97_finite_partial.
Print Assumptions C98_textbook.
Print Assumptions C98_between.
Print Assumptions C99_rejected_pose_counts_refuted.
Print Assumptions C100_first_partial.
Print Assumptions C100_restart_refuted.
