(** Proofs about height, roll and pitch in the EKF localizer. *)
From Coq Require Import List ZArith Bool Lia Lra Reals Psatz.
From Flocq Require Import Core Mult_error IEEE754.BinarySingleNaN.
From Verif Require Import Base Arith FloatLemmas IntervalProofs EkfModel SpecHeight EkfNodeProofs.
Import ListNotations.
Open Scope Z_scope.

(** ** Which observations the filters have seen, for any arithmetic *)
Section Any.
Variable A : arith.
Variable roundf : D A -> option Z.
Variable sin cos : D A -> D A.
Variable atan2 : D A -> D A -> D A.
Variable neg : D A -> D A.
Variable Orient : Type.
Variable get_yaw get_roll get_pitch : Orient -> D A.
Variable K : kalman A.
Variable prm : params A.
Notation step := (node_step A roundf sin cos atan2 neg Orient get_yaw get_roll get_pitch K prm).
Notation run := (node_run A roundf sin cos atan2 neg Orient get_yaw get_roll get_pitch K prm).
Notation node := (node A Orient K).
Notation given := (given A Orient get_roll get_pitch).
Notation variance := (variance A Orient).
Notation poses_of := (poses_of A Orient).

(** The filter of entry k of the pose. *)
Definition filter_of (k : nat) (n : node) : filter1d A :=
  match k with 2%nat => n_z _ _ _ n | 3%nat => n_roll _ _ _ n | _ => n_pitch _ _ _ n end.
Definition feed (k : nat) (f : filter1d A) (m : pose_msg A Orient) : filter1d A :=
  f1_update A f (given k m) (d_sqrt A (variance k m)) (p_stamp _ _ m).

Lemma vat_nth (l : list (D A)) i v d : 0 <= i -> vat l i = Ok v -> nth (Z.to_nat i) l d = v.
Proof.
  intros H. unfold vat. replace (i <? 0) with false by lia. destruct (nth_error l (Z.to_nat i)) as [w|] eqn:E; [|discriminate].
  intros X. injection X as <-. apply nth_error_nth. exact E.
Qed.
Lemma simple_feeds n m n' : update_simple_filters A Orient get_roll get_pitch K n m = Ok n' ->
  forall k, (2 <= k <= 4)%nat -> filter_of k n' = feed k (filter_of k n) m.
Proof.
  unfold update_simple_filters. destruct (vat _ 14) as [c2| | | | |] eqn:E2; try discriminate. cbn [bind].
  destruct (vat _ 21) as [c3| | | | |] eqn:E3; try discriminate. cbn [bind]. destruct (vat _ 28) as [c4| | | | |] eqn:E4; try discriminate. cbn [bind].
  apply vat_nth with (d := d_of_Z A 0) in E2, E3, E4; try lia.
  unfold time_of. destruct (p_stamp _ _ m <? 0); [discriminate|]. cbn [bind]. intros H k Hk. injection H as <-.
  destruct k as [|[|[|[|[|k]]]]]; try lia; unfold feed, filter_of, SpecHeight.given, SpecHeight.variance; cbn [n_z n_roll n_pitch Nat.mul Nat.add]; subst c2 c3 c4; reflexivity.
Qed.
(** A tick leaves the filters alone and publishes what they hold. *)
Lemma tick_shows n t1 t2 t3 t4 t5 n' : step n (EvTimer _ _ t1 t2 t3 t4 t5) = Ok n' ->
  (forall k, filter_of k n' = filter_of k n) /\
  exists pub, n_out _ _ _ n' = n_out _ _ _ n ++ pub /\ Forall (fun o => forall k, (2 <= k <= 4)%nat -> entry A k o = f_x _ (filter_of k n)) pub.
Proof.
  cbn [node_step]. unfold timer_callback. destruct (n_ekf _ _ _ n) as [f0|]; [|intros H; injection H as <-; split; [reflexivity|exists []; rewrite app_nil_r; split; [reflexivity|constructor]]].
  destruct (interval_compute _ _ _ _) as [r last]. destruct r as [dt| | | | |]; try discriminate.
  - destruct (kf_predict _ _ _ _ _ _) as [f1| | | | |]; try discriminate. cbn [bind].
    destruct (pose_update _ _ _ _ _ _ _ _ _ _ _ _ _) as [[pq f2]| | | | |]; try discriminate. cbn [bind].
    destruct (twist_update _ _ _ _ _ _ _ _) as [[tq f3]| | | | |]; try discriminate. cbn [bind]. cbv zeta. intros H. injection H as <-.
    split; [reflexivity|]. cbn [n_out]. eexists. split; [reflexivity|].
    repeat constructor; intros k Hk; (destruct k as [|[|[|[|[|k]]]]]; [lia|lia| | | |lia]); reflexivity.
  - intros H. injection H as <-. split; [reflexivity|]. exists []. rewrite app_nil_r. split; [reflexivity|constructor].
Qed.
(** One event: the filters are fed with its pose, and the published poses show them. *)
Lemma event_effect n e n' : step n e = Ok n' ->
  (forall k, (2 <= k <= 4)%nat -> filter_of k n' = fold_left (feed k) (poses_of [e]) (filter_of k n)) /\
  exists pub, n_out _ _ _ n' = n_out _ _ _ n ++ pub /\ Forall (fun o => forall k, (2 <= k <= 4)%nat -> entry A k o = f_x _ (filter_of k n)) pub.
Proof.
  destruct e as [t1 t2 t3 t4 t5|m tf|m|m]; intros E.
  - destruct (tick_shows n t1 t2 t3 t4 t5 n' E) as [H1 H2]. split; [|exact H2]. intros k _. apply H1.
  - cbn [node_step] in E. destruct (initial_clears A Orient get_yaw get_roll get_pitch K prm n m tf n' E) as (_ & _ & _ & _ & O). split.
    + unfold callback_initial_pose in E. do 2 (destruct (erase_begin_slash _); try discriminate; cbn [bind] in E). destruct tf as [tr|]; [|discriminate]. cbv zeta in E.
      destruct (init_covariance _ _) as [P| | | | |]; try discriminate. cbn [bind] in E. destruct (kf_new _ _ _ _ _) as [f| | | | |]; try discriminate. cbn [bind] in E.
      destruct (update_simple_filters _ _ _ _ _ _ _) as [n2| | | | |] eqn:E2; try discriminate. cbn [bind] in E. injection E as <-.
      intros k Hk. assert (S := simple_feeds _ _ _ E2 k Hk). cbn [poses_of SpecHeight.poses_of flat_map app fold_left].
      destruct k as [|[|[|[|[|k]]]]]; try lia; exact S.
    + exists []. rewrite O, app_nil_r. split; [reflexivity|constructor].
  - cbn [node_step] in E. destruct (pose_frame A Orient get_roll get_pitch K n m n' E) as (_ & _ & O & _). split.
    + intros k Hk. assert (S := simple_feeds _ _ _ E k Hk). cbn [SpecHeight.poses_of flat_map app fold_left].
      destruct k as [|[|[|[|[|k]]]]]; try lia; exact S.
    + exists []. rewrite O, app_nil_r. split; [reflexivity|constructor].
  - cbn [node_step] in E. injection E as <-. split; [intros k Hk; destruct k as [|[|[|[|[|k]]]]]; try lia; reflexivity|].
    exists []. cbn. rewrite app_nil_r. split; [reflexivity|constructor].
Qed.
(** A property of a filter that every fed pose keeps is one of everything published. *)
Lemma shown (Q : filter1d A -> Prop) (ok : pose_msg A Orient -> Prop) k : (2 <= k <= 4)%nat -> (forall f m, ok m -> Q f -> Q (feed k f m)) ->
  forall h n n', Q (filter_of k n) -> Forall ok (poses_of h) -> foldM step n h = Ok n' ->
  Q (filter_of k n') /\ exists pub, n_out _ _ _ n' = n_out _ _ _ n ++ pub /\ Forall (fun o => exists f, Q f /\ entry A k o = f_x _ f) pub.
Proof.
  intros Hk ST. induction h as [|e h IH]; intros n n' HQ F E.
  - injection E as <-. split; [exact HQ|]. exists []. rewrite app_nil_r. split; [reflexivity|constructor].
  - cbn [foldM] in E. destruct (step n e) as [n1| | | | |] eqn:E1; try discriminate. cbn [bind] in E.
    destruct (event_effect _ _ _ E1) as [EF (pub & O & FP)].
    assert (F' : Forall ok (poses_of [e]) /\ Forall ok (poses_of h)).
    { unfold SpecHeight.poses_of in F |- *. cbn [flat_map] in F |- *. apply Forall_app in F. rewrite app_nil_r. exact F. }
    assert (Q1 : Q (filter_of k n1)).
    { rewrite (EF k Hk). destruct F' as [F' _]. revert HQ. generalize (filter_of k n). revert F'. generalize (poses_of [e]). intros l. induction l as [|m l IHl]; intros Fl f HQ; [exact HQ|].
      inversion Fl; subst. cbn [fold_left]. apply IHl; auto. }
    destruct (IH n1 n' Q1 (proj2 F') E) as [Q2 (pub2 & O2 & FP2)]. split; [exact Q2|]. exists (pub ++ pub2). rewrite O2, O, app_assoc. split; [reflexivity|].
    apply Forall_app. split; [|exact FP2]. eapply Forall_impl; [|exact FP]. intros o Ho. exists (filter_of k n). split; auto.
Qed.
Lemma feed_all k h : (2 <= k <= 4)%nat -> forall n n', foldM step n h = Ok n' -> filter_of k n' = fold_left (feed k) (poses_of h) (filter_of k n).
Proof.
  intros Hk. induction h as [|e h IH]; intros n n' E; [injection E as <-; reflexivity|].
  cbn [foldM] in E. destruct (step n e) as [n1| | | | |] eqn:E1; try discriminate. cbn [bind] in E.
  destruct (event_effect _ _ _ E1) as [EF _]. rewrite (IH _ _ E), (EF k Hk). unfold SpecHeight.poses_of. cbn [flat_map]. rewrite app_nil_r, <- fold_left_app. reflexivity.
Qed.
End Any.

(** ** In doubles *)
Section Ieee.
Variable acosf : b64 -> b64.
Notation A := (ieee acosf).
Lemma nan_add_l x y : is_nan x = true -> is_nan (add64 x y) = true.
Proof. destruct x; try discriminate. destruct y; reflexivity. Qed.
Lemma nan_add_r x y : is_nan y = true -> is_nan (add64 x y) = true.
Proof. destruct y; try discriminate. destruct x; reflexivity. Qed.
Lemma nan_sub_l x y : is_nan x = true -> is_nan (sub64 x y) = true.
Proof. destruct x; try discriminate. destruct y; reflexivity. Qed.
Lemma nan_mul_l x y : is_nan x = true -> is_nan (mul64 x y) = true.
Proof. destruct x; try discriminate. destruct y; reflexivity. Qed.
Lemma nan_mul_r x y : is_nan y = true -> is_nan (mul64 x y) = true.
Proof. destruct y; try discriminate. destruct x; reflexivity. Qed.
Lemma nan_div_r x y : is_nan y = true -> is_nan (div64 x y) = true.
Proof. destruct y; try discriminate. destruct x; reflexivity. Qed.
(** Not a number once, not a number for ever. *)
Lemma nan_stays (f : filter1d A) obs r t : f_init _ f = true -> is_nan (f_x _ f : b64) = true ->
  f_init _ (f1_update A f obs r t) = true /\ is_nan (f_x _ (f1_update A f obs r t) : b64) = true.
Proof. intros I N. unfold f1_update. rewrite I. split; [reflexivity|]. apply nan_add_l. exact N. Qed.
Lemma nan_enters (f : filter1d A) (obs : b64) r t : is_nan obs = true ->
  f_init _ (f1_update A f obs r t) = true /\ is_nan (f_x _ (f1_update A f obs r t) : b64) = true.
Proof.
  intros N. unfold f1_update. destruct (f_init _ f); [|split; [reflexivity|exact N]]. split; [reflexivity|].
  apply nan_add_r, nan_mul_r, nan_sub_l. exact N.
Qed.
Lemma nan_variance (f : filter1d A) obs (r : b64) t : f_init _ f = true -> is_nan r = true ->
  f_init _ (f1_update A f obs r t) = true /\ is_nan (f_x _ (f1_update A f obs r t) : b64) = true.
Proof.
  intros I N. unfold f1_update. rewrite I. split; [reflexivity|].
  apply nan_add_r, nan_mul_l, nan_div_r, nan_add_r, nan_mul_l. exact N.
Qed.

Lemma sqrt64_ok x : fin x -> (0 <= val x)%R -> val (sqrt64 x) = rnd (sqrt (val x)) /\ fin (sqrt64 x).
Proof.
  intros F P. pose proof (Bsqrt_correct 53 1024 prec64 emax64 mode_NE x) as C. change (round_mode mode_NE) with ZnearestE in C.
  destruct C as (C1 & C2 & _). split; [exact C1|]. unfold fin, sqrt64. rewrite C2. destruct x as [s|s| |s m e]; try discriminate F; auto.
  destruct s; auto. exfalso. unfold val, B2R in P. assert (F2R (Float radix2 (Z.neg m) e) < 0)%R by (apply F2R_lt_0; reflexivity). cbn [cond_Zopp Z.opp] in P. lra.
Qed.
Open Scope R_scope.
Lemma sqrt_bound a b : 0 <= b -> a <= b * b -> sqrt a <= b.
Proof. intros B H. rewrite <- (sqrt_square b B). apply sqrt_le_1_alt. exact H. Qed.
Lemma sqrt_bound_low a b : 0 <= b -> b * b <= a -> b <= sqrt a.
Proof. intros B H. rewrite <- (sqrt_square b B). apply sqrt_le_1_alt. exact H. Qed.
Lemma of_Z64_large z : (Z.abs z <= 2 ^ 62)%Z -> fin (of_Z64 z) /\ Rabs (val (of_Z64 z)) <= bpow radix2 62.
Proof.
  intros H. pose proof (binary_normalize_correct 53 1024 prec64 emax64 mode_NE z 0 false) as C.
  cbv zeta in C. unfold F2R in C. cbn [Fnum Fexp] in C. change (bpow radix2 0) with 1 in C. rewrite Rmult_1_r in C.
  change (round_mode mode_NE) with ZnearestE in C. fold (rnd (IZR z)) in C.
  assert (B : Rabs (IZR z) <= bpow radix2 62) by (rewrite <- abs_IZR; change (bpow radix2 62) with (IZR (2 ^ 62)); apply IZR_le; exact H).
  rewrite (rnd_lt_emax _ 62) in C by (try lia; exact B). destruct C as (C1 & C2 & _). split; [exact C2|]. unfold val, of_Z64. rewrite C1. apply rnd_le; [apply fmt_bpow; lia|exact B].
Qed.
Lemma bp (a b : Z) : bpow radix2 a * bpow radix2 b = bpow radix2 (a + b). Proof. symmetry. apply bpow_plus. Qed.
(** The time between two stamps, in seconds. *)
Lemma seconds_bounded t t0 : (0 <= t < 2 ^ 62)%Z -> (0 <= t0 < 2 ^ 62)%Z -> at_most (bpow radix2 33) (seconds A (t - t0)).
Proof.
  intros H1 H2. unfold seconds. cbn [d_div d_of_Z ieee]. destruct (of_Z64_large (t - t0) ltac:(lia)) as [F B]. destruct (of_Z64_ok 1000000000 ltac:(lia)) as [V G].
  assert (Q : Rabs (val (of_Z64 (t - t0)) / val (of_Z64 1000000000)) <= bpow radix2 33).
  { rewrite V. unfold Rdiv. rewrite Rabs_mult, (Rabs_pos_eq (/ 1000000000)) by lra. change (bpow radix2 33) with 8589934592. change (bpow radix2 62) with 4611686018427387904 in B. lra. }
  destruct (div64_ok (of_Z64 (t - t0)) (of_Z64 1000000000) 33 F ltac:(rewrite V; lra) ltac:(lia) Q) as [W1 W2]. split; [exact W2|].
  rewrite W1. apply rnd_le; [apply fmt_bpow; lia|exact Q].
Qed.
Lemma rnd_err_sharp x k : (-1000 <= k <= 1023)%Z -> Rabs x <= bpow radix2 k -> Rabs (rnd x - x) <= bpow radix2 (k - 54).
Proof.
  intros Hk H. destruct (Req_dec x 0) as [->|N0]; [rewrite rnd_0, Rminus_0_r, Rabs_R0; apply bpow_ge_0|].
  destruct (Req_dec (Rabs x) (bpow radix2 k)) as [E|E].
  - assert (F : fmt x). { apply generic_format_abs_inv. rewrite E. apply fmt_bpow. lia. }
    rewrite rnd_exact by exact F. rewrite Rminus_eq_0, Rabs_R0. apply bpow_ge_0.
  - unfold rnd. eapply Rle_trans; [apply error_le_half_ulp; apply vexp|]. rewrite ulp_neq_0 by exact N0. unfold cexp. rewrite fexp_eq. unfold FLT_exp.
    assert (M : (mag radix2 x <= k)%Z) by (apply mag_le_bpow; [exact N0|lra]).
    replace (k - 54)%Z with (-1 + (k - 53))%Z by lia. rewrite bpow_plus. change (bpow radix2 (-1)) with (/ 2).
    apply Rmult_le_compat_l; [lra|]. apply bpow_le. lia.
Qed.
(** A weighted mean of two doubles of size at most 2^1000 is of that size. *)
Definition big : b64 := of_me64 1 1000.
Definition half_ulp : b64 := of_me64 1 947.
Lemma val_pow e : (-1000 <= e <= 1000)%Z -> val (of_me64 1 e) = bpow radix2 e /\ fin (of_me64 1 e).
Proof.
  intros H. pose proof (binary_normalize_correct 53 1024 prec64 emax64 mode_NE 1 e false) as C. cbv zeta in C.
  change (round_mode mode_NE) with ZnearestE in C. unfold F2R in C. cbn [Fnum Fexp] in C. rewrite Rmult_1_l in C. fold (rnd (bpow radix2 e)) in C.
  rewrite (rnd_lt_emax _ e) in C by first [lia | rewrite Rabs_pos_eq; [apply Rle_refl|apply bpow_ge_0]]. rewrite rnd_exact in C by (apply fmt_bpow; lia). destruct C as (C1 & C2 & _). split; [exact C1|exact C2].
Qed.
Lemma absorbed : rnd (bpow radix2 1000 + bpow radix2 947) = bpow radix2 1000.
Proof.
  destruct (val_pow 1000 ltac:(lia)) as [V1 F1]. destruct (val_pow 947 ltac:(lia)) as [V2 F2]. fold big in V1, F1. fold half_ulp in V2, F2.
  assert (B : Rabs (val big + val half_ulp) <= bpow radix2 1001).
  { rewrite V1, V2. assert (0 <= bpow radix2 947) by apply bpow_ge_0. assert (bpow radix2 947 <= bpow radix2 1000) by (apply bpow_le; lia).
    change 1001%Z with (1000 + 1)%Z. rewrite bpow_plus. change (bpow radix2 1) with 2. rewrite Rabs_pos_eq; lra. }
  destruct (add64_ok big half_ulp 1001 F1 F2 ltac:(lia) B) as [S _]. rewrite V1, V2 in S. rewrite <- S, <- V1. f_equal. apply B2SF_inj. vm_compute. reflexivity.
Qed.
Lemma mean_above x g d : fmt x -> fmt d -> x <= bpow radix2 1000 -> - bpow radix2 1000 <= x -> 0 <= g <= 1 -> d <= rnd (bpow radix2 1000 - x) ->
  rnd (x + rnd (g * d)) <= bpow radix2 1000.
Proof.
  intros Fx Fd X1 X2 G HD. destruct (Rle_or_lt d 0) as [N|P].
  - assert (rnd (g * d) <= 0) by (rewrite <- rnd_0; apply rnd_mono; nra). rewrite <- (rnd_exact (bpow radix2 1000)) by (apply fmt_bpow; lia). apply rnd_mono. lra.
  - assert (L : rnd (g * d) <= d) by (rewrite <- (rnd_exact d Fd) at 2; apply rnd_mono; nra).
    assert (E : Rabs (rnd (bpow radix2 1000 - x) - (bpow radix2 1000 - x)) <= bpow radix2 (1001 - 54)).
    { apply rnd_err_sharp; [lia|]. change 1001%Z with (1000 + 1)%Z. rewrite bpow_plus. change (bpow radix2 1) with 2. rewrite Rabs_pos_eq; lra. }
    apply Rabs_le_inv in E. rewrite <- absorbed. apply rnd_mono. change (1001 - 54)%Z with 947%Z in E. lra.
Qed.
Lemma rnd_neg x : rnd (- x) = - rnd x.
Proof. unfold rnd. apply round_NE_opp. Qed.
Lemma mean_size x o g : fmt x -> fmt o -> Rabs x <= bpow radix2 1000 -> Rabs o <= bpow radix2 1000 -> 0 <= g <= 1 ->
  Rabs (rnd (x + rnd (g * rnd (o - x)))) <= bpow radix2 1000.
Proof.
  intros Fx Fo Hx Ho G. apply Rabs_le. apply Rabs_le_inv in Hx. apply Rabs_le_inv in Ho. split.
  - assert (U : rnd (- x + rnd (g * rnd (- o - - x))) <= bpow radix2 1000).
    { apply mean_above; auto; try lra; [apply generic_format_opp; exact Fx|apply rnd_fmt|apply rnd_mono; lra]. }
    replace (- o - - x) with (- (o - x)) in U by ring. rewrite rnd_neg in U. replace (g * - rnd (o - x)) with (- (g * rnd (o - x))) in U by ring.
    rewrite rnd_neg in U. replace (- x + - rnd (g * rnd (o - x))) with (- (x + rnd (g * rnd (o - x)))) in U by ring. rewrite rnd_neg in U. lra.
  - apply mean_above; auto; try lra; [apply rnd_fmt|apply rnd_mono; lra].
Qed.
Lemma rnd_above x y : fmt x -> x <= y -> x <= rnd y. Proof. intros F H. rewrite <- (rnd_exact x F). apply rnd_mono. exact H. Qed.
Lemma rnd_below x y : fmt y -> x <= y -> rnd x <= y. Proof. intros F H. rewrite <- (rnd_exact y F). apply rnd_mono. exact H. Qed.
(** Arithmetic within bounds. *)
Definition within (lo hi : R) (x : b64) : Prop := fin x /\ lo <= val x <= hi.
Lemma within_le lo hi lo' hi' x : lo' <= lo -> hi <= hi' -> within lo hi x -> within lo' hi' x.
Proof. intros H1 H2 [F H]. split; [exact F|lra]. Qed.
Lemma bounded_abs lo hi x : - bpow radix2 1001 <= lo -> hi <= bpow radix2 1001 -> lo <= x <= hi -> Rabs x <= bpow radix2 1001.
Proof. intros. apply Rabs_le. lra. Qed.
Lemma add_in x y lo hi : fin x -> fin y -> fmt lo -> fmt hi -> - bpow radix2 1001 <= lo -> hi <= bpow radix2 1001 -> lo <= val x + val y <= hi ->
  val (add64 x y) = rnd (val x + val y) /\ within lo hi (add64 x y).
Proof.
  intros Fx Fy Fl Fh Hl Hh H. destruct (add64_ok x y 1001 Fx Fy ltac:(lia) (bounded_abs _ _ _ Hl Hh H)) as [E F].
  split; [exact E|]. split; [exact F|]. rewrite E. apply rnd_between; auto.
Qed.
Lemma sub_in x y lo hi : fin x -> fin y -> fmt lo -> fmt hi -> - bpow radix2 1001 <= lo -> hi <= bpow radix2 1001 -> lo <= val x - val y <= hi ->
  val (sub64 x y) = rnd (val x - val y) /\ within lo hi (sub64 x y).
Proof.
  intros Fx Fy Fl Fh Hl Hh H. destruct (sub64_ok x y 1001 Fx Fy ltac:(lia) (bounded_abs _ _ _ Hl Hh H)) as [E F].
  split; [exact E|]. split; [exact F|]. rewrite E. apply rnd_between; auto.
Qed.
Lemma mul_in x y lo hi : fin x -> fin y -> fmt lo -> fmt hi -> - bpow radix2 1001 <= lo -> hi <= bpow radix2 1001 -> lo <= val x * val y <= hi ->
  val (mul64 x y) = rnd (val x * val y) /\ within lo hi (mul64 x y).
Proof.
  intros Fx Fy Fl Fh Hl Hh H. destruct (mul64_ok x y 1001 Fx Fy ltac:(lia) (bounded_abs _ _ _ Hl Hh H)) as [E F].
  split; [exact E|]. split; [exact F|]. rewrite E. apply rnd_between; auto.
Qed.
Lemma div_in x y lo hi : fin x -> val y <> 0 -> fmt lo -> fmt hi -> - bpow radix2 1001 <= lo -> hi <= bpow radix2 1001 -> lo <= val x / val y <= hi ->
  val (div64 x y) = rnd (val x / val y) /\ within lo hi (div64 x y).
Proof.
  intros Fx Fy Fl Fh Hl Hh H. destruct (div64_ok x y 1001 Fx Fy ltac:(lia) (bounded_abs _ _ _ Hl Hh H)) as [E F].
  split; [exact E|]. split; [exact F|]. rewrite E. apply rnd_between; auto.
Qed.
Lemma sqrt_in x lo hi : fin x -> 0 <= val x -> fmt lo -> fmt hi -> 0 <= lo -> 0 <= hi -> lo * lo <= val x <= hi * hi -> within lo hi (sqrt64 x).
Proof.
  intros F P Fl Fh Hl Hh H. destruct (sqrt64_ok x F P) as [E G]. split; [exact G|]. rewrite E. apply rnd_between; auto.
  split; [apply sqrt_bound_low|apply sqrt_bound]; tauto.
Qed.
Lemma fmt_scaled m e : (Z.abs m <= 2 ^ 52)%Z -> (-1000 <= e <= 900)%Z -> fmt (IZR m * bpow radix2 e).
Proof.
  intros Hm He. unfold fmt. rewrite fexp_eq. apply generic_format_FLT. exists (Float radix2 m e); [reflexivity|cbn [Fnum]; change (radix2 ^ 53)%Z with (2 ^ 53)%Z; lia|cbn [Fexp]; lia].
Qed.
Lemma fmt_double a : fmt a -> bpow radix2 280 <= a -> fmt (2 * a).
Proof.
  intros F H. unfold fmt in *. rewrite fexp_eq in *. replace (2 * a) with (a * bpow radix2 1) by (change (bpow radix2 1) with 2; ring).
  apply mult_bpow_exact_FLT; [exact F|]. assert (281 <= mag radix2 a)%Z by (apply mag_ge_bpow; change (281 - 1)%Z with 280%Z; rewrite Rabs_pos_eq; [exact H|pose proof (bpow_ge_0 radix2 280); lra]). lia.
Qed.
Lemma fmt_0 : fmt 0. Proof. apply generic_format_0. Qed.
Lemma fmt_1 : fmt 1. Proof. apply (fmt_bpow 0). lia. Qed.
Lemma fmt_half : fmt (1 / 2). Proof. replace (1 / 2) with (bpow radix2 (-1)) by (change (bpow radix2 (-1)) with (/ 2); lra). apply fmt_bpow. lia. Qed.
Lemma fmt_threequarters : fmt (3 / 4). Proof. replace (3 / 4) with (IZR 3 * bpow radix2 (-2)) by (change (bpow radix2 (-2)) with (/ 4); lra). apply fmt_scaled; lia. Qed.
Definition bb (e : Z) : R := bpow radix2 e.
Lemma bbp a b : bb a * bb b = bb (a + b). Proof. apply bp. Qed.
Lemma bb_pos a : 0 < bb a. Proof. apply bpow_gt_0. Qed.
Lemma bb_le a b : (a <= b)%Z -> bb a <= bb b. Proof. apply bpow_le. Qed.

(** The invariant: finite and of moderate size. *)
Definition sound (f : filter1d A) : Prop :=
  at_most (bb 1000) (f_x _ f) /\ at_most 1 (f_proc _ f) /\ (f_init _ f = true -> within 0 (bb 150) (f_stddev _ f) /\ (0 <= f_time _ f < 2 ^ 62)%Z).
(** The gain lies between zero and one, and the deviation does not grow beyond its bound. *)
Lemma update_sound (f : filter1d A) (obs v : b64) t : sound f -> at_most (bb 1000) obs -> within (bb (-200)) (bb 200) v -> (0 <= t < 2 ^ 62)%Z ->
  sound (f1_update A f obs (sqrt64 v) t).
Proof.
  intros (Hx & Hp & HI) Ho [Fv Hv] Ht.
  assert (R : within (bb (-100)) (bb 100) (sqrt64 v)).
  { pose proof (bb_pos (-200)). apply sqrt_in; auto; try apply fmt_bpow; try lia; try (apply Rlt_le, bb_pos); [lra|]. rewrite !bbp. exact Hv. }
  unfold f1_update. destruct (f_init _ f) eqn:I.
  2:{ split; [exact Ho|]. split; [exact Hp|]. intros _. cbn [f1_init f_stddev f_time]. split; [|exact Ht].
      apply within_le with (3 := R); [apply Rlt_le, bb_pos|apply bb_le; lia]. }
  destruct (HI eq_refl) as [HS HT]. clear HI. cbv zeta.
  cbn [d_mul d_add d_sub d_div d_sqrt d_of_Z ieee].
  set (dt := seconds A (t - f_time _ f)). set (pd := mul64 (f_proc _ f) dt). set (q := add64 (mul64 (f_stddev _ f) (f_stddev _ f)) (mul64 pd pd)).
  set (s := sqrt64 q). set (r := sqrt64 v). set (a := mul64 s s). set (b := mul64 r r). set (den := add64 a b). set (g := div64 a den). set (o := sub64 obs (f_x _ f)).
  assert (BIG : forall k, (k <= 1001)%Z -> bb k <= bpow radix2 1001) by (intros; apply bb_le; lia).
  assert (LOW : - bpow radix2 1001 <= 0) by (pose proof (bb_pos 1001); unfold bb in *; lra).
  destruct (seconds_bounded t (f_time _ f) Ht HT) as [Fdt Bdt]. fold dt in Fdt, Bdt. fold (bb 33) in Bdt. destruct Hp as [Fp Bp].
  assert (PD : fin pd /\ Rabs (val pd) <= bb 33).
  { assert (Rabs (val (f_proc _ f) * val dt) <= bb 33). { rewrite Rabs_mult. pose proof (Rabs_pos (val dt)). pose proof (Rabs_pos (val (f_proc A f))). nra. }
    destruct (mul64_ok (f_proc _ f) dt 33 Fp Fdt ltac:(lia) H) as [E F]. split; [exact F|]. fold pd in E. rewrite E. apply rnd_le; [apply fmt_bpow; lia|exact H]. }
  destruct PD as [Fpd Bpd].
  destruct HS as [FS BS].
  assert (E66 : bb 33 * bb 33 = bb 66) by apply bbp. assert (E300 : bb 150 * bb 150 = bb 300) by apply bbp.
  assert (P66 := bb_pos 66). assert (P300 := bb_pos 300). assert (P33 := bb_pos 33). assert (P150 := bb_pos 150).
  destruct (mul_in pd pd 0 (bb 66) Fpd Fpd fmt_0 ltac:(apply fmt_bpow; lia) LOW (BIG 66%Z ltac:(lia))) as [_ [Fpp Bpp]].
  { apply Rabs_le_inv in Bpd. split; [apply Rle_0_sqr|]. nra. }
  destruct (mul_in _ _ 0 (bb 300) FS FS fmt_0 ltac:(apply fmt_bpow; lia) LOW (BIG 300%Z ltac:(lia))) as [_ [Fss Bss]].
  { split; nra. }
  assert (E296 : bb 300 = 16 * bb 296) by (change 300%Z with (4 + 296)%Z; rewrite <- bbp; reflexivity).
  assert (L66 : bb 66 <= bb 296) by (apply bb_le; lia).
  assert (Q : within 0 (25 * bb 296) q).
  { apply add_in; auto; [apply fmt_0|apply fmt_scaled; lia| |lra]. apply Rle_trans with (bb 301); [|apply BIG; lia].
    assert (bb 301 = 32 * bb 296) by (change 301%Z with (5 + 296)%Z; rewrite <- bbp; reflexivity). pose proof (bb_pos 296). lra. }
  destruct Q as [Fq Bq].
  assert (SB : within 0 (5 * bb 148) s).
  { apply sqrt_in; auto; try lra; [apply fmt_0|apply fmt_scaled; lia|pose proof (bb_pos 148); lra|]. split; [lra|].
    replace (5 * bb 148 * (5 * bb 148)) with (25 * (bb 148 * bb 148)) by ring. rewrite bbp. apply Bq. }
  destruct SB as [Fs Bs]. destruct R as [Fr Br]. fold r in Fr, Br.
  assert (P148 := bb_pos 148). assert (P296 := bb_pos 296). assert (E148 : bb 148 * bb 148 = bb 296) by apply bbp.
  assert (E301 : bb 301 = 32 * bb 296) by (change 301%Z with (5 + 296)%Z; rewrite <- bbp; reflexivity).
  destruct (mul_in s s 0 (25 * bb 296) Fs Fs fmt_0 ltac:(apply fmt_scaled; lia) LOW) as [Ea [Fa Ba]].
  { apply Rle_trans with (bb 301); [lra|apply BIG; lia]. }
  { split; [nra|]. rewrite <- E148. nra. }
  fold a in Ea, Fa, Ba.
  assert (P100 := bb_pos 100). assert (Pm := bb_pos (-100)). assert (E200 : bb 100 * bb 100 = bb 200) by apply bbp. assert (Em : bb (-100) * bb (-100) = bb (-200)) by apply bbp.
  destruct (mul_in r r (bb (-200)) (bb 200) Fr Fr ltac:(apply fmt_bpow; lia) ltac:(apply fmt_bpow; lia)) as [_ [Fb Bb]].
  { pose proof (bb_pos (-200)). lra. } { apply BIG; lia. } { split; nra. }
  fold b in Fb, Bb. assert (Pb := bb_pos (-200)). assert (P200 := bb_pos 200). assert (L200 : bb 200 <= bb 296) by (apply bb_le; lia).
  destruct (add_in a b 0 (26 * bb 296) Fa Fb fmt_0 ltac:(apply fmt_scaled; lia) LOW) as [Eden [Fden Bden]].
  { apply Rle_trans with (bb 301); [lra|apply BIG; lia]. } { lra. }
  fold den in Eden, Fden, Bden.
  assert (DA : val a <= val den) by (rewrite Eden; apply rnd_above; [apply fmt_val|lra]).
  assert (DB : val b <= val den) by (rewrite Eden; apply rnd_above; [apply fmt_val|lra]).
  assert (DP : 0 < val den) by lra.
  assert (L1 : 1 <= bpow radix2 1001) by (apply (bb_le 0); lia).
  assert (AD : 0 <= val a / val den <= 1).
  { split; [apply Rmult_le_pos; [lra|apply Rlt_le, Rinv_0_lt_compat; exact DP]|]. apply Rmult_le_reg_r with (val den); [exact DP|]. unfold Rdiv. rewrite Rmult_assoc, Rinv_l by lra. lra. }
  destruct (div_in a den 0 1 Fa ltac:(lra) fmt_0 fmt_1 LOW L1 AD) as [Eg [Fg Bg]]. fold g in Eg, Fg, Bg.
  destruct Hx as [Fx Bx]. destruct Ho as [Fo Bo].
  assert (E1001 : bpow radix2 1001 = 2 * bb 1000) by (change 1001%Z with (1 + 1000)%Z; rewrite bpow_plus; reflexivity). assert (P1000 := bb_pos 1000).
  assert (OB : - bpow radix2 1001 <= val obs - val (f_x _ f) <= bpow radix2 1001) by (apply Rabs_le_inv in Bx; apply Rabs_le_inv in Bo; lra).
  assert (F1001 : fmt (bpow radix2 1001)) by (apply fmt_bpow; lia). assert (Fm1001 : fmt (- bpow radix2 1001)) by (apply generic_format_opp; exact F1001).
  destruct (sub_in obs (f_x _ f) _ _ Fo Fx Fm1001 F1001 (Rle_refl _) (Rle_refl _) OB) as [Eo [Foo Boo]]. fold o in Eo, Foo, Boo.
  destruct (mul_in g o (- bpow radix2 1001) (bpow radix2 1001) Fg Foo Fm1001 F1001 (Rle_refl _) (Rle_refl _)) as [Ego [Fgo Bgo]]; [nra|].
  assert (MS := mean_size (val (f_x _ f)) (val obs) (val g) (fmt_val _) (fmt_val _) Bx Bo Bg). rewrite <- Eo, <- Ego in MS.
  assert (MO : Rabs (val (f_x _ f) + val (mul64 g o)) <= bpow radix2 1002).
  { assert (bpow radix2 1002 = 2 * bpow radix2 1001) by (change 1002%Z with (1 + 1001)%Z; rewrite bpow_plus; reflexivity). apply Rabs_le. apply Rabs_le_inv in Bx. lra. }
  destruct (add64_ok (f_x _ f) (mul64 g o) 1002 Fx Fgo ltac:(lia) MO) as [EX FX].
  split. { split; [exact FX|]. cbn [f_x]. rewrite EX. exact MS. }
  split; [split; assumption|]. intros _. cbn [f_stddev f_time]. split; [|exact Ht].
  (* the deviation *)
  destruct (of_Z64_ok 1 ltac:(lia)) as [V1 F1].
  destruct (sub_in (of_Z64 1) g 0 1 F1 Fg fmt_0 fmt_1 LOW L1) as [Ew [Fw Bw]]; [rewrite V1; lra|]. rewrite V1 in Ew.
  set (w := sub64 (of_Z64 1) g) in *.
  assert (E150 : bb 150 = 4 * bb 148) by (change 150%Z with (2 + 148)%Z; rewrite <- bbp; reflexivity).
  destruct (Rle_or_lt (val s) (bb 140)) as [Small|Large].
  - assert (W : within 0 1 (sqrt64 w)) by (apply sqrt_in; auto; [lra|apply fmt_0|apply fmt_1|lra|lra|lra]). destruct W as [FW BW].
    assert (bb 140 <= bb 150) by (apply bb_le; lia).
    destruct (mul_in (sqrt64 w) s 0 (bb 150) FW Fs fmt_0 ltac:(apply fmt_bpow; lia) LOW (BIG 150%Z ltac:(lia))) as [_ W]; [nra|exact W].
  - assert (A280 : bb 280 <= val a).
    { rewrite Ea. apply rnd_above; [apply fmt_bpow; lia|]. replace (bb 280) with (bb 140 * bb 140) by apply bbp. pose proof (bb_pos 140). nra. }
    assert (L280 : bb 200 <= bb 280) by (apply bb_le; lia).
    assert (D2 : val den <= 2 * val a) by (rewrite Eden; apply rnd_below; [apply fmt_double; [apply fmt_val|exact A280]|lra]).
    assert (G2 : 1 / 2 <= val g).
    { rewrite Eg. apply rnd_above; [apply fmt_half|]. apply Rmult_le_reg_r with (val den); [exact DP|]. unfold Rdiv at 2. rewrite Rmult_assoc, Rinv_l by lra. lra. }
    assert (W2 : val w <= 1 / 2) by (rewrite Ew; apply rnd_below; [apply fmt_half|lra]).
    assert (W : within 0 (3 / 4) (sqrt64 w)) by (apply sqrt_in; auto; [lra|apply fmt_0|apply fmt_threequarters|lra|lra|lra]). destruct W as [FW BW].
    destruct (mul_in (sqrt64 w) s 0 (bb 150) FW Fs fmt_0 ltac:(apply fmt_bpow; lia) LOW (BIG 150%Z ltac:(lia))) as [_ W]; [nra|exact W].
Qed.
Lemma fresh_sound : sound (f1_new A (d_of_Z A 1)) /\ sound (f1_new A (tenth A)).
Proof.
  assert (Z : at_most (bb 1000) (of_Z64 0)). { destruct (of_Z64_ok 0 ltac:(lia)) as [V F]. split; [exact F|]. rewrite V, Rabs_R0. apply bpow_ge_0. }
  destruct (of_Z64_ok 1 ltac:(lia)) as [V1 F1]. destruct (of_Z64_ok 10 ltac:(lia)) as [V10 F10].
  split; (split; [exact Z|split; [|discriminate]]).
  - split; [exact F1|]. cbn [f_proc f1_new d_of_Z ieee]. rewrite V1, Rabs_pos_eq; lra.
  - assert (B : Rabs (val (of_Z64 1) / val (of_Z64 10)) <= bpow radix2 0) by (rewrite V1, V10; change (bpow radix2 0) with 1; rewrite Rabs_pos_eq; lra).
    destruct (div64_ok (of_Z64 1) (of_Z64 10) 0 F1 ltac:(rewrite V10; lra) ltac:(lia) B) as [E F]. split; [exact F|].
    cbn [f_proc f1_new]. unfold tenth. cbn [d_div d_of_Z ieee]. rewrite E. apply rnd_le; [apply fmt_1|exact B].
Qed.
(** ** Two poses without uncertainty and with the same stamp *)
Definition is_zero (x : b64) : Prop := exists s, x = B754_zero s.
Lemma zero_of_val x : fin x -> val x = 0 -> is_zero x.
Proof.
  intros F V. destruct x as [s|s| |s m e H]; try discriminate F; [exists s; reflexivity|]. exfalso. unfold val, B2R in V.
  apply eq_0_F2R in V. destruct s; discriminate V.
Qed.
Lemma zero_mul x y : is_zero x -> fin y -> is_zero (mul64 x y).
Proof. intros [s ->] F. destruct y as [t|t| |t m e H]; try discriminate F; eexists; reflexivity. Qed.
Lemma mul_zero x y : fin x -> is_zero y -> is_zero (mul64 x y).
Proof. intros F [s ->]. destruct x as [t|t| |t m e H]; try discriminate F; eexists; reflexivity. Qed.
Lemma zero_add x y : is_zero x -> is_zero y -> is_zero (add64 x y).
Proof. intros [s ->] [t ->]. destruct s, t; eexists; reflexivity. Qed.
Lemma zero_sqrt x : is_zero x -> is_zero (sqrt64 x).
Proof. intros [s ->]. exists s. reflexivity. Qed.
Lemma zero_fin x : is_zero x -> fin x. Proof. intros [s ->]. reflexivity. Qed.
Lemma zero_div x y : is_zero x -> is_zero y -> is_nan (div64 x y) = true.
Proof. intros [s ->] [t ->]. reflexivity. Qed.
Lemma no_time : is_zero (seconds A 0).
Proof.
  unfold seconds. cbn [d_div d_of_Z ieee]. destruct (of_Z64_ok 0 ltac:(lia)) as [V0 F0]. destruct (of_Z64_ok 1000000000 ltac:(lia)) as [V1 F1].
  assert (B : Rabs (val (of_Z64 0) / val (of_Z64 1000000000)) <= bpow radix2 0) by (rewrite V0, V1; unfold Rdiv; rewrite Rmult_0_l, Rabs_R0; apply bpow_ge_0).
  destruct (div64_ok (of_Z64 0) (of_Z64 1000000000) 0 F0 ltac:(rewrite V1; lra) ltac:(lia) B) as [E F]. apply zero_of_val; [exact F|]. rewrite E, V0. unfold Rdiv. rewrite Rmult_0_l. apply rnd_0.
Qed.
Lemma certain (f : filter1d A) (obs r : b64) t : is_zero r ->
  let f' := f1_update A f obs r t in f_init _ f' = true /\ (is_nan (f_x _ f' : b64) = true \/ is_zero (f_stddev _ f')).
Proof.
  intros [s ->]. unfold f1_update. destruct (f_init _ f) eqn:I; [|split; [reflexivity|right; exists s; reflexivity]].
  cbv zeta. split; [reflexivity|]. cbn [f_x f_stddev]. cbn [d_mul d_add d_sub d_div d_sqrt d_of_Z ieee].
  set (sd := sqrt64 _). assert (Z : is_zero (mul64 (B754_zero s) (B754_zero s))) by (eexists; reflexivity). set (b := mul64 (B754_zero s) (B754_zero s)) in *.
  destruct (mul64 sd sd) as [u|u| |u m e H] eqn:EA.
  - left. apply nan_add_r, nan_mul_l, zero_div; [eexists; reflexivity|]. apply zero_add; [eexists; reflexivity|exact Z].
  - left. apply nan_add_r, nan_mul_l. destruct Z as [w ->]. reflexivity.
  - left. apply nan_add_r, nan_mul_l. destruct Z as [w ->]. reflexivity.
  - right. set (a := B754_finite u m e H) in *. assert (Fa : fin a) by reflexivity. assert (Na : val a <> 0) by (intros V; destruct (zero_of_val a Fa V) as [w W]; discriminate W).
    assert (Fsd : fin sd) by (destruct sd as [w|w| |w m' e' H']; try reflexivity; exfalso; (destruct w; discriminate EA) || discriminate EA).
    destruct Z as [w ->]. replace (add64 a (B754_zero w)) with a by reflexivity.
    assert (B : Rabs (val a / val a) <= bpow radix2 0) by (unfold Rdiv; rewrite Rinv_r by exact Na; rewrite Rabs_R1; apply Rle_refl).
    destruct (div64_ok a a 0 Fa Na ltac:(lia) B) as [E F]. unfold Rdiv in E. rewrite Rinv_r in E by exact Na. rewrite (rnd_exact 1 fmt_1) in E.
    destruct (of_Z64_ok 1 ltac:(lia)) as [V1 F1]. assert (B2 : Rabs (val (of_Z64 1) - val (div64 a a)) <= bpow radix2 0) by (rewrite V1, E, Rminus_eq_0, Rabs_R0; apply bpow_ge_0).
    destruct (sub64_ok (of_Z64 1) (div64 a a) 0 F1 F ltac:(lia) B2) as [E2 F2]. rewrite V1, E, Rminus_eq_0, rnd_0 in E2.
    apply zero_mul; [apply zero_sqrt, zero_of_val; assumption|exact Fsd].
Qed.
Lemma certain_twice (f : filter1d A) (obs obs' r r' : b64) t : fin (f_proc _ f) -> is_zero r -> is_zero r' ->
  let f' := f1_update A (f1_update A f obs r t) obs' r' t in f_init _ f' = true /\ is_nan (f_x _ f' : b64) = true.
Proof.
  intros P R R'. destruct (certain f obs r t R) as [I [N|Z]]; [apply nan_stays; assumption|].
  assert (P' : f_proc _ (f1_update A f obs r t) = f_proc _ f) by (unfold f1_update; destruct (f_init _ f); reflexivity).
  assert (T : f_time _ (f1_update A f obs r t) = t) by (unfold f1_update; destruct (f_init _ f); reflexivity).
  set (g := f1_update A f obs r t) in *. clearbody g. cbv zeta. unfold f1_update. rewrite I. split; [reflexivity|]. cbn [f_x]. rewrite P', T, Z.sub_diag.
  cbn [d_mul d_add d_sub d_div d_sqrt d_of_Z ieee]. apply nan_add_r, nan_mul_l.
  assert (ZP : is_zero (mul64 (f_proc A f) (seconds A 0))) by (apply mul_zero; [exact P|apply no_time]).
  assert (ZS : is_zero (sqrt64 (add64 (mul64 (f_stddev A g) (f_stddev A g)) (mul64 (mul64 (f_proc A f) (seconds A 0)) (mul64 (f_proc A f) (seconds A 0)))))).
  { apply zero_sqrt, zero_add; apply zero_mul; auto using zero_fin. }
  assert (ZA := zero_mul _ _ ZS (zero_fin _ ZS)). apply zero_div; [exact ZA|]. apply zero_add; [exact ZA|]. apply zero_mul; auto using zero_fin.
Qed.
Lemma negative_sqrt x : val x < 0 -> is_nan (sqrt64 x) = true.
Proof.
  intros N. destruct x as [s|s| |s m e H]; try (cbn in N; lra). destruct s; [reflexivity|]. exfalso. unfold val, B2R in N.
  assert (0 < F2R (Float radix2 (Z.pos m) e)) by (apply F2R_gt_0; reflexivity). cbn [cond_Zopp] in N. lra.
Qed.
End Ieee.
