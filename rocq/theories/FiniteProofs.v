(** For finite single-precision coordinates every range and curvature is a finite double,
    so the curvature order is a strict weak order. *)
From Coq Require Import List ZArith Reals Bool Lia Lra Psatz.
From Flocq Require Import Core.
From Flocq Require Import IEEE754.BinarySingleNaN.
From Verif Require Import Base Arith ExtractModel Spec FillProofs LabelProofs OcclusionProofs
  NeighborProofs RingProofs SoftProofs ConvProofs FloatLemmas.
Import ListNotations.
Open Scope R_scope.

Lemma fmt_of_b32 (x : b32) : fmt (B2R x).
Proof.
  unfold fmt. rewrite fexp_eq.
  apply (generic_inclusion_mag radix2 (SpecFloat.fexp 24 128)).
  - intros _. change (SpecFloat.fexp 24 128) with (FLT_exp (-149) 24). unfold FLT_exp. lia.
  - apply generic_format_B2R.
Qed.

Lemma conv64_ok (x : b32) : is_finite x = true -> val (conv64 x) = B2R x /\ fin (conv64 x).
Proof.
  intros H. pose proof (fmt_of_b32 x) as HF. pose proof (abs_B2R_lt_emax 24 128 x) as HB.
  destruct x as [s|s| |s mx ex Hx]; try discriminate; [split; auto|].
  unfold conv64. pose proof (binary_normalize_correct 53 1024 prec64 emax64 mode_NE
    (cond_Zopp s (Zpos mx)) ex s) as C. cbv zeta in C.
  change (round_mode mode_NE) with ZnearestE in C.
  change (F2R {| Fnum := cond_Zopp s (Zpos mx); Fexp := ex |}) with (B2R (B754_finite s mx ex Hx)) in C.
  fold (rnd (B2R (B754_finite s mx ex Hx))) in C. rewrite rnd_exact in C by auto.
  rewrite Rlt_bool_true in C.
  - destruct C as [C1 [C2 _]]. split; auto.
  - eapply Rlt_trans; [exact HB|]. apply bpow_lt. lia.
Qed.

Lemma conv64_bound (x : b32) : is_finite x = true -> Rabs (val (conv64 x)) <= bpow radix2 128.
Proof.
  intros H. destruct (conv64_ok x H) as [-> _]. left. apply (abs_B2R_lt_emax 24 128).
Qed.

Lemma Rabs_mult_le a b x y : Rabs a <= x -> Rabs b <= y -> Rabs (a * b) <= x * y.
Proof. intros. rewrite Rabs_mult. apply Rmult_le_compat; auto using Rabs_pos. Qed.

Lemma sqr_ok x : fin x -> Rabs (val x) <= bpow radix2 200 ->
  val (mul64 x x) = rnd (val x * val x) /\ fin (mul64 x x) /\ 0 <= val (mul64 x x).
Proof.
  intros Hx Hb. destruct (mul64_ok x x 400 Hx Hx) as [H1 H2]; [lia| |].
  - change 400%Z with (200 + 200)%Z. rewrite bpow_plus. apply Rabs_mult_le; auto.
  - split; auto. split; auto. rewrite H1.
    replace 0 with (rnd 0). { apply rnd_mono. nra. }
    apply rnd_exact. apply (fmt_IZR 0). simpl. lia.
Qed.

Lemma sqrt64_ok x : fin x -> 0 <= val x ->
  val (sqrt64 x) = rnd (sqrt (val x)) /\ fin (sqrt64 x).
Proof.
  intros Hx Hp. pose proof (Bsqrt_correct 53 1024 prec64 emax64 mode_NE x) as C.
  change (round_mode mode_NE) with ZnearestE in C. destruct C as [C1 [C2 _]].
  split; auto. unfold fin, sqrt64. rewrite C2. destruct x as [s|s| |s mx ex Hm]; auto; try discriminate.
  destruct s; auto. exfalso. unfold val in Hp. simpl in Hp.
  assert (F2R (Float radix2 (Zneg mx) ex) < 0)%R by (apply F2R_lt_0; simpl; lia).
  simpl in H. lra.
Qed.

Section Norm.
Variable acosf : b64 -> b64.
Notation A := (ieee acosf).

Lemma xy_norm_ok x y : fin x -> fin y ->
  Rabs (val x) <= bpow radix2 128 -> Rabs (val y) <= bpow radix2 128 ->
  val (xy_norm A x y) = rnd (sqrt (rnd (rnd (val x * val x) + rnd (val y * val y)))) /\
  fin (xy_norm A x y) /\ 0 <= val (xy_norm A x y) <= bpow radix2 129.
Proof.
  intros Hx Hy Bx By. unfold xy_norm. cbn [ieee d_sqrt d_add d_mul].
  assert (B200 : bpow radix2 128 <= bpow radix2 200) by (apply bpow_le; lia).
  destruct (sqr_ok x Hx) as [X1 [X2 X3]]; [lra|]. destruct (sqr_ok y Hy) as [Y1 [Y2 Y3]]; [lra|].
  assert (Bsq : forall v, Rabs v <= bpow radix2 128 -> 0 <= rnd (v * v) <= bpow radix2 256).
  { intros v Hv. apply rnd_between.
    - apply (fmt_IZR 0). simpl. lia.
    - apply fmt_bpow. lia.
    - split; [nra|]. change 256%Z with (128 + 128)%Z. rewrite bpow_plus.
      eapply Rle_trans; [apply Rle_abs|]. apply Rabs_mult_le; auto. }
  pose proof (Bsq _ Bx) as Sx. pose proof (Bsq _ By) as Sy.
  assert (HS : 0 <= val (mul64 x x) + val (mul64 y y) <= bpow radix2 257).
  { rewrite X1, Y1. change 257%Z with (1 + 256)%Z. rewrite bpow_plus.
    change (bpow radix2 1) with 2. lra. }
  destruct (add64_ok (mul64 x x) (mul64 y y) 257 X2 Y2) as [S1 S2]; [lia|rewrite Rabs_pos_eq; lra|].
  assert (HS2 : 0 <= rnd (val (mul64 x x) + val (mul64 y y)) <= bpow radix2 257).
  { apply rnd_between; auto; [apply (fmt_IZR 0); simpl; lia|apply fmt_bpow; lia]. }
  destruct (sqrt64_ok (add64 (mul64 x x) (mul64 y y))) as [Q1 Q2]; auto; [rewrite S1; lra|].
  split; [rewrite Q1, S1, X1, Y1; auto|]. split; auto.
  rewrite Q1, S1. apply rnd_between.
  - apply (fmt_IZR 0). simpl. lia.
  - apply fmt_bpow. lia.
  - split; [apply sqrt_pos|].
    eapply Rle_trans; [apply sqrt_le_1_alt; apply HS2|].
    rewrite <- (sqrt_square (bpow radix2 129)) by apply bpow_ge_0.
    apply sqrt_le_1_alt. rewrite <- bpow_plus. apply bpow_le. lia.
Qed.

(** ** Sums *)
Definition U := bpow radix2 161.

Lemma fmt_kU k : (0 <= k <= 2 ^ 53)%Z -> fmt (IZR k * U).
Proof.
  intros H. destruct (Z.eq_dec k (2 ^ 53)) as [->|Hn].
  - unfold U. change (IZR (2 ^ 53)) with (bpow radix2 53). rewrite <- bpow_plus.
    apply fmt_bpow. lia.
  - unfold fmt. rewrite fexp_eq. apply generic_format_FLT.
    apply FLT_spec with (f := Float radix2 k 161); simpl.
    + reflexivity.
    + change (Z.pow_pos 2 53) with (2 ^ 53)%Z. lia.
    + lia.
Qed.

Lemma sum_step s x w k : fin s -> fin x -> fin w -> (0 <= k < 2 ^ 53 - 1)%Z ->
  Rabs (val s) <= IZR k * U -> Rabs (val x) <= bpow radix2 129 -> Rabs (val w) <= bpow radix2 32 ->
  fin (add64 s (mul64 x w)) /\ Rabs (val (add64 s (mul64 x w))) <= IZR (k + 1) * U.
Proof.
  intros Hs Hx Hw Hk Bs Bx Bw.
  assert (Bxw : Rabs (val x * val w) <= U).
  { unfold U. change 161%Z with (129 + 32)%Z. rewrite bpow_plus. apply Rabs_mult_le; auto. }
  destruct (mul64_ok x w 161 Hx Hw) as [M1 M2]; [lia|auto|].
  assert (Bm : Rabs (val (mul64 x w)) <= U).
  { rewrite M1. apply rnd_le; auto. apply fmt_bpow. lia. }
  assert (Bsum : Rabs (val s + val (mul64 x w)) <= IZR (k + 1) * U).
  { eapply Rle_trans; [apply Rabs_triang|]. rewrite plus_IZR. lra. }
  assert (Bk : IZR (k + 1) * U <= bpow radix2 214).
  { unfold U. change 214%Z with (53 + 161)%Z. rewrite bpow_plus.
    apply Rmult_le_compat_r; [apply bpow_ge_0|]. change (bpow radix2 53) with (IZR (2 ^ 53)).
    apply IZR_le. lia. }
  destruct (add64_ok s (mul64 x w) 214 Hs M2) as [S1 S2]; [lia|lra|].
  split; auto. rewrite S1. apply rnd_le; auto. apply fmt_kU. lia.
Qed.

Lemma weight_ok p k : (Z.of_nat p < 2 ^ 31)%Z ->
  fin (weight_at A p k) /\ Rabs (val (weight_at A p k)) <= bpow radix2 32.
Proof.
  intros Hp. unfold weight_at. destruct (k =? p)%nat.
  - cbn [ieee d_mul d_of_Z]. destruct (of_Z64_ok (-2)) as [T1 T2]; [simpl; lia|].
    destruct (of_Z64_ok (Z.of_nat p)) as [P1 P2]; [lia|].
    assert (Hb : Rabs (val (of_Z64 (-2)) * val (of_Z64 (Z.of_nat p))) <= bpow radix2 32).
    { rewrite T1, P1, <- mult_IZR, <- abs_IZR. change (bpow radix2 32) with (IZR (2 ^ 32)).
      apply IZR_le. lia. }
    destruct (mul64_ok (of_Z64 (-2)) (of_Z64 (Z.of_nat p)) 32) as [M1 M2]; auto; [lia|].
    split; auto. rewrite M1. apply rnd_le; auto. apply fmt_bpow. lia.
  - cbn [ieee d_mul d_of_Z]. destruct (of_Z64_ok 1) as [T1 T2]; [simpl; lia|]. split; auto. rewrite T1, Rabs_pos_eq by lra.
    change (bpow radix2 32) with (IZR (2 ^ 32)). apply IZR_le. lia.
Qed.

Definition range_like (x : b64) : Prop := fin x /\ Rabs (val x) <= bpow radix2 129.

Lemma zero_range_like : range_like (of_Z64 0).
Proof.
  destruct (of_Z64_ok 0) as [H1 H2]; [simpl; lia|]. split; auto. rewrite H1, Rabs_R0. apply bpow_ge_0.
Qed.

Lemma nth_range_like l k : Forall range_like l -> range_like (nth k l (of_Z64 0)).
Proof.
  intros H. revert k. induction H; intros k; destruct k; simpl; auto; apply zero_range_like.
Qed.

Lemma curv_sum_ok p (ranges : list b64) i : Forall range_like ranges ->
  (Z.of_nat p < 2 ^ 31)%Z ->
  fin (curv_sum A p ranges i) /\ Rabs (val (curv_sum A p ranges i)) <= bpow radix2 200.
Proof.
  intros HF Hp. unfold curv_sum.
  assert (G : forall l s k, fin s -> (0 <= k)%Z -> (k + Z.of_nat (length l) < 2 ^ 53 - 1)%Z ->
    Rabs (val s) <= IZR k * U ->
    let r := fold_left (fun s k => d_add A s (d_mul A (nth (i + k) ranges (d_of_Z A 0)) (weight_at A p k))) l s in
    fin r /\ Rabs (val r) <= IZR (k + Z.of_nat (length l)) * U).
  { induction l as [|a l IH]; intros s k Hs Hk Hl Hb.
    - simpl. rewrite Z.add_0_r. auto.
    - cbn [fold_left length]. destruct (nth_range_like ranges (i + a) HF) as [N1 N2].
      destruct (weight_ok p a Hp) as [W1 W2].
      destruct (sum_step s (nth (i + a) ranges (of_Z64 0)) (weight_at A p a) k) as [S1 S2]; auto.
      { cbn [length] in Hl. lia. }
      cbn [length] in Hl.
      destruct (IH (add64 s (mul64 (nth (i + a) ranges (of_Z64 0)) (weight_at A p a))) (k + 1)%Z)
        as [I1 I2]; auto; try lia.
      split; auto. replace (k + Z.of_nat (S (length l)))%Z with (k + 1 + Z.of_nat (length l))%Z by lia.
      auto. }
  destruct (of_Z64_ok 0) as [Z1 Z2]; [simpl; lia|].
  destruct (G (seq 0 (2 * p + 1)) (d_of_Z A 0) 0%Z) as [G1 G2].
  - exact Z2.
  - lia.
  - rewrite seq_length. lia.
  - cbn [ieee d_of_Z]. rewrite Z1, Rabs_R0. lra.
  - split; auto. eapply Rle_trans; [exact G2|]. rewrite seq_length. unfold U.
    apply Rle_trans with (bpow radix2 33 * bpow radix2 161).
    + apply Rmult_le_compat_r; [apply bpow_ge_0|]. change (bpow radix2 33) with (IZR (2 ^ 33)).
      apply IZR_le. lia.
    + rewrite <- bpow_plus. apply bpow_le. lia.
Qed.

Lemma curvature_finite p ranges curv : (1 <= p)%nat -> (Z.of_nat p < 2 ^ 31)%Z ->
  Forall range_like ranges -> calc_curvature A ranges (Z.of_nat p) = Ok curv -> Forall fin curv.
Proof.
  intros Hp Hp2 HF H. destruct (Nat.lt_ge_cases (length ranges) (2 * p + 1)) as [Hl|Hl].
  { rewrite curvature_short in H by auto. discriminate. }
  rewrite curvature_ok in H by auto. inversion H; subst; clear H.
  apply Forall_forall. intros v Hv. apply in_map_iff in Hv. destruct Hv as [u [<- Hu]].
  assert (Hu' : fin u /\ Rabs (val u) <= bpow radix2 200).
  { assert (Hz : fin (of_Z64 0) /\ Rabs (val (of_Z64 0)) <= bpow radix2 200).
    { destruct (of_Z64_ok 0) as [H1 H2]; [simpl; lia|]. split; auto. rewrite H1, Rabs_R0. apply bpow_ge_0. }
    apply in_app_or in Hu. destruct Hu as [Hu|Hu]; [apply repeat_spec in Hu; subst; auto|].
    apply in_app_or in Hu. destruct Hu as [Hu|Hu]; [|apply repeat_spec in Hu; subst; auto].
    apply in_map_iff in Hu. destruct Hu as [i [<- _]]. apply curv_sum_ok; auto. }
  destruct Hu' as [H1 H2]. destruct (sqr_ok u H1 H2) as [_ [H3 _]]. exact H3.
Qed.

(** ** Order *)
Lemma finite_orderable (l : list b64) : Forall fin l -> orderable A l.
Proof.
  intros HF l' Hin.
  assert (HF' : forall i x, nth_error l' i = Some x -> fin x).
  { intros i x Hi. apply nth_error_In in Hi. apply Hin in Hi. rewrite Forall_forall in HF. auto. }
  assert (HS : forall i, In i (zrange (length l')) -> exists x, nth_error l' (Z.to_nat i) = Some x /\ fin x).
  { intros i Hi. apply zrange_In in Hi. destruct (nth_error l' (Z.to_nat i)) as [x|] eqn:E.
    - exists x. split; auto. eapply HF'; eauto.
    - apply nth_error_None in E. lia. }
  assert (HB : forall i j x y, nth_error l' (Z.to_nat i) = Some x -> nth_error l' (Z.to_nat j) = Some y ->
    fin x -> fin y -> by_value A l' i j = Rlt_bool (val x) (val y)).
  { intros i j x y Hi Hj Hx Hy. unfold by_value. simpl in *. rewrite Hi, Hj. apply ltb64_ok; auto. }
  split; [|split].
  - intros a Ha. destruct (HS a Ha) as [x [X1 X2]]. rewrite (HB a a x x) by auto.
    apply Rlt_bool_false. lra.
  - intros a b c Ha Hb Hc. destruct (HS a Ha) as [x [X1 X2]], (HS b Hb) as [y [Y1 Y2]], (HS c Hc) as [z [Z1 Z2]].
    rewrite (HB a b x y), (HB b c y z), (HB a c x z) by auto.
    destruct (Rlt_bool_spec (val x) (val y)), (Rlt_bool_spec (val y) (val z)); try discriminate.
    intros _ _. apply Rlt_bool_true. lra.
  - intros a b c Ha Hb Hc. destruct (HS a Ha) as [x [X1 X2]], (HS b Hb) as [y [Y1 Y2]], (HS c Hc) as [z [Z1 Z2]].
    rewrite (HB a b x y), (HB b a y x), (HB b c y z), (HB c b z y), (HB a c x z), (HB c a z x) by auto.
    destruct (Rlt_bool_spec (val x) (val y)), (Rlt_bool_spec (val y) (val x)),
      (Rlt_bool_spec (val y) (val z)), (Rlt_bool_spec (val z) (val y)); try discriminate.
    intros _ _ _ _. split; apply Rlt_bool_false; lra.
Qed.

(** ** Zero norm *)
Lemma rnd_sq_pos v : bpow radix2 (-149) <= Rabs v -> 0 < rnd (v * v).
Proof.
  intros H. apply Rlt_le_trans with (bpow radix2 (-298)); [apply bpow_gt_0|].
  rewrite <- (rnd_exact (bpow radix2 (-298))) by (apply fmt_bpow; lia). apply rnd_mono.
  change (-298)%Z with (-149 + -149)%Z. rewrite bpow_plus.
  replace (v * v) with (Rabs v * Rabs v).
  - pose proof (bpow_ge_0 radix2 (-149)). apply Rmult_le_compat; auto.
  - rewrite <- Rabs_mult. apply Rabs_pos_eq. nra.
Qed.

Lemma b32_min (x : b32) : is_finite x = true -> B2R x <> 0 -> bpow radix2 (-149) <= Rabs (B2R x).
Proof.
  intros H Hn. destruct x as [s|s| |s mx ex Hx]; try discriminate; simpl in Hn; try lra.
  apply (abs_B2R_ge_emin 24 128). reflexivity.
Qed.

Lemma norm_zero (x y : b32) : is_finite x = true -> is_finite y = true ->
  val (xy_norm A (conv64 x) (conv64 y)) = 0 -> B2R x = 0 /\ B2R y = 0.
Proof.
  intros Hx Hy H. destruct (conv64_ok x Hx) as [X1 X2], (conv64_ok y Hy) as [Y1 Y2].
  destruct (xy_norm_ok (conv64 x) (conv64 y)) as [N1 _]; auto using conv64_bound.
  rewrite N1, X1, Y1 in H.
  assert (G : forall v w, bpow radix2 (-149) <= Rabs v -> Rabs v <= bpow radix2 128 ->
     0 <= rnd (w * w) -> rnd (sqrt (rnd (rnd (v * v) + rnd (w * w)))) = 0 -> False).
  { intros v w Hv Hv2 Hw H0.
    assert (Hlow : bpow radix2 (-298) <= rnd (v * v)).
    { rewrite <- (rnd_exact (bpow radix2 (-298))) by (apply fmt_bpow; lia). apply rnd_mono.
      change (-298)%Z with (-149 + -149)%Z. rewrite bpow_plus.
      replace (v * v) with (Rabs v * Rabs v).
      - pose proof (bpow_ge_0 radix2 (-149)). apply Rmult_le_compat; auto.
      - rewrite <- Rabs_mult. apply Rabs_pos_eq. nra. }
    assert (Hs : bpow radix2 (-298) <= rnd (rnd (v * v) + rnd (w * w))).
    { rewrite <- (rnd_exact (bpow radix2 (-298))) by (apply fmt_bpow; lia). apply rnd_mono. lra. }
    assert (Hq : bpow radix2 (-149) <= sqrt (rnd (rnd (v * v) + rnd (w * w)))).
    { rewrite <- (sqrt_square (bpow radix2 (-149))) by apply bpow_ge_0.
      apply sqrt_le_1_alt. rewrite <- bpow_plus. exact Hs. }
    apply rnd_mono in Hq. rewrite rnd_exact in Hq by (apply fmt_bpow; lia).
    pose proof (bpow_gt_0 radix2 (-149)). lra. }
  assert (Hsq : forall v, 0 <= rnd (v * v)).
  { intros v. rewrite <- (rnd_exact 0) by (apply (fmt_IZR 0); simpl; lia). apply rnd_mono. nra. }
  split.
  - destruct (Req_dec (B2R x) 0) as [|Hn]; auto. exfalso.
    apply (G (B2R x) (B2R y)); auto; [apply b32_min; auto|left; apply (abs_B2R_lt_emax 24 128)].
  - destruct (Req_dec (B2R y) 0) as [|Hn]; auto. exfalso.
    apply (G (B2R y) (B2R x)); auto; [apply b32_min; auto|left; apply (abs_B2R_lt_emax 24 128)|].
    rewrite Rplus_comm. auto.
Qed.

End Norm.
