(** Update interval and delay step in doubles. *)
From Coq Require Import List ZArith Bool Lia Lra Reals.
From Flocq Require Import Core IEEE754.BinarySingleNaN.
From Verif Require Import Base Arith FloatLemmas EkfModel.
Open Scope R_scope.

Section Interval.
Variable acosf : b64 -> b64.
Notation A := (ieee acosf).
Notation one := (of_Z64 1).
Notation tenth64 := (tenth A).

Lemma one_ok : val one = 1 /\ fin one.
Proof. apply (of_Z64_ok 1). cbn. lia. Qed.
Lemma tenth_fin : fin tenth64. Proof. vm_compute. reflexivity. Qed.
Lemma tenth_pos : bpow radix2 (-4) <= val tenth64.
Proof.
  assert (L : Bleb (of_me64 1 (-4)) tenth64 = true) by (vm_compute; reflexivity).
  rewrite leb64_ok in L by (vm_compute; reflexivity).
  assert (E : val (of_me64 1 (-4)) = bpow radix2 (-4)).
  { unfold of_me64. pose proof (binary_normalize_correct 53 1024 prec64 emax64 mode_NE 1 (-4) false) as C. cbv zeta in C.
    unfold F2R in C. cbn [Fnum Fexp] in C. rewrite Rmult_1_l in C. change (round_mode mode_NE) with ZnearestE in C. fold (rnd (bpow radix2 (-4))) in C.
    rewrite (rnd_lt_emax _ (-4)) in C; [|lia|lia|rewrite Rabs_pos_eq; [lra|apply bpow_ge_0]]. destruct C as [C _]. unfold val. rewrite C. apply rnd_exact. apply fmt_bpow. lia. }
  rewrite E in L. destruct (Rle_bool_spec (bpow radix2 (-4)) (val tenth64)); [auto|discriminate].
Qed.
Lemma ten_exact : div64 one tenth64 = of_Z64 10.
Proof. apply B2SF_inj. vm_compute. reflexivity. Qed.
Lemma ten_ok : val (of_Z64 10) = 10 /\ fin (of_Z64 10).
Proof. apply (of_Z64_ok 10). cbn. lia. Qed.

Lemma ten_real : rnd (1 / val tenth64) = 10.
Proof.
  pose proof tenth_pos as TP. pose proof (bpow_gt_0 radix2 (-4)).
  destruct (div64_ok one tenth64 10) as [E _]; [apply one_ok|lra|lia| |].
  - rewrite (proj1 one_ok). rewrite Rabs_pos_eq by (apply Rlt_le, Rdiv_lt_0_compat; lra).
    apply Rle_trans with (/ bpow radix2 (-4)); [unfold Rdiv; rewrite Rmult_1_l; apply Rinv_le; lra|]. rewrite <- bpow_opp. apply bpow_le. lia.
  - rewrite ten_exact, (proj1 ten_ok), (proj1 one_ok) in E. auto.
Qed.

(** The interval of a frequency that is neither NaN nor +infinity. *)
Lemma interval_ok f : is_nan f = false -> f <> B754_infinity false ->
  fin (compute_interval A f) /\ 0 < val (compute_interval A f) <= 10.
Proof.
  intros NN NI. unfold compute_interval, d_max. change (D A) with b64 in *. change (d_ltb A) with (@Bltb 53 1024). change (d_div A) with div64. change (d_of_Z A) with of_Z64.
  change b64 with (binary_float 53 1024) in f.
  destruct (Bltb f tenth64) eqn:L.
  - rewrite ten_exact, (proj1 ten_ok). split; [apply ten_ok|lra].
  - assert (FF : fin f).
    { destruct f as [s|s| |s m e B]; try reflexivity; [|discriminate]. destruct s; [vm_compute in L; discriminate|congruence]. }
    rewrite ltb64_ok in L by (auto; apply tenth_fin). destruct (Rlt_bool_spec (val f) (val tenth64)) as [|GE]; [discriminate|]. clear L.
    pose proof tenth_pos as TP. pose proof (bpow_gt_0 radix2 (-4)) as P4.
    assert (U : 1 / val f <= 1 / val tenth64) by (unfold Rdiv; rewrite !Rmult_1_l; apply Rinv_le; lra).
    assert (PF : 0 < 1 / val f) by (apply Rdiv_lt_0_compat; lra).
    assert (TB : 1 / val tenth64 <= bpow radix2 4).
    { apply Rle_trans with (/ bpow radix2 (-4)); [unfold Rdiv; rewrite Rmult_1_l; apply Rinv_le; lra|]. rewrite <- bpow_opp. apply bpow_le. lia. }
    destruct (div64_ok one f 10) as [E FE]; [apply one_ok|lra|lia| |].
    + rewrite (proj1 one_ok), Rabs_pos_eq by lra. apply Rle_trans with (bpow radix2 4); [lra|apply bpow_le; lia].
    + rewrite (proj1 one_ok) in E. split; auto. rewrite E. split.
      * apply Rlt_le_trans with (bpow radix2 (-1024)); [apply bpow_gt_0|]. rewrite <- (rnd_exact (bpow radix2 (-1024))) by (apply fmt_bpow; lia).
        apply rnd_mono. unfold Rdiv. rewrite Rmult_1_l. change (-1024)%Z with (- (1024))%Z. rewrite bpow_opp. apply Rinv_le; [lra|].
        apply Rlt_le. pose proof (abs_B2R_lt_emax 53 1024 f) as BB. fold (val f) in BB. rewrite Rabs_pos_eq in BB by lra. exact BB.
      * rewrite <- ten_real. apply rnd_mono. auto.
Qed.

(** The difference of equal times. *)
Lemma sub_self t : fin t -> sub64 t t = B754_zero false.
Proof.
  intros F. pose proof (Bminus_correct 53 1024 prec64 emax64 mode_NE t t F F) as C. rewrite Rminus_eq_0 in C.
  rewrite round_0 in C by apply valid_rnd_N. rewrite Rabs_R0, Rlt_bool_true in C by apply bpow_gt_0. rewrite Rcompare_Eq in C by auto.
  destruct C as [C1 [C2 C3]]. fold (sub64 t t) in C1, C2, C3. destruct (sub64 t t) as [s|s| |s m e B]; try discriminate.
  - cbn in C3. rewrite C3. destruct (Bsign t); reflexivity.
  - exfalso. cbn in C1. apply eq_0_F2R in C1. destruct s; discriminate C1.
Qed.
Lemma zero_gap df t : fin t -> interval_compute A df (Some t) t = (Ok (B754_zero false), Some t).
Proof.
  intros F. unfold interval_compute. change (D A) with b64 in *. change (d_ltb A) with (@Bltb 53 1024).
  rewrite ltb64_ok, Rlt_bool_false by (auto; lra). change (d_sub A) with sub64. cbv zeta. rewrite sub_self by auto. vm_compute. reflexivity.
Qed.

Lemma gap_ok df l now : fin l -> fin now -> bpow radix2 (-1022) <= val now - val l <= bpow radix2 1023 ->
  exists dt, interval_compute A df (Some l) now = (Ok dt, Some now) /\ fin dt /\ 0 < val dt <= 10.
Proof.
  intros Fl Fn [G1 G2]. unfold interval_compute. change (D A) with b64 in *. change (d_ltb A) with (@Bltb 53 1024).
  pose proof (bpow_gt_0 radix2 (-1022)) as P. rewrite ltb64_ok, Rlt_bool_false by (auto; lra). cbv zeta.
  eexists. split; [reflexivity|]. apply interval_ok; change (d_div A) with div64; change (d_of_Z A) with of_Z64; change (d_sub A) with sub64.
  all: destruct (sub64_ok now l 1023) as [E1 F1]; [auto|auto|lia|rewrite Rabs_pos_eq; lra|].
  all: assert (B1 : bpow radix2 (-1022) <= val (sub64 now l)) by (rewrite E1, <- (rnd_exact (bpow radix2 (-1022))) by (apply fmt_bpow; lia); apply rnd_mono; lra).
  all: destruct (div64_ok one (sub64 now l) 1022) as [E2 F2]; [apply one_ok|lra|lia| |].
  1,3: rewrite (proj1 one_ok); rewrite Rabs_pos_eq by (apply Rlt_le, Rdiv_lt_0_compat; lra); unfold Rdiv; rewrite Rmult_1_l; change 1022%Z with (- (-1022))%Z; rewrite bpow_opp; apply Rinv_le; lra.
  - destruct (div64 one (sub64 now l)); try reflexivity; discriminate.
  - intros EE. unfold fin in F2. rewrite EE in F2. discriminate.
Qed.

(** Clock readings a microsecond apart. *)
Lemma of_Z64_near z : (0 <= z < 2 ^ 61)%Z -> fin (of_Z64 z) /\ Rabs (val (of_Z64 z) - IZR z) <= 256 /\ 0 <= val (of_Z64 z) <= bpow radix2 61.
Proof.
  intros H. pose proof (binary_normalize_correct 53 1024 prec64 emax64 mode_NE z 0 false) as C. cbv zeta in C. unfold F2R in C. cbn [Fnum Fexp] in C.
  change (bpow radix2 0) with 1 in C. rewrite Rmult_1_r in C. change (round_mode mode_NE) with ZnearestE in C. fold (rnd (IZR z)) in C.
  assert (B : 0 <= IZR z <= bpow radix2 61) by (split; [apply IZR_le; lia|change (bpow radix2 61) with (IZR (2 ^ 61)); apply IZR_le; lia]).
  assert (BA : Rabs (IZR z) <= bpow radix2 61) by (rewrite Rabs_pos_eq; lra).
  rewrite (rnd_lt_emax _ 61) in C by (auto; lia). destruct C as [C1 [C2 _]]. change (val (of_Z64 z) = rnd (IZR z)) in C1. split; [exact C2|]. rewrite C1. split.
  - pose proof (rnd_err (IZR z) 61 ltac:(lia) BA) as E. change (bpow radix2 (61 - 53)) with 256 in E. lra.
  - split; [rewrite <- (rnd_exact 0) by (unfold fmt; apply generic_format_0); apply rnd_mono; lra|].
    rewrite <- (rnd_exact (bpow radix2 61)) by (apply fmt_bpow; lia). apply rnd_mono; lra.
Qed.
Lemma seconds_near t : (0 <= t < 2 ^ 61)%Z -> fin (seconds A t) /\ Rabs (val (seconds A t) - IZR t / 1000000000) <= 256 / 1000000000 + bpow radix2 (-21) /\ 0 <= val (seconds A t) <= bpow radix2 32.
Proof.
  intros H. unfold seconds. change (d_div A) with div64. change (d_of_Z A) with of_Z64.
  destruct (of_Z64_near t H) as [F1 [E1 B1]]. destruct (of_Z64_ok 1000000000 ltac:(cbn; lia)) as [V9 F9].
  assert (Q : 0 <= val (of_Z64 t) / 1000000000 <= bpow radix2 32).
  { split; [apply Rmult_le_pos; lra|]. apply Rmult_le_reg_r with 1000000000; [lra|]. unfold Rdiv. rewrite Rmult_assoc, Rinv_l, Rmult_1_r by lra.
    change (bpow radix2 32) with (IZR (2 ^ 32)). change (bpow radix2 61) with (IZR (2 ^ 61)) in B1. rewrite <- mult_IZR. apply Rle_trans with (IZR (2 ^ 61)); [lra|apply IZR_le; lia]. }
  assert (QA : Rabs (val (of_Z64 t) / val (of_Z64 1000000000)) <= bpow radix2 32) by (rewrite V9, Rabs_pos_eq; lra).
  destruct (div64_ok (of_Z64 t) (of_Z64 1000000000) 32 F1 ltac:(lra) ltac:(lia) QA) as [E F].
  split; auto. rewrite V9 in *. change (D A) with b64. rewrite E. split.
  - pose proof (rnd_err (val (of_Z64 t) / 1000000000) 32 ltac:(lia) QA) as E2. change (32 - 53)%Z with (-21)%Z in E2.
    replace (rnd (val (of_Z64 t) / 1000000000) - IZR t / 1000000000) with ((rnd (val (of_Z64 t) / 1000000000) - val (of_Z64 t) / 1000000000) + (val (of_Z64 t) - IZR t) / 1000000000) by (unfold Rdiv; ring).
    eapply Rle_trans; [apply Rabs_triang|]. assert (Rabs ((val (of_Z64 t) - IZR t) / 1000000000) <= 256 / 1000000000); [|lra].
    unfold Rdiv. rewrite Rabs_mult, (Rabs_pos_eq (/ 1000000000)) by lra. apply Rmult_le_compat_r; lra.
  - apply rnd_between; auto; [unfold fmt; apply generic_format_0|apply fmt_bpow; lia].
Qed.
Lemma clock_ok df t0 t1 : (0 <= t0)%Z -> (t0 + 2000 <= t1)%Z -> (t1 < 2 ^ 61)%Z ->
  exists dt, interval_compute A df (Some (seconds A t0)) (seconds A t1) = (Ok dt, Some (seconds A t1)) /\ fin dt /\ 0 < val dt <= 10.
Proof.
  intros H0 H1 H2. destruct (seconds_near t0 ltac:(lia)) as [F0 [E0 B0]]. destruct (seconds_near t1 ltac:(lia)) as [F1 [E1 B1]].
  apply gap_ok; auto. assert (D1 : IZR t0 / 1000000000 + 2000 / 1000000000 <= IZR t1 / 1000000000).
  { unfold Rdiv. rewrite <- Rmult_plus_distr_r, <- plus_IZR. apply Rmult_le_compat_r; [lra|]. apply IZR_le. lia. }
  apply Rabs_le_inv in E0, E1. assert (P21 : bpow radix2 (-21) = / 2097152) by reflexivity. rewrite P21 in *. split.
  - apply Rle_trans with (bpow radix2 (-24)); [apply bpow_le; lia|]. change (bpow radix2 (-24)) with (/ 16777216). lra.
  - apply Rle_trans with (bpow radix2 32); [lra|apply bpow_le; lia].
Qed.
End Interval.

(** ** Delay step *)
(** Rounding to float. *)
Definition rnd32 (x : R) : R := round radix2 (SpecFloat.fexp 24 128) ZnearestE x.
#[export] Instance vexp32 : Valid_exp (SpecFloat.fexp 24 128).
Proof. apply (fexp_correct 24 128). reflexivity. Qed.
Lemma fexp32_eq : SpecFloat.fexp 24 128 = FLT_exp (-149) 24. Proof. reflexivity. Qed.
Lemma rnd32_mono x y : x <= y -> rnd32 x <= rnd32 y.
Proof. intros H. apply round_le; auto. apply vexp32. apply valid_rnd_N. Qed.
Lemma rnd32_0 : rnd32 0 = 0. Proof. apply round_0. apply valid_rnd_N. Qed.
Lemma rnd32_bpow e : (-149 <= e <= 127)%Z -> rnd32 (bpow radix2 e) = bpow radix2 e.
Proof. intros H. apply round_generic; [apply valid_rnd_N|]. rewrite fexp32_eq. apply generic_format_FLT_bpow; [reflexivity|lia]. Qed.
#[export] Instance mexp32 : Monotone_exp (SpecFloat.fexp 24 128).
Proof. rewrite fexp32_eq. apply FLT_exp_monotone. Qed.
Lemma rnd32_err x k : (-100 <= k)%Z -> Rabs x <= bpow radix2 k -> Rabs (rnd32 x - x) <= bpow radix2 (k - 24).
Proof.
  intros Hk H. unfold rnd32. eapply Rle_trans; [apply error_le_half_ulp; apply vexp32|].
  assert (Hu : ulp radix2 (SpecFloat.fexp 24 128) x <= bpow radix2 (k - 23)).
  { eapply Rle_trans; [apply ulp_le with (y := bpow radix2 k); try apply vexp32; try apply mexp32|].
    - rewrite (Rabs_pos_eq (bpow radix2 k)) by apply bpow_ge_0. auto.
    - rewrite ulp_bpow. apply bpow_le. rewrite fexp32_eq. unfold FLT_exp. lia. }
  replace (k - 24)%Z with ((k - 23) + -1)%Z by lia. rewrite bpow_plus. change (bpow radix2 (-1)) with (/ 2). lra.
Qed.

Lemma conv32_finite (x : b64) : is_finite (conv32 x) = true -> fin x /\ B2R (conv32 x) = rnd32 (val x).
Proof.
  destruct x as [s|s| |s m e B]; try discriminate; intros H; split; try reflexivity.
  - cbn. symmetry. apply rnd32_0.
  - cbn [conv32] in *. pose proof (binary_normalize_correct 24 128 prec32 emax32 mode_NE (cond_Zopp s (Zpos m)) e s) as C. cbv zeta in C.
    change (round_mode mode_NE) with ZnearestE in C. destruct (Rlt_bool _ _).
    + destruct C as [C _]. rewrite C. reflexivity.
    + exfalso. destruct (binary_normalize 24 128 prec32 emax32 mode_NE (cond_Zopp s (Zpos m)) e s); try discriminate H; cbn in C; unfold binary_overflow in C; cbn in C; destruct (Rlt_bool _ _); discriminate C.
Qed.
Lemma conv32_ok (x : b64) k : fin x -> (k < 128)%Z -> (-100 <= k)%Z -> Rabs (val x) <= bpow radix2 k -> is_finite (conv32 x) = true.
Proof.
  destruct x as [s|s| |s m e B]; try discriminate; try reflexivity. intros _ K1 K2 H. cbn [conv32].
  pose proof (binary_normalize_correct 24 128 prec32 emax32 mode_NE (cond_Zopp s (Zpos m)) e s) as C. cbv zeta in C.
  change (round_mode mode_NE) with ZnearestE in C. rewrite Rlt_bool_true in C; [destruct C as [_ [C _]]; exact C|].
  eapply Rle_lt_trans; [apply abs_round_le_generic with (y := bpow radix2 k)|apply bpow_lt; exact K1]; [apply vexp32|apply valid_rnd_N| |exact H].
  rewrite fexp32_eq. apply generic_format_FLT_bpow; [reflexivity|lia].
Qed.
Lemma round_FIX0 rnd0 x : round radix2 (FIX_exp 0) rnd0 x = IZR (rnd0 x).
Proof. unfold round, scaled_mantissa, cexp, FIX_exp, F2R. simpl. rewrite !Rmult_1_r. auto. Qed.
Lemma roundf64_some x z : roundf64 x = Some z -> fin x /\ is_finite (conv32 x) = true /\ z = ZnearestA (rnd32 (val x)).
Proof.
  unfold roundf64. intros H. assert (F : is_finite (conv32 x) = true) by (destruct (conv32 x); try discriminate; reflexivity).
  destruct (conv32_finite x F) as [FX E]. split; auto. split; auto.
  assert (G : z = Btrunc (@Bnearbyint 24 128 emax32 mode_NA (conv32 x))) by (destruct (conv32 x); congruence). rewrite G.
  apply eq_IZR. rewrite (Btrunc_correct 24 128 emax32). destruct (Bnearbyint_correct 24 128 emax32 mode_NA (conv32 x)) as [N _]. rewrite N, !round_FIX0, Ztrunc_IZR, E. reflexivity.
Qed.
Lemma roundf64_ok x k : fin x -> (-100 <= k < 128)%Z -> Rabs (val x) <= bpow radix2 k -> roundf64 x = Some (ZnearestA (rnd32 (val x))).
Proof.
  intros F K H. pose proof (conv32_ok x k F ltac:(lia) ltac:(lia) H) as C. unfold roundf64.
  assert (G : Some (Btrunc (@Bnearbyint 24 128 emax32 mode_NA (conv32 x))) = Some (ZnearestA (rnd32 (val x)))).
  { f_equal. apply eq_IZR. rewrite (Btrunc_correct 24 128 emax32). destruct (Bnearbyint_correct 24 128 emax32 mode_NA (conv32 x)) as [N _].
    rewrite N, !round_FIX0, Ztrunc_IZR, (proj2 (conv32_finite x C)). reflexivity. }
  destruct (conv32 x); auto; discriminate.
Qed.

Section Delay.
Variable acosf : b64 -> b64.
Notation A := (ieee acosf).
Notation delay_step := (compute_delay_step A roundf64).

Lemma zero_ok : val (of_Z64 0) = 0 /\ fin (of_Z64 0).
Proof. apply (of_Z64_ok 0). cbn. lia. Qed.
Lemma d_max_ok x : fin x -> fin (d_max A x (of_Z64 0)) /\ val (d_max A x (of_Z64 0)) = Rmax (val x) 0.
Proof.
  intros F. unfold d_max. change (d_ltb A) with (@Bltb 53 1024). rewrite ltb64_ok by (auto; apply zero_ok). rewrite (proj1 zero_ok).
  destruct (Rlt_bool_spec (val x) 0) as [L|L]; [rewrite (proj1 zero_ok), Rmax_right by lra; split; auto; apply zero_ok|rewrite Rmax_left by lra; auto].
Qed.
Lemma div_finite (x y : b64) : val y <> 0 -> fin (div64 x y) -> val (div64 x y) = rnd (val x / val y).
Proof.
  intros Y F. pose proof (Bdiv_correct 53 1024 prec64 emax64 mode_NE x y Y) as C. change (round_mode mode_NE) with ZnearestE in C. fold (val x) (val y) in C.
  fold (rnd (val x / val y)) in C. destruct (Rlt_bool _ _); [apply C|].
  exfalso. unfold fin in F. change (Bdiv mode_NE x y) with (div64 x y) in C. destruct (div64 x y); try discriminate F; cbn in C; unfold binary_overflow in C; cbn in C; destruct (xorb _ _); discriminate C.
Qed.
Lemma delay_some (delay dt : b64) z : fin delay -> 0 < val dt -> delay_step delay dt = Ok z ->
  z = ZnearestA (rnd32 (rnd (Rmax (val delay) 0 / val dt))).
Proof.
  intros F P. unfold compute_delay_step. change (d_of_Z A) with of_Z64. change (d_div A) with div64.
  destruct (roundf64 (div64 (d_max A delay (of_Z64 0)) dt)) as [z'|] eqn:E; [|discriminate]. destruct (_ && _); intros H; [|discriminate]. injection H as ->.
  destruct (roundf64_some _ _ E) as [F1 [_ G]]. rewrite G. f_equal. f_equal. destruct (d_max_ok delay F) as [_ E1]. rewrite <- E1. apply div_finite; auto. lra.
Qed.
Lemma ZnearestA_mono x y : x <= y -> (ZnearestA x <= ZnearestA y)%Z.
Proof. intros H. apply (Zrnd_le ZnearestA). auto. Qed.
Lemma ZnearestA_IZR z : ZnearestA (IZR z) = z.
Proof. apply (Zrnd_IZR ZnearestA). Qed.
Lemma quot_nonneg delay dt : 0 < dt -> 0 <= Rmax delay 0 / dt.
Proof. intros H. apply Rmult_le_pos; [apply Rmax_r|]. left. apply Rinv_0_lt_compat. auto. Qed.
Lemma rnd_0 : rnd 0 = 0. Proof. apply round_0. apply valid_rnd_N. Qed.
Lemma rnd_nonneg x : 0 <= x -> 0 <= rnd x. Proof. intros H. rewrite <- rnd_0. apply rnd_mono. auto. Qed.

Lemma delay_nonneg delay dt z : fin delay -> 0 < val dt -> delay_step delay dt = Ok z -> (0 <= z)%Z.
Proof.
  intros F P E. apply delay_some in E; auto. rewrite E. apply Z.le_trans with (ZnearestA (IZR 0)); [rewrite ZnearestA_IZR; lia|]. apply ZnearestA_mono. apply Rle_trans with (rnd32 0); [rewrite rnd32_0; lra|]. apply rnd32_mono. apply rnd_nonneg. apply quot_nonneg. auto.
Qed.
Lemma delay_mono d1 d2 dt z1 z2 : fin d1 -> fin d2 -> 0 < val dt -> val d1 <= val d2 -> delay_step d1 dt = Ok z1 -> delay_step d2 dt = Ok z2 -> (z1 <= z2)%Z.
Proof.
  intros F1 F2 P L E1 E2. apply delay_some in E1, E2; auto. rewrite E1, E2. apply ZnearestA_mono, rnd32_mono, rnd_mono.
  apply Rmult_le_compat_r; [left; apply Rinv_0_lt_compat; auto|]. apply Rmax_case_strong; intros; apply Rmax_case_strong; intros; lra.
Qed.
Lemma delay_near delay dt z k : fin delay -> 0 < val dt -> (0 <= k <= 31)%Z -> Rmax (val delay) 0 / val dt <= bpow radix2 k -> delay_step delay dt = Ok z ->
  Rabs (IZR z - Rmax (val delay) 0 / val dt) <= / 2 + bpow radix2 (k - 23).
Proof.
  intros F P K B E. apply delay_some in E; auto. pose proof (quot_nonneg (val delay) (val dt) P) as Q. set (q := Rmax (val delay) 0 / val dt) in *.
  assert (B1 : Rabs q <= bpow radix2 k) by (rewrite Rabs_pos_eq; auto).
  pose proof (rnd_err q k ltac:(lia) B1) as E1.
  assert (B2 : Rabs (rnd q) <= bpow radix2 k).
  { rewrite Rabs_pos_eq by (apply rnd_nonneg; auto). rewrite <- (rnd_exact (bpow radix2 k)) by (apply fmt_bpow; lia). apply rnd_mono; auto. }
  pose proof (rnd32_err (rnd q) k ltac:(lia) B2) as E2. pose proof (Znearest_half (Z.leb 0) (rnd32 (rnd q))) as E3. rewrite E.
  assert (C1 : bpow radix2 (k - 53) <= bpow radix2 (k - 24)) by (apply bpow_le; lia).
  assert (C2 : bpow radix2 (k - 23) = 2 * bpow radix2 (k - 24)).
  { replace (k - 23)%Z with (1 + (k - 24))%Z by lia. rewrite bpow_plus. reflexivity. }
  apply Rabs_le_inv in E1, E2, E3. apply Rabs_le. change (ZnearestA (rnd32 (rnd q))) with (Znearest (Z.leb 0) (rnd32 (rnd q))). lra.
Qed.
(** Defined as long as the quotient is below 2^30. *)
Lemma delay_defined delay dt : fin delay -> 0 < val dt -> Rmax (val delay) 0 / val dt <= bpow radix2 30 -> exists z, delay_step delay dt = Ok z.
Proof.
  intros F P B. pose proof (quot_nonneg (val delay) (val dt) P) as Q. destruct (d_max_ok delay F) as [F1 E1].
  destruct (div64_ok (d_max A delay (of_Z64 0)) dt 30) as [E2 F2]; [auto|lra|lia|rewrite E1, Rabs_pos_eq; auto|]. rewrite E1 in E2.
  assert (R0 : 0 <= rnd (Rmax (val delay) 0 / val dt)) by (apply rnd_nonneg; auto).
  assert (R1 : rnd (Rmax (val delay) 0 / val dt) <= bpow radix2 30) by (rewrite <- (rnd_exact (bpow radix2 30)) by (apply fmt_bpow; lia); apply rnd_mono; auto).
  unfold compute_delay_step. change (d_of_Z A) with of_Z64. change (d_div A) with div64.
  rewrite (roundf64_ok _ 30) by (auto; try lia; rewrite E2, Rabs_pos_eq; auto). rewrite E2.
  set (r := rnd32 (rnd (Rmax (val delay) 0 / val dt))).
  assert (R2 : 0 <= r) by (apply Rle_trans with (rnd32 0); [rewrite rnd32_0; lra|]; apply rnd32_mono; auto).
  assert (R3 : r <= bpow radix2 30) by (unfold r; rewrite <- (rnd32_bpow 30) by lia; apply rnd32_mono; auto).
  assert (Z0 : (0 <= ZnearestA r)%Z) by (apply Z.le_trans with (ZnearestA (IZR 0)); [rewrite ZnearestA_IZR; lia|]; apply ZnearestA_mono; auto).
  assert (Z1 : (ZnearestA r <= 2 ^ 30)%Z) by (apply Z.le_trans with (ZnearestA (IZR (2 ^ 30))); [|rewrite ZnearestA_IZR; lia]; apply ZnearestA_mono; exact R3).
  replace ((- 2 ^ 31 <=? ZnearestA r)%Z && (ZnearestA r <? 2 ^ 31)%Z) with true; [eauto|].
  symmetry. apply andb_true_iff. split; [apply Z.leb_le|apply Z.ltb_lt]; lia.
Qed.
(** An interval of zero makes every delay undefined. *)
Lemma delay_zero_dt delay s : fin delay -> delay_step delay (B754_zero s) = UB.
Proof.
  intros F. destruct (d_max_ok delay F) as [F1 _]. unfold compute_delay_step. change (d_of_Z A) with of_Z64. change (d_div A) with div64.
  destruct (d_max A delay (of_Z64 0)) as [s'|s'| |s' m e B]; try discriminate F1; destruct s; try destruct s'; reflexivity.
Qed.
End Delay.
