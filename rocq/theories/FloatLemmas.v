(** Correctness of the double operations of Arith.v in terms of real rounding. *)
From Coq Require Import ZArith Reals Bool Lia Lra Psatz.
From Flocq Require Import Core.
From Flocq Require Import IEEE754.BinarySingleNaN.
From Verif Require Import Base Arith.
From Verif Require Export SpecIeee.
Open Scope R_scope.

Lemma fexp_eq : SpecFloat.fexp 53 1024 = FLT_exp (-1074) 53.
Proof. reflexivity. Qed.

#[export] Instance vexp : Valid_exp (SpecFloat.fexp 53 1024).
Proof. rewrite fexp_eq. apply FLT_exp_valid. reflexivity. Qed.
#[export] Instance mexp : Monotone_exp (SpecFloat.fexp 53 1024).
Proof. rewrite fexp_eq. apply FLT_exp_monotone. Qed.

Lemma rnd_exact x : fmt x -> rnd x = x.
Proof. intros H. apply round_generic; auto. apply valid_rnd_N. Qed.

Lemma rnd_mono x y : x <= y -> rnd x <= rnd y.
Proof. intros H. apply round_le; auto. apply vexp. apply valid_rnd_N. Qed.

Lemma rnd_fmt x : fmt (rnd x).
Proof. apply generic_format_round. apply vexp. apply valid_rnd_N. Qed.

Lemma fmt_val x : fmt (val x).
Proof. apply generic_format_B2R. Qed.

Lemma fmt_IZR z : (Z.abs z <= 2 ^ 53)%Z -> fmt (IZR z).
Proof.
  intros H. destruct (Z.eq_dec (Z.abs z) (2 ^ 53)) as [E|E].
  - assert (Hz : z = (2 ^ 53)%Z \/ z = (- 2 ^ 53)%Z) by lia.
    assert (Hb : fmt (bpow radix2 53)).
    { unfold fmt. rewrite fexp_eq. apply generic_format_FLT_bpow; [reflexivity|lia]. }
    destruct Hz as [-> | ->].
    + exact Hb.
    + rewrite opp_IZR. apply generic_format_opp. exact Hb.
  - unfold fmt. rewrite fexp_eq. apply generic_format_FLT.
    apply FLT_spec with (f := Float radix2 z 0); simpl.
    + unfold F2R. simpl. rewrite Rmult_1_r. auto.
    + change (Z.pow_pos 2 53) with (2 ^ 53)%Z. lia.
    + lia.
Qed.

Lemma rnd_le x b : fmt b -> Rabs x <= b -> Rabs (rnd x) <= b.
Proof.
  intros Hb H. apply abs_round_le_generic; auto.
  - apply vexp. - apply valid_rnd_N.
Qed.

Lemma fmt_bpow e : (-1074 <= e <= 1023)%Z -> fmt (bpow radix2 e).
Proof. intros H. unfold fmt. rewrite fexp_eq. apply generic_format_FLT_bpow; [reflexivity|lia]. Qed.

Lemma rnd_between x a b : fmt a -> fmt b -> a <= x <= b -> a <= rnd x <= b.
Proof.
  intros Ha Hb [H1 H2]. apply rnd_mono in H1. apply rnd_mono in H2.
  rewrite rnd_exact in H1 by auto. rewrite (rnd_exact b) in H2 by auto. split; auto.
Qed.

(** rounding error *)
Lemma rnd_err x k : (-1000 <= k)%Z -> Rabs x <= bpow radix2 k ->
  Rabs (rnd x - x) <= bpow radix2 (k - 53).
Proof.
  intros Hk H. unfold rnd. eapply Rle_trans; [apply error_le_half_ulp; apply vexp|].
  assert (Hu : ulp radix2 (SpecFloat.fexp 53 1024) x <= bpow radix2 (k - 52)).
  { eapply Rle_trans; [apply ulp_le with (y := bpow radix2 k); try apply vexp; try apply mexp|].
    - rewrite (Rabs_pos_eq (bpow radix2 k)) by apply bpow_ge_0. auto.
    - rewrite ulp_bpow. apply bpow_le. rewrite fexp_eq. unfold FLT_exp. lia. }
  replace (k - 53)%Z with ((k - 52) + -1)%Z by lia. rewrite bpow_plus.
  change (bpow radix2 (-1)) with (/ 2). lra.
Qed.

Lemma rnd_lt_emax x k : (k < 1024)%Z -> (-1000 <= k)%Z -> Rabs x <= bpow radix2 k ->
  Rlt_bool (Rabs (rnd x)) (bpow radix2 1024) = true.
Proof.
  intros H1 H2 H. apply Rlt_bool_true. eapply Rle_lt_trans.
  - apply rnd_le; [apply (fmt_bpow k); lia|exact H].
  - apply bpow_lt. lia.
Qed.

Lemma of_Z64_ok z : (Z.abs z <= 2 ^ 53)%Z -> val (of_Z64 z) = IZR z /\ fin (of_Z64 z).
Proof.
  intros H. pose proof (binary_normalize_correct 53 1024 prec64 emax64 mode_NE z 0 false) as C.
  cbv zeta in C. unfold F2R in C. cbn [Fnum Fexp] in C.
  change (bpow radix2 0) with 1 in C. rewrite Rmult_1_r in C.
  change (round_mode mode_NE) with ZnearestE in C.
  fold (rnd (IZR z)) in C. rewrite rnd_exact in C by (apply fmt_IZR; auto).
  rewrite Rlt_bool_true in C.
  - destruct C as [C1 [C2 _]]. split; auto.
  - rewrite <- abs_IZR. apply Rle_lt_trans with (IZR (2 ^ 53)).
    + apply IZR_le. auto.
    + change (IZR (2 ^ 53)) with (bpow radix2 53). apply bpow_lt. lia.
Qed.

Lemma add64_ok x y k : fin x -> fin y -> (-1000 <= k < 1024)%Z ->
  Rabs (val x + val y) <= bpow radix2 k ->
  val (add64 x y) = rnd (val x + val y) /\ fin (add64 x y).
Proof.
  intros Hx Hy Hk Hb. pose proof (Bplus_correct 53 1024 prec64 emax64 mode_NE x y Hx Hy) as C.
  change (round_mode mode_NE) with ZnearestE in C. fold (val x) (val y) in C.
  fold (rnd (val x + val y)) in C. rewrite (rnd_lt_emax _ k) in C by (auto; lia).
  destruct C as [C1 [C2 _]]. split; auto.
Qed.

Lemma sub64_ok x y k : fin x -> fin y -> (-1000 <= k < 1024)%Z ->
  Rabs (val x - val y) <= bpow radix2 k ->
  val (sub64 x y) = rnd (val x - val y) /\ fin (sub64 x y).
Proof.
  intros Hx Hy Hk Hb. pose proof (Bminus_correct 53 1024 prec64 emax64 mode_NE x y Hx Hy) as C.
  change (round_mode mode_NE) with ZnearestE in C. fold (val x) (val y) in C.
  fold (rnd (val x - val y)) in C. rewrite (rnd_lt_emax _ k) in C by (auto; lia).
  destruct C as [C1 [C2 _]]. split; auto.
Qed.

Lemma mul64_ok x y k : fin x -> fin y -> (-1000 <= k < 1024)%Z ->
  Rabs (val x * val y) <= bpow radix2 k ->
  val (mul64 x y) = rnd (val x * val y) /\ fin (mul64 x y).
Proof.
  intros Hx Hy Hk Hb. pose proof (Bmult_correct 53 1024 prec64 emax64 mode_NE x y) as C.
  change (round_mode mode_NE) with ZnearestE in C. fold (val x) (val y) in C.
  fold (rnd (val x * val y)) in C. rewrite (rnd_lt_emax _ k) in C by (auto; lia).
  destruct C as [C1 [C2 _]]. split; auto. unfold fin, mul64. rewrite C2.
  unfold fin in Hx, Hy. rewrite Hx, Hy. auto.
Qed.

Lemma div64_ok x y k : fin x -> val y <> 0 -> (-1000 <= k < 1024)%Z ->
  Rabs (val x / val y) <= bpow radix2 k ->
  val (div64 x y) = rnd (val x / val y) /\ fin (div64 x y).
Proof.
  intros Hx Hy Hk Hb. pose proof (Bdiv_correct 53 1024 prec64 emax64 mode_NE x y Hy) as C.
  change (round_mode mode_NE) with ZnearestE in C. fold (val x) (val y) in C.
  fold (rnd (val x / val y)) in C. rewrite (rnd_lt_emax _ k) in C by (auto; lia).
  destruct C as [C1 [C2 _]]. split; auto. unfold fin, div64. rewrite C2. auto.
Qed.

Lemma trunc64_ok x : fin x -> trunc64 x = Some (Ztrunc (val x)).
Proof.
  intros H. unfold trunc64.
  assert (Hb : Btrunc x = Ztrunc (val x)).
  { apply eq_IZR. rewrite (Btrunc_correct 53 1024 emax64).
    unfold round, scaled_mantissa, cexp, FIX_exp, F2R. simpl. rewrite !Rmult_1_r. auto. }
  rewrite <- Hb. destruct x; auto; discriminate.
Qed.

Lemma leb64_ok x y : fin x -> fin y -> Bleb x y = Rle_bool (val x) (val y).
Proof. apply Bleb_correct. Qed.
Lemma ltb64_ok x y : fin x -> fin y -> Bltb x y = Rlt_bool (val x) (val y).
Proof. apply Bltb_correct. Qed.
Lemma eqb64_ok x y : fin x -> fin y -> Beqb x y = Req_bool (val x) (val y).
Proof. apply Beqb_correct. Qed.
