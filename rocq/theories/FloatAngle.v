(** The polar-angle comparator of x/ring.hpp:54-99 in single precision. *)
From Coq Require Import List ZArith Reals Bool Lia Lra Psatz Sorting.Sorted.
From Flocq Require Import Core Relative Plus_error IEEE754.BinarySingleNaN.
From Coquelicot Require Rcomplements.
From Verif Require Import Base Arith ExtractModel Spec SpecReal SpecBearing AngleProofs RingMapProofs.
Import ListNotations.
Open Scope R_scope.

Notation fe := (SpecFloat.fexp 24 128).
Lemma fexp32_eq : fe = FLT_exp (-149) 24.
Proof. reflexivity. Qed.
#[export] Instance vexp32 : Valid_exp fe.
Proof. rewrite fexp32_eq. apply FLT_exp_valid. reflexivity. Qed.
#[export] Instance mexp32 : Monotone_exp fe.
Proof. rewrite fexp32_eq. apply FLT_exp_monotone. Qed.

Local Notation r32 x := (round radix2 fe ZnearestE x).
Local Notation f32 x := (generic_format radix2 fe x).

Lemma f32_bpow e : (-149 <= e <= 127)%Z -> f32 (bpow radix2 e).
Proof. intros H. rewrite fexp32_eq. apply generic_format_FLT_bpow; [reflexivity|lia]. Qed.

Lemma r32_mono x y : x <= y -> r32 x <= r32 y.
Proof. intros H. apply round_le; auto. apply vexp32. apply valid_rnd_N. Qed.

Lemma r32_fmt x : f32 (r32 x).
Proof. apply generic_format_round. apply vexp32. apply valid_rnd_N. Qed.

Lemma r32_exact x : f32 x -> r32 x = x.
Proof. intros H. apply round_generic; auto. apply valid_rnd_N. Qed.

Lemma r32_lt_emax x : Rabs x <= bpow radix2 127 ->
  Rlt_bool (Rabs (r32 x)) (bpow radix2 128) = true.
Proof.
  intros H. apply Rlt_bool_true. apply Rle_lt_trans with (bpow radix2 127).
  - apply abs_round_le_generic; auto. apply vexp32. apply valid_rnd_N. apply f32_bpow. lia.
  - apply bpow_lt. lia.
Qed.

Lemma add32_ok (x y : b32) : is_finite x = true -> is_finite y = true ->
  Rabs (B2R x + B2R y) <= bpow radix2 127 ->
  B2R (add32 x y) = r32 (B2R x + B2R y) /\ is_finite (add32 x y) = true.
Proof.
  intros Hx Hy Hb. pose proof (Bplus_correct 24 128 prec32 emax32 mode_NE x y Hx Hy) as C.
  change (round_mode mode_NE) with ZnearestE in C. rewrite r32_lt_emax in C by auto.
  destruct C as [C1 [C2 _]]. split; auto.
Qed.

Lemma sub32_ok (x y : b32) : is_finite x = true -> is_finite y = true ->
  Rabs (B2R x - B2R y) <= bpow radix2 127 ->
  B2R (sub32 x y) = r32 (B2R x - B2R y) /\ is_finite (sub32 x y) = true.
Proof.
  intros Hx Hy Hb. pose proof (Bminus_correct 24 128 prec32 emax32 mode_NE x y Hx Hy) as C.
  change (round_mode mode_NE) with ZnearestE in C. rewrite r32_lt_emax in C by auto.
  destruct C as [C1 [C2 _]]. split; auto.
Qed.

Lemma mul32_ok (x y : b32) : is_finite x = true -> is_finite y = true ->
  Rabs (B2R x * B2R y) <= bpow radix2 127 ->
  B2R (mul32 x y) = r32 (B2R x * B2R y) /\ is_finite (mul32 x y) = true.
Proof.
  intros Hx Hy Hb. pose proof (Bmult_correct 24 128 prec32 emax32 mode_NE x y) as C.
  change (round_mode mode_NE) with ZnearestE in C. rewrite r32_lt_emax in C by auto.
  destruct C as [C1 [C2 _]]. split; auto. unfold mul32. rewrite C2, Hx, Hy. auto.
Qed.

Lemma r32_0 : r32 0 = 0.
Proof. apply round_0, valid_rnd_N. Qed.

(** the sign survives rounding above the smallest float *)
Lemma r32_pos x : bpow radix2 (-149) <= x -> bpow radix2 (-149) <= r32 x.
Proof.
  intros H. apply r32_mono in H. rewrite (r32_exact (bpow radix2 (-149))) in H; auto.
  apply f32_bpow. lia.
Qed.
Lemma r32_neg x : x <= - bpow radix2 (-149) -> r32 x <= - bpow radix2 (-149).
Proof.
  intros H. apply r32_mono in H. rewrite (r32_exact (- bpow radix2 (-149))) in H; auto.
  apply generic_format_opp, f32_bpow. lia.
Qed.

(** relative error in the normal range *)
Lemma r32_rel x : bpow radix2 (-120) <= Rabs x -> Rabs (r32 x - x) <= bpow radix2 (-24) * Rabs x.
Proof.
  intros H. pose proof (relative_error_N_FLT radix2 (-149) 24 eq_refl (fun z => negb (Z.even z)) x) as E.
  rewrite fexp32_eq. eapply Rle_trans.
  - apply E. eapply Rle_trans; [|exact H]. apply bpow_le. lia.
  - change (- (24) + 1)%Z with (-24 + 1)%Z. rewrite bpow_plus. change (bpow radix2 1) with 2.
    right. field.
Qed.

(** the product of two ordinary coordinates *)
Lemma ordinary_product x y : ordinary x -> ordinary y ->
  let m := B2R x * B2R y in
  (m = 0 \/ bpow radix2 (-120) <= Rabs m) /\ Rabs m <= bpow radix2 120.
Proof.
  intros [_ Hx] [_ Hy] m. unfold m. rewrite Rabs_mult.
  assert (P : bpow radix2 120 = bpow radix2 60 * bpow radix2 60) by (rewrite <- bpow_plus; reflexivity).
  assert (Q : bpow radix2 (-120) = bpow radix2 (-60) * bpow radix2 (-60)) by (rewrite <- bpow_plus; reflexivity).
  pose proof (bpow_gt_0 radix2 60). pose proof (bpow_gt_0 radix2 (-60)).
  rewrite P, Q. destruct Hx as [Hx|[Hx1 Hx2]].
  - rewrite Hx, Rabs_R0, !Rmult_0_l. split; auto. nra.
  - destruct Hy as [Hy|[Hy1 Hy2]].
    + rewrite Hy, Rabs_R0, !Rmult_0_r. split; auto. nra.
    + split; [right|]; apply Rmult_le_compat; try lra; apply Rabs_pos.
Qed.

Lemma ordinary_mul (x y : b32) : ordinary x -> ordinary y ->
  is_finite (mul32 x y) = true /\ B2R (mul32 x y) = r32 (B2R x * B2R y) /\
  Rabs (B2R (mul32 x y)) <= bpow radix2 120 /\
  Rabs (B2R (mul32 x y) - B2R x * B2R y) <= bpow radix2 (-24) * Rabs (B2R x * B2R y) /\
  (0 < B2R (mul32 x y) <-> 0 < B2R x * B2R y) /\ (B2R (mul32 x y) = 0 <-> B2R x * B2R y = 0).
Proof.
  intros Hx Hy. destruct (ordinary_product x y Hx Hy) as [H1 H2].
  destruct (mul32_ok x y) as [M1 M2]; [apply Hx|apply Hy| |].
  { eapply Rle_trans; [exact H2|]. apply bpow_le. lia. }
  set (m := B2R x * B2R y) in *. split; [exact M2|]. split; [exact M1|]. rewrite M1. split.
  { apply abs_round_le_generic; auto. apply vexp32. apply valid_rnd_N. apply f32_bpow. lia. }
  destruct H1 as [Hz|Hb].
  - rewrite Hz, r32_0, Rabs_R0, Rminus_0_r, Rabs_R0, Rmult_0_r. intuition lra.
  - split; [apply r32_rel; exact Hb|].
    assert (L : bpow radix2 (-149) <= bpow radix2 (-120)) by (apply bpow_le; lia).
    pose proof (bpow_gt_0 radix2 (-149)).
    destruct (Rle_dec 0 m) as [Hm|Hm].
    + rewrite Rabs_pos_eq in Hb by auto. pose proof (r32_pos m ltac:(lra)). intuition lra.
    + rewrite Rabs_left in Hb by lra. pose proof (r32_neg m ltac:(lra)). intuition lra.
Qed.

(** differences and sums of floats round to zero only if they are zero *)
Lemma sub_sign (u v : b32) : is_finite u = true -> is_finite v = true ->
  Rabs (B2R u) <= bpow radix2 120 -> Rabs (B2R v) <= bpow radix2 120 ->
  is_finite (sub32 u v) = true /\ (0 < B2R (sub32 u v) <-> B2R v < B2R u).
Proof.
  intros Hu Hv Bu Bv. assert (L : 2 * bpow radix2 120 <= bpow radix2 127).
  { change 2 with (bpow radix2 1). rewrite <- bpow_plus. apply bpow_le. lia. }
  destruct (sub32_ok u v Hu Hv) as [S1 S2].
  { eapply Rle_trans; [apply Rabs_triang|]. rewrite Rabs_Ropp. lra. }
  split; [exact S2|]. rewrite S1.
  pose proof (generic_format_B2R 24 128 u) as Fu. pose proof (generic_format_B2R 24 128 v) as Fv.
  split; intros H.
  - apply Rnot_le_lt. intros G. assert (K : B2R u - B2R v <= 0) by lra. apply r32_mono in K.
    rewrite r32_0 in K. lra.
  - destruct (Rle_lt_or_eq_dec 0 (r32 (B2R u - B2R v))) as [E|E]; auto.
    + rewrite <- r32_0. apply r32_mono. lra.
    + exfalso. symmetry in E.
      assert (G : B2R u + - B2R v = 0); [|lra].
      revert E. unfold Rminus. rewrite fexp32_eq in *.
      apply (round_plus_eq_0 radix2 (FLT_exp (-149) 24) ZnearestE); auto.
      apply generic_format_opp. auto.
Qed.

Lemma squares_zero (x y : b32) : ordinary x -> ordinary y ->
  is_finite (add32 (mul32 x x) (mul32 y y)) = true /\
  (B2R (add32 (mul32 x x) (mul32 y y)) = 0 <-> B2R x = 0 /\ B2R y = 0).
Proof.
  intros Hx Hy. destruct (ordinary_mul x x Hx Hx) as [X1 [_ [X2 [_ [X3 X4]]]]].
  destruct (ordinary_mul y y Hy Hy) as [Y1 [_ [Y2 [_ [Y3 Y4]]]]].
  set (u := mul32 x x) in *. set (v := mul32 y y) in *.
  assert (L : 2 * bpow radix2 120 <= bpow radix2 127).
  { change 2 with (bpow radix2 1). rewrite <- bpow_plus. apply bpow_le. lia. }
  destruct (add32_ok u v X1 Y1) as [S1 S2].
  { eapply Rle_trans; [apply Rabs_triang|]. lra. }
  split; [exact S2|]. rewrite S1.
  pose proof (generic_format_B2R 24 128 u) as Fu. pose proof (generic_format_B2R 24 128 v) as Fv.
  assert (Pu : 0 <= B2R u).
  { destruct (Req_dec (B2R x * B2R x) 0) as [E|E]; [rewrite (proj2 X4 E); lra|].
    left. apply X3. assert (0 <= B2R x * B2R x) by nra. lra. }
  assert (Pv : 0 <= B2R v).
  { destruct (Req_dec (B2R y * B2R y) 0) as [E|E]; [rewrite (proj2 Y4 E); lra|].
    left. apply Y3. assert (0 <= B2R y * B2R y) by nra. lra. }
  split; intros H.
  - assert (G : B2R u + B2R v = 0).
    { revert H. rewrite fexp32_eq in *.
      apply (round_plus_eq_0 radix2 (FLT_exp (-149) 24) ZnearestE); auto. }
    assert (U0 : B2R u = 0) by lra. assert (V0 : B2R v = 0) by lra.
    apply X4 in U0. apply Y4 in V0. split; nra.
  - destruct H as [E1 E2]. rewrite (proj2 X4), (proj2 Y4), Rplus_0_r by (rewrite ?E1, ?E2; ring).
    apply r32_0.
Qed.

Lemma eqb32 (x y : b32) : is_finite x = true -> is_finite y = true -> Beqb x y = Reqb (B2R x) (B2R y).
Proof.
  intros Hx Hy. rewrite Beqb_correct by auto. unfold Reqb.
  destruct (Req_bool_spec (B2R x) (B2R y)), (Req_EM_T (B2R x) (B2R y)); auto; contradiction.
Qed.
Lemma ltb32 (x y : b32) : is_finite x = true -> is_finite y = true -> Bltb x y = Rltb (B2R x) (B2R y).
Proof.
  intros Hx Hy. rewrite Bltb_correct by auto. unfold Rltb.
  destruct (Rlt_bool_spec (B2R x) (B2R y)), (Rlt_dec (B2R x) (B2R y)); auto; lra.
Qed.
Lemma leb32 (x y : b32) : is_finite x = true -> is_finite y = true -> Bleb x y = Rleb (B2R x) (B2R y).
Proof.
  intros Hx Hy. rewrite Bleb_correct by auto. unfold Rleb.
  destruct (Rle_bool_spec (B2R x) (B2R y)), (Rle_dec (B2R x) (B2R y)); auto; lra.
Qed.

Lemma reqb_iff a b c d : (a = b <-> c = d) -> Reqb a b = Reqb c d.
Proof. intros H. unfold Reqb. destruct (Req_EM_T a b), (Req_EM_T c d); auto; tauto. Qed.
Lemma rltb_iff a b c d : (a < b <-> c < d) -> Rltb a b = Rltb c d.
Proof. intros H. unfold Rltb. destruct (Rlt_dec a b), (Rlt_dec c d); auto; tauto. Qed.

(** the comparator computes the exact decision when the determinant is clear of rounding *)
Definition clear_det (ax ay bx by_ : R) : Prop :=
  ay = 0 \/ by_ = 0 \/ ax * by_ = ay * bx \/
  bpow radix2 (-24) * (Rabs (ax * by_) + Rabs (ay * bx)) < Rabs (ax * by_ - ay * bx).

Lemma polar_less_clear acosf (ax ay bx by_ : b32) :
  ordinary ax -> ordinary ay -> ordinary bx -> ordinary by_ ->
  (B2R ax = 0 /\ B2R ay = 0) \/ (B2R bx = 0 /\ B2R by_ = 0) \/
    clear_det (B2R ax) (B2R ay) (B2R bx) (B2R by_) ->
  polar_less (ieee acosf) ax ay bx by_ = polar_less exact (B2R ax) (B2R ay) (B2R bx) (B2R by_).
Proof.
  intros Oax Oay Obx Oby HC.
  pose proof (proj1 Oax) as Fax. pose proof (proj1 Oay) as Fay.
  pose proof (proj1 Obx) as Fbx. pose proof (proj1 Oby) as Fby.
  assert (F0 : is_finite (B754_zero false : b32) = true) by reflexivity.
  assert (Z0 : B2R (B754_zero false : b32) = 0) by reflexivity.
  unfold polar_less. cbn [ieee exact f_eqb f_ltb f_leb f_add f_mul f_sub f_zero].
  destruct (squares_zero ax ay Oax Oay) as [LA1 LA2].
  destruct (squares_zero bx by_ Obx Oby) as [LB1 LB2].
  assert (FM : is_finite (mul32 ay by_) = true) by (apply (ordinary_mul ay by_); auto).
  assert (FS : is_finite (sub32 (mul32 ax by_) (mul32 ay bx)) = true)
    by (apply sub_sign; apply ordinary_mul; auto).
  rewrite !eqb32, !ltb32, !leb32, Z0 by auto.
  rewrite (reqb_iff (B2R (add32 (mul32 ax ax) (mul32 ay ay))) 0 (B2R ax * B2R ax + B2R ay * B2R ay) 0) by (rewrite LA2, sq_zero; tauto).
  rewrite (reqb_iff (B2R (add32 (mul32 bx bx) (mul32 by_ by_))) 0 (B2R bx * B2R bx + B2R by_ * B2R by_) 0) by (rewrite LB2, sq_zero; tauto).
  destruct (Reqb (B2R ax) (B2R bx) && Reqb (B2R ay) (B2R by_)); auto.
  destruct (Reqb (B2R ax * B2R ax + B2R ay * B2R ay) 0) eqn:E1; auto.
  destruct (Reqb (B2R bx * B2R bx + B2R by_ * B2R by_) 0) eqn:E2; auto.
  destruct (Reqb (B2R ay) 0) eqn:E3; auto. destruct (Reqb (B2R by_) 0) eqn:E4; auto.
  apply reqb_false in E1, E2, E3, E4.
  rewrite (rltb_iff 0 (B2R (mul32 ay by_)) 0 (B2R ay * B2R by_))
    by (apply (ordinary_mul ay by_ Oay Oby)).
  destruct (Rltb 0 (B2R ay * B2R by_)) eqn:E5; auto.
  apply rltb_iff.
  destruct (ordinary_mul ax by_ Oax Oby) as [U1 [U2 [U3 [U4 _]]]].
  destruct (ordinary_mul ay bx Oay Obx) as [V1 [V2 [V3 [V4 _]]]].
  destruct (sub_sign (mul32 ax by_) (mul32 ay bx) U1 V1 U3 V3) as [_ S]. rewrite S. clear S.
  destruct HC as [[A1 A2]|[[A1 A2]|[A|[A|[A|A]]]]]; try contradiction.
  - rewrite U2, V2, A. split; lra.
  - set (u := B2R ax * B2R by_) in *. set (v := B2R ay * B2R bx) in *.
    set (fu := B2R (mul32 ax by_)) in *. set (fv := B2R (mul32 ay bx)) in *.
    apply Rcomplements.Rabs_le_between' in U4. apply Rcomplements.Rabs_le_between' in V4.
    unfold Rabs in A at 3. destruct (Rcase_abs (u - v)); split; lra.
Qed.

(** ** From angles to determinants *)
Lemma products_le a b : Rabs (cos a * sin b) + Rabs (sin a * cos b) <= 1.
Proof.
  pose proof (sin2_cos2 a) as HA. pose proof (sin2_cos2 b) as HB. unfold Rsqr in HA, HB.
  rewrite !Rabs_mult.
  pose proof (Rabs_pos (cos a)). pose proof (Rabs_pos (sin a)).
  pose proof (Rabs_pos (cos b)). pose proof (Rabs_pos (sin b)).
  assert (E : forall x, Rabs x * Rabs x = x * x)
    by (intros x; rewrite <- Rabs_mult; apply Rabs_pos_eq; nra).
  rewrite <- (E (sin a)), <- (E (cos a)) in HA. rewrite <- (E (sin b)), <- (E (cos b)) in HB.
  pose proof (Rle_0_sqr (Rabs (cos a) - Rabs (sin b))) as P1.
  pose proof (Rle_0_sqr (Rabs (sin a) - Rabs (cos b))) as P2. unfold Rsqr in P1, P2. lra.
Qed.

Lemma angle_clear ax ay bx by_ :
  let s := sin (atan2 ay ax - atan2 by_ bx) in
  (ax <> 0 \/ ay <> 0) -> (bx <> 0 \/ by_ <> 0) ->
  s = 0 \/ bpow radix2 (-24) < Rabs s ->
  clear_det ax ay bx by_.
Proof.
  intros s Ha Hb Hs. unfold clear_det. right. right.
  destruct (atan2_polar ax ay Ha) as [_ [A1 A2]]. destruct (atan2_polar bx by_ Hb) as [_ [B1 B2]].
  unfold s in Hs. clear s. set (al := atan2 ay ax) in *. set (be := atan2 by_ bx) in *.
  assert (RA : 0 < sqrt (ax * ax + ay * ay)) by (apply sqrt_lt_R0; destruct Ha; nra).
  assert (RB : 0 < sqrt (bx * bx + by_ * by_)) by (apply sqrt_lt_R0; destruct Hb; nra).
  set (ra := sqrt (ax * ax + ay * ay)) in *. set (rb := sqrt (bx * bx + by_ * by_)) in *.
  clearbody ra rb al be.
  assert (Hr : 0 < ra * rb) by (apply Rmult_lt_0_compat; auto).
  assert (U : ax * by_ = ra * rb * (cos al * sin be)) by (rewrite A1, B2; ring).
  assert (V : ay * bx = ra * rb * (sin al * cos be)) by (rewrite A2, B1; ring).
  assert (W : ax * by_ - ay * bx = - (ra * rb * sin (al - be))).
  { rewrite U, V, sin_minus. ring. }
  destruct Hs as [Hs|Hs].
  - left. apply Rminus_diag_uniq. rewrite W, Hs. ring.
  - right. rewrite W, U, V, Rabs_Ropp, !Rabs_mult, (Rabs_pos_eq ra), (Rabs_pos_eq rb) by lra.
    pose proof (products_le al be) as P. rewrite !Rabs_mult in P.
    pose proof (bpow_gt_0 radix2 (-24)).
    apply Rle_lt_trans with (bpow radix2 (-24) * (ra * rb)).
    + apply Rmult_le_compat_l; [lra|]. nra.
    + rewrite Rmult_comm. apply Rmult_lt_compat_l; auto.
Qed.

Section Scan.
Context (acosf : b64 -> b64).
Notation A := (ieee acosf).

Lemma bearing_order (p q : point A) :
  ordinary (px A p) -> ordinary (py A p) -> ordinary (px A q) -> ordinary (py A q) ->
  resolved p q -> (ahead p -> ahead q -> east p = east q) ->
  (polar_less A (px A p) (py A p) (px A q) (py A q) = true <-> bearing p < bearing q).
Proof.
  intros O1 O2 O3 O4 HR HA.
  rewrite (polar_less_clear acosf (px A p) (py A p) (px A q) (py A q) O1 O2 O3 O4).
  - change (B2R (px A p : b32)) with (east p). change (B2R (py A p : b32)) with (north p).
    change (B2R (px A q : b32)) with (east q). change (B2R (py A q : b32)) with (north q).
    destruct (Req_EM_T (north p) 0) as [E1|E1]; [|apply polar_less_atan2; tauto].
    destruct (Req_EM_T (north q) 0) as [E2|E2]; [|apply polar_less_atan2; tauto].
    destruct (Rlt_dec 0 (east p)) as [E3|E3]; [|apply polar_less_atan2; tauto].
    destruct (Rlt_dec 0 (east q)) as [E4|E4]; [|apply polar_less_atan2; tauto].
    assert (E : east p = east q) by (apply HA; split; auto).
    unfold bearing. rewrite E, E1, E2. unfold polar_less. cbn [exact f_eqb].
    rewrite (proj2 (Reqb_spec (east q) (east q)) eq_refl), (proj2 (Reqb_spec 0 0) eq_refl).
    cbn [andb]. split; [discriminate|lra].
  - destruct HR as [H|[H|H]]; [left; exact H|right; left; exact H|].
    fold (east p) (north p) (east q) (north q).
    destruct (Req_EM_T (east p) 0) as [E1|E1], (Req_EM_T (north p) 0) as [E2|E2]; auto;
    destruct (Req_EM_T (east q) 0) as [E3|E3], (Req_EM_T (north q) 0) as [E4|E4]; auto;
    right; right; apply angle_clear; auto.
Qed.

Context (cloud : list (point A)) (HW : well_resolved cloud).

Lemma get_In {T} (l : list T) i x : get l i = Some x -> In x l.
Proof. unfold get. destruct (i <? 0)%Z; [discriminate|]. apply nth_error_In. Qed.

Lemma bearing_ix i j p q : get cloud i = Some p -> get cloud j = Some q -> pring A p = pring A q ->
  (polar_less_ix A cloud i j = true <-> bearing p < bearing q).
Proof.
  intros Hp Hq Hr. destruct HW as [HO HP].
  destruct (HO p (get_In _ _ _ Hp)) as [O1 O2]. destruct (HO q (get_In _ _ _ Hq)) as [O3 O4].
  destruct (HP p q (get_In _ _ _ Hp) (get_In _ _ _ Hq) Hr) as [R1 R2].
  rewrite <- (bearing_order p q) by auto.
  unfold polar_less_ix. unfold get in Hp, Hq.
  destruct (i <? 0)%Z; [discriminate|]. destruct (j <? 0)%Z; [discriminate|]. rewrite Hp, Hq. tauto.
Qed.

Lemma bearing_ix_false i j p q : get cloud i = Some p -> get cloud j = Some q -> pring A p = pring A q ->
  (polar_less_ix A cloud i j = false <-> bearing q <= bearing p).
Proof.
  intros Hp Hq Hr. pose proof (bearing_ix i j p q Hp Hq Hr) as H.
  destruct (polar_less_ix A cloud i j).
  - split; [discriminate|]. intros G. assert (bearing p < bearing q) by (apply H; auto). lra.
  - split; auto. intros _. apply Rnot_lt_le. intros G. apply H in G. discriminate.
Qed.

Lemma ring_order k ix :
  (forall i, In i ix -> exists p, get cloud i = Some p /\ pring A p = k) ->
  strict_weak_order (polar_less_ix A cloud) ix.
Proof.
  intros H. split; [|split].
  - intros a Ha. destruct (H a Ha) as [p [P1 P2]]. apply (bearing_ix_false a a p p); auto. lra.
  - intros a b c Ha Hb Hc. destruct (H a Ha) as [p [P1 P2]], (H b Hb) as [q [Q1 Q2]], (H c Hc) as [r [R1 R2]].
    rewrite (bearing_ix a b p q), (bearing_ix b c q r), (bearing_ix a c p r) by congruence. lra.
  - intros a b c Ha Hb Hc. destruct (H a Ha) as [p [P1 P2]], (H b Hb) as [q [Q1 Q2]], (H c Hc) as [r [R1 R2]].
    rewrite (bearing_ix_false a b p q), (bearing_ix_false b a q p), (bearing_ix_false b c q r),
      (bearing_ix_false c b r q), (bearing_ix_false a c p r), (bearing_ix_false c a r p) by congruence. lra.
Qed.

Lemma rings_made srt : exists rings, extract_rings A srt cloud = Ok rings.
Proof.
  unfold extract_rings, sort_each_ring. destruct (make_point_indices_spec A cloud) as [_ [_ M]].
  assert (G : forall l, (forall k ix, In (k, ix) l -> In (k, ix) (make_point_indices A cloud)) ->
    exists rings, mapM (fun r => ix <- sort_by_atan2 A srt cloud (snd r) ;; Ok (fst r, ix)) l = Ok rings).
  { induction l as [|[k ix] l IH]; intros H; [eexists; reflexivity|].
    destruct IH as [rs E]; [intros; apply H; right; auto|].
    cbn [mapM fst snd]. unfold sort_by_atan2 at 1, std_sort.
    destruct (M k ix (H k ix (or_introl eq_refl))) as [_ [_ [_ MI]]].
    rewrite (proj2 (LabelProofs.swo_on_spec _ ix)).
    - cbn [bind]. rewrite E. eexists. reflexivity.
    - apply (ring_order k). intros i Hi. apply MI. auto. }
  apply G. auto.
Qed.

Lemma rings_by_bearing srt rings k ix :
  valid_sort srt -> extract_rings A srt cloud = Ok rings -> In (k, ix) rings ->
  StronglySorted (fun a b => forall p q, get cloud a = Some p -> get cloud b = Some q ->
     bearing p <= bearing q) ix.
Proof.
  intros Hv H Hi. apply extract_rings_spec in H; auto. destruct H as [_ [_ H]].
  destruct (H k ix Hi) as [_ [_ [Hin [_ HS]]]]. revert HS. apply StronglySorted_impl.
  intros a b Ha Hb Hl p q Hp Hq.
  apply Hin in Ha, Hb. destruct Ha as [p' [P1 P2]], Hb as [q' [Q1 Q2]].
  apply (bearing_ix_false b a q p); auto. congruence.
Qed.
End Scan.

(** ** Points with small whole-numbered coordinates are always resolved (for the examples) *)
Lemma of_Z32_ok z : (Z.abs z <= 2 ^ 24)%Z -> B2R (of_Z32 z) = IZR z /\ is_finite (of_Z32 z) = true.
Proof.
  intros H. pose proof (binary_normalize_correct 24 128 prec32 emax32 mode_NE z 0 false) as C.
  cbv zeta in C. unfold F2R in C. cbn [Fnum Fexp] in C.
  change (bpow radix2 0) with 1 in C. rewrite Rmult_1_r in C.
  change (round_mode mode_NE) with ZnearestE in C.
  assert (Hf : f32 (IZR z)).
  { destruct (Z.eq_dec (Z.abs z) (2 ^ 24)) as [E|E].
    - assert (Hz : z = (2 ^ 24)%Z \/ z = (- 2 ^ 24)%Z) by lia.
      assert (Hb : f32 (bpow radix2 24)) by (apply f32_bpow; lia).
      destruct Hz as [-> | ->]; [exact Hb|]. rewrite opp_IZR. apply generic_format_opp. exact Hb.
    - rewrite fexp32_eq. apply generic_format_FLT.
      apply FLT_spec with (f := Float radix2 z 0); simpl.
      + unfold F2R. simpl. rewrite Rmult_1_r. auto.
      + change (Z.pow_pos 2 24) with (2 ^ 24)%Z. lia.
      + lia. }
  rewrite r32_exact in C by exact Hf. rewrite Rlt_bool_true in C.
  - destruct C as [C1 [C2 _]]. split; auto.
  - rewrite <- abs_IZR. apply Rle_lt_trans with (IZR (2 ^ 24)).
    + apply IZR_le. auto.
    + change (IZR (2 ^ 24)) with (bpow radix2 24). apply bpow_lt. lia.
Qed.

Lemma whole_ordinary z : (Z.abs z <= 2 ^ 11)%Z -> ordinary (of_Z32 z).
Proof.
  intros H. destruct (of_Z32_ok z) as [E F]; [lia|]. split; [exact F|]. rewrite E.
  destruct (Z.eq_dec z 0) as [->|Hz]; [left; reflexivity|]. right. rewrite <- abs_IZR. split.
  - apply Rle_trans with (IZR 1); [|apply IZR_le; lia].
    change (IZR 1) with (bpow radix2 0). apply bpow_le. lia.
  - apply Rle_trans with (IZR (2 ^ 11)); [apply IZR_le; lia|].
    change (IZR (2 ^ 11)) with (bpow radix2 11). apply bpow_le. lia.
Qed.

Lemma whole_norm a b : (Z.abs a <= 2 ^ 11)%Z -> (Z.abs b <= 2 ^ 11)%Z ->
  IZR a * IZR a + IZR b * IZR b <= bpow radix2 23.
Proof.
  intros H1 H2. rewrite <- !mult_IZR, <- plus_IZR. change (bpow radix2 23) with (IZR (2 ^ 23)).
  apply IZR_le. nia.
Qed.

Lemma whole_resolved acosf (p q : point (ieee acosf)) a b c d :
  east p = IZR a -> north p = IZR b -> east q = IZR c -> north q = IZR d ->
  (Z.abs a <= 2 ^ 11)%Z -> (Z.abs b <= 2 ^ 11)%Z -> (Z.abs c <= 2 ^ 11)%Z -> (Z.abs d <= 2 ^ 11)%Z ->
  resolved p q.
Proof.
  intros E1 E2 E3 E4 L1 L2 L3 L4. unfold resolved.
  destruct (Req_EM_T (east p) 0) as [P1|P1], (Req_EM_T (north p) 0) as [P2|P2]; auto;
  destruct (Req_EM_T (east q) 0) as [Q1|Q1], (Req_EM_T (north q) 0) as [Q2|Q2]; auto;
  right; right;
  (assert (Ha : east p <> 0 \/ north p <> 0) by auto);
  (assert (Hb : east q <> 0 \/ north q <> 0) by auto); clear P1 P2 Q1 Q2;
  unfold bearing;
  destruct (atan2_polar (east p) (north p) Ha) as [_ [A1 A2]];
  destruct (atan2_polar (east q) (north q) Hb) as [_ [B1 B2]];
  set (al := atan2 (north p) (east p)) in *; set (be := atan2 (north q) (east q)) in *;
  pose proof (whole_norm a b L1 L2) as NA; pose proof (whole_norm c d L3 L4) as NB;
  rewrite <- E1, <- E2 in NA; rewrite <- E3, <- E4 in NB;
  (assert (RA : 0 < sqrt (east p * east p + north p * north p)) by (apply sqrt_lt_R0; destruct Ha; nra));
  (assert (RB : 0 < sqrt (east q * east q + north q * north q)) by (apply sqrt_lt_R0; destruct Hb; nra));
  (assert (SA : sqrt (east p * east p + north p * north p) * sqrt (east p * east p + north p * north p)
     <= bpow radix2 23) by (rewrite sqrt_sqrt; [exact NA|nra]));
  (assert (SB : sqrt (east q * east q + north q * north q) * sqrt (east q * east q + north q * north q)
     <= bpow radix2 23) by (rewrite sqrt_sqrt; [exact NB|nra]));
  set (ra := sqrt (east p * east p + north p * north p)) in *;
  set (rb := sqrt (east q * east q + north q * north q)) in *;
  clearbody ra rb al be;
  (assert (W : IZR (b * c - a * d) = ra * rb * sin (al - be))
     by (rewrite minus_IZR, !mult_IZR, <- E1, <- E2, <- E3, <- E4, sin_minus, A1, A2, B1, B2; ring));
  (assert (Hr : ra * rb <= bpow radix2 23)
     by (pose proof (Rle_0_sqr (ra - rb)) as P; unfold Rsqr in P; lra));
  (assert (Hp : 0 < ra * rb) by (apply Rmult_lt_0_compat; auto));
  (destruct (Z.eq_dec (b * c - a * d) 0) as [Ez|Ez];
   [left; rewrite Ez in W; symmetry in W; apply Rmult_integral in W; destruct W as [W|W]; [lra|exact W]
   |right]);
  (assert (G : 1 <= Rabs (IZR (b * c - a * d))) by (rewrite <- abs_IZR; apply IZR_le; lia));
  rewrite W, Rabs_mult, (Rabs_pos_eq (ra * rb)) in G by lra;
  pose proof (Rabs_pos (sin (al - be)));
  (assert (K : bpow radix2 23 * bpow radix2 (-24) < 1)
     by (rewrite <- bpow_plus; change 1 with (bpow radix2 0); apply bpow_lt; lia));
  pose proof (bpow_gt_0 radix2 23);
  apply Rnot_le_lt; intros Q;
  (assert (Q2 : ra * rb * Rabs (sin (al - be)) <= bpow radix2 23 * bpow radix2 (-24))
     by (apply Rmult_le_compat; lra)); lra.
Qed.
