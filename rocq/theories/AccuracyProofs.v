(** Rounding errors of the ranges and of the curvature. *)
From Coq Require Import List ZArith Reals Bool Lia Lra Psatz.
From Flocq Require Import Core Relative IEEE754.BinarySingleNaN.
From Verif Require Import Base Arith ExtractModel Spec SpecReal SpecBearing SpecAccuracy LabelProofs
  RingProofs PipelineProofs MiscProofs FillProofs SeparationProofs ConvProofs CurvatureProofs FloatLemmas FiniteProofs.
Import ListNotations.
Open Scope R_scope.

Notation u53 := (bpow radix2 (-53)).

Lemma abs_between x y : Rabs x <= y <-> - y <= x <= y.
Proof.
  split; intros H.
  - unfold Rabs in H. destruct (Rcase_abs x); lra.
  - apply Rabs_le. lra.
Qed.

Lemma u53_small : 0 < u53 <= / 1024.
Proof.
  split; [apply bpow_gt_0|]. apply Rle_trans with (bpow radix2 (-10)); [apply bpow_le; lia|].
  simpl. lra.
Qed.

Lemma rnd_rel x : x = 0 \/ bpow radix2 (-1000) <= Rabs x -> Rabs (rnd x - x) <= u53 * Rabs x.
Proof.
  intros [->|H].
  - rewrite rnd_exact by (apply (fmt_IZR 0); simpl; lia). rewrite Rminus_0_r, Rabs_R0. lra.
  - pose proof (relative_error_N_FLT radix2 (-1074) 53 eq_refl (fun z => negb (Z.even z)) x) as E.
    unfold rnd. rewrite fexp_eq. eapply Rle_trans.
    + apply E. eapply Rle_trans; [|exact H]. apply bpow_le. lia.
    + change (- (53) + 1)%Z with (-53 + 1)%Z. rewrite bpow_plus. change (bpow radix2 1) with 2.
      right. field.
Qed.

Lemma rnd_rel_pos x : x = 0 \/ bpow radix2 (-1000) <= x -> (1 - u53) * x <= rnd x <= (1 + u53) * x.
Proof.
  intros H. assert (Hp : 0 <= x) by (pose proof (bpow_gt_0 radix2 (-1000)); lra).
  assert (H' : x = 0 \/ bpow radix2 (-1000) <= Rabs x) by (rewrite Rabs_pos_eq by auto; auto).
  apply rnd_rel in H'. rewrite (Rabs_pos_eq x) in H' by auto.
  apply abs_between in H'. lra.
Qed.

Section Range.
Variable acosf : b64 -> b64.
Notation A := (ieee acosf).

(** the computed range is the horizontal distance up to a relative error of 2^-51 *)
Lemma range_close (x y : b32) : is_finite x = true -> is_finite y = true ->
  Rabs (val (xy_norm A (conv64 x) (conv64 y)) - sqrt (B2R x * B2R x + B2R y * B2R y)) <=
  bpow radix2 (-51) * sqrt (B2R x * B2R x + B2R y * B2R y).
Proof.
  intros Hx Hy. destruct (conv64_ok x Hx) as [X1 X2], (conv64_ok y Hy) as [Y1 Y2].
  destruct (xy_norm_ok acosf (conv64 x) (conv64 y)) as [N1 _]; auto using conv64_bound.
  rewrite N1, X1, Y1. clear N1. pose proof u53_small as Hu.
  assert (Sq : forall z : b32, is_finite z = true ->
    0 <= B2R z * B2R z /\ (B2R z * B2R z = 0 \/ bpow radix2 (-298) <= B2R z * B2R z)).
  { intros z Hz. split; [nra|]. destruct (Req_dec (B2R z) 0) as [->|Hn]; [left; ring|right].
    pose proof (b32_min z Hz Hn) as Hm. change (-298)%Z with (-149 + -149)%Z. rewrite bpow_plus.
    replace (B2R z * B2R z) with (Rabs (B2R z) * Rabs (B2R z)).
    - pose proof (bpow_ge_0 radix2 (-149)). apply Rmult_le_compat; auto.
    - rewrite <- Rabs_mult. apply Rabs_pos_eq. nra. }
  destruct (Sq x Hx) as [Pa La]. destruct (Sq y Hy) as [Pb Lb]. clear Sq.
  set (a := B2R x * B2R x) in *. set (b := B2R y * B2R y) in *.
  assert (L298 : bpow radix2 (-1000) <= bpow radix2 (-299)) by (apply bpow_le; lia).
  assert (L299 : bpow radix2 (-298) = 2 * bpow radix2 (-299)).
  { change 2 with (bpow radix2 1). rewrite <- bpow_plus. auto. }
  pose proof (bpow_gt_0 radix2 (-299)) as P299.
  destruct (rnd_rel_pos a) as [A1 A2]; [lra|]. destruct (rnd_rel_pos b) as [B1 B2]; [lra|].
  assert (SL : rnd a + rnd b = 0 \/ bpow radix2 (-299) <= rnd a + rnd b).
  { destruct La as [La|La], Lb as [Lb|Lb]; rewrite ?La, ?Lb in *;
      [left; nra|right|right|right]; nra. }
  destruct (rnd_rel_pos (rnd a + rnd b)) as [C1 C2]; [lra|].
  set (c := rnd (rnd a + rnd b)) in *.
  assert (SC : c = 0 \/ bpow radix2 (-300) <= c).
  { assert (E300 : bpow radix2 (-299) = 2 * bpow radix2 (-300)).
    { change 2 with (bpow radix2 1). rewrite <- bpow_plus. auto. }
    destruct SL as [SL|SL]; [left; nra|right; nra]. }
  assert (N1 : (1 - u53) * (1 - u53) * (a + b) <= c) by nra.
  assert (N2 : c <= (1 + u53) * (1 + u53) * (a + b)) by nra.
  assert (Pc : 0 <= c) by nra.
  assert (Q1 : (1 - u53) * sqrt (a + b) <= sqrt c).
  { rewrite <- (sqrt_square (1 - u53)) by lra. rewrite <- sqrt_mult by nra. apply sqrt_le_1_alt. lra. }
  assert (Q2 : sqrt c <= (1 + u53) * sqrt (a + b)).
  { rewrite <- (sqrt_square (1 + u53)) by lra. rewrite <- sqrt_mult by nra. apply sqrt_le_1_alt. lra. }
  assert (QL : sqrt c = 0 \/ bpow radix2 (-1000) <= sqrt c).
  { destruct SC as [SC|SC]; [left; rewrite SC; apply sqrt_0|right].
    apply Rle_trans with (bpow radix2 (-150)); [apply bpow_le; lia|].
    rewrite <- (sqrt_square (bpow radix2 (-150))) by apply bpow_ge_0.
    apply sqrt_le_1_alt. rewrite <- bpow_plus. exact SC. }
  destruct (rnd_rel_pos (sqrt c) QL) as [D1 D2].
  pose proof (sqrt_pos (a + b)) as Pr. set (r := sqrt (a + b)) in *.
  assert (E51 : bpow radix2 (-51) = 4 * u53).
  { change 4 with (bpow radix2 2). rewrite <- bpow_plus. auto. }
  rewrite E51. apply abs_between.
  assert (F1 : (1 - u53) * ((1 - u53) * r) <= rnd (sqrt c)) by nra.
  assert (F2 : rnd (sqrt c) <= (1 + u53) * ((1 + u53) * r)) by nra.
  assert (G : u53 * u53 * r <= u53 * r) by nra.
  split; nra.
Qed.

(** ** The window sum *)
Lemma fmt_kM k M : (0 <= k <= 2 ^ 53)%Z -> (-1000 <= M <= 200)%Z -> fmt (IZR k * bpow radix2 M).
Proof.
  intros H HM. destruct (Z.eq_dec k (2 ^ 53)) as [->|Hn].
  - change (IZR (2 ^ 53)) with (bpow radix2 53). rewrite <- bpow_plus. apply fmt_bpow. lia.
  - unfold fmt. rewrite fexp_eq. apply generic_format_FLT.
    apply FLT_spec with (f := Float radix2 k M); simpl.
    + reflexivity.
    + change (Z.pow_pos 2 53) with (2 ^ 53)%Z. lia.
    + lia.
Qed.

Lemma Forall_nth_default {T} (Q : T -> Prop) l d : Forall Q l -> Q d -> forall k, Q (nth k l d).
Proof. intros H Hd. induction H; intros [|k]; cbn [nth]; auto. Qed.

Section Sum.
Variables (p : nat) (ranges : list b64) (M b : Z).
Hypothesis HM : (-100 <= M <= 130)%Z.
Hypothesis Hb : (0 <= b <= 30)%Z.
Hypothesis Hp : (Z.of_nat p <= 2 ^ b)%Z.
Hypothesis HR : Forall (fun x => fin x /\ Rabs (val x) <= bpow radix2 M) ranges.

Notation rg k := (nth k ranges (of_Z64 0)).
Notation eps := (bpow radix2 (M + b - 51)).

Lemma rg_ok k : fin (rg k) /\ Rabs (val (rg k)) <= bpow radix2 M.
Proof.
  destruct (of_Z64_ok 0) as [H1 H2]; [simpl; lia|].
  assert (Hz : fin (of_Z64 0) /\ Rabs (val (of_Z64 0)) <= bpow radix2 M).
  { rewrite H1, Rabs_R0. split; auto using bpow_ge_0. }
  apply (Forall_nth_default (fun x => fin x /\ Rabs (val x) <= bpow radix2 M)); auto.
Qed.

Lemma fourp : (4 * Z.of_nat p <= 2 ^ (b + 2))%Z.
Proof. rewrite Z.pow_add_r by lia. change (2 ^ 2)%Z with 4%Z. lia. Qed.

Lemma four_bound W : (0 <= W <= 4 * Z.of_nat p)%Z ->
  IZR W * bpow radix2 M <= bpow radix2 (M + b + 2) /\ fmt (IZR W * bpow radix2 M).
Proof.
  intros HW. pose proof fourp as F.
  assert (2 ^ (b + 2) <= 2 ^ 32)%Z by (apply Z.pow_le_mono_r; lia).
  split; [|apply fmt_kM; lia].
  replace (M + b + 2)%Z with ((b + 2) + M)%Z by lia. rewrite bpow_plus.
  apply Rmult_le_compat_r; [apply bpow_ge_0|]. rewrite <- IZR_Zpower by lia.
  apply IZR_le. simpl. lia.
Qed.

(** adding a double with an error of at most eps *)
Lemma add_close s x V W : fin s -> fin x -> (0 <= V)%Z -> (0 <= W)%Z -> (V + W <= 4 * Z.of_nat p)%Z ->
  Rabs (val s) <= IZR V * bpow radix2 M -> Rabs (val x) <= IZR W * bpow radix2 M ->
  fin (add64 s x) /\ Rabs (val (add64 s x)) <= IZR (V + W) * bpow radix2 M /\
  Rabs (val (add64 s x) - (val s + val x)) <= eps.
Proof.
  intros Hs Hx HV HW Hvw Bs Bx. destruct (four_bound (V + W)) as [F1 F2]; [lia|].
  assert (B : Rabs (val s + val x) <= IZR (V + W) * bpow radix2 M).
  { eapply Rle_trans; [apply Rabs_triang|]. rewrite plus_IZR. lra. }
  destruct (add64_ok s x (M + b + 2) Hs Hx) as [S1 S2]; [lia|lra|].
  split; auto. rewrite S1. split; [apply rnd_le; auto|].
  replace (M + b - 51)%Z with ((M + b + 2) - 53)%Z by lia. apply rnd_err; [lia|lra].
Qed.

Notation stepf i := (fun s k => d_add A s (d_mul A (nth (i + k) ranges (d_of_Z A 0)) (weight_at A p k))).

Lemma side i l : forall s V, (forall a, In a l -> a <> p) -> fin s -> (0 <= V)%Z ->
  (V + Z.of_nat (length l) <= 4 * Z.of_nat p)%Z -> Rabs (val s) <= IZR V * bpow radix2 M ->
  let r := fold_left (stepf i) l s in
  fin r /\ Rabs (val r) <= IZR (V + Z.of_nat (length l)) * bpow radix2 M /\
  Rabs (val r - (val s + rsum (fun k => val (rg (i + k))) l)) <= INR (length l) * eps.
Proof.
  induction l as [|a l IH]; intros s V Hl Hs HV HW Bs.
  - cbn [fold_left length]. rewrite Z.add_0_r. unfold rsum. simpl. split; auto. split; auto.
    replace (val s - (val s + 0)) with 0 by ring. rewrite Rabs_R0. lra.
  - cbn [length] in HW. destruct (rg_ok (i + a)) as [R1 R2].
    destruct (of_Z64_ok 1) as [O1 O2]; [simpl; lia|].
    assert (Hw : weight_at A p a = of_Z64 1).
    { unfold weight_at. destruct (a =? p)%nat eqn:E; auto. apply Nat.eqb_eq in E.
      exfalso. apply (Hl a); [left; auto|auto]. }
    cbn [fold_left]. cbv zeta. rewrite Hw. cbn [ieee d_add d_mul d_of_Z].
    destruct (mul64_ok (rg (i + a)) (of_Z64 1) M R1 O2) as [P1 P2];
      [lia|rewrite O1, Rmult_1_r; auto|].
    rewrite O1, Rmult_1_r, rnd_exact in P1 by apply fmt_val.
    destruct (add_close s (mul64 (rg (i + a)) (of_Z64 1)) V 1) as [S1 [S2 S3]]; auto; try lia.
    { rewrite P1. lra. }
    set (s' := add64 s (mul64 (rg (i + a)) (of_Z64 1))) in *.
    destruct (IH s' (V + 1)%Z) as [I1 [I2 I3]]; auto; try lia.
    { intros c Hc. apply Hl. right. auto. }
    cbn [ieee d_add d_mul d_of_Z] in I1, I2, I3.
    split; auto. split.
    { replace (V + Z.of_nat (length (a :: l)))%Z with (V + 1 + Z.of_nat (length l))%Z by (cbn [length]; lia).
      auto. }
    rewrite rsum_cons. cbn [length]. rewrite S_INR. rewrite P1 in S3.
    match goal with |- Rabs (?x - (?v + (?g + ?r))) <= _ =>
      replace (x - (v + (g + r))) with ((x - (val s' + r)) + (val s' - (v + g))) by ring end.
    eapply Rle_trans; [apply Rabs_triang|]. lra.
Qed.

Lemma centre s i V : fin s -> (0 <= V)%Z -> (V + 2 * Z.of_nat p <= 4 * Z.of_nat p)%Z ->
  Rabs (val s) <= IZR V * bpow radix2 M ->
  let r := stepf i s p in
  fin r /\ Rabs (val r) <= IZR (V + 2 * Z.of_nat p) * bpow radix2 M /\
  Rabs (val r - (val s + val (rg (i + p)) * (- 2 * INR p))) <= 2 * eps.
Proof.
  intros Hs HV HW Bs. cbv zeta. destruct (rg_ok (i + p)) as [R1 R2].
  destruct (of_Z64_ok (-2)) as [T1 T2]; [simpl; lia|].
  pose proof fourp as F.
  assert (2 ^ (b + 2) <= 2 ^ 32)%Z by (apply Z.pow_le_mono_r; lia).
  destruct (of_Z64_ok (Z.of_nat p)) as [P1 P2]; [lia|].
  assert (Hw : val (weight_at A p p) = - 2 * INR p /\ fin (weight_at A p p)).
  { unfold weight_at. rewrite Nat.eqb_refl. cbn [ieee d_mul d_of_Z].
    assert (Bw : Rabs (val (of_Z64 (-2)) * val (of_Z64 (Z.of_nat p))) <= bpow radix2 32).
    { rewrite T1, P1, <- mult_IZR, <- abs_IZR. change (bpow radix2 32) with (IZR (2 ^ 32)).
      apply IZR_le. lia. }
    destruct (mul64_ok (of_Z64 (-2)) (of_Z64 (Z.of_nat p)) 32) as [M1 M2]; auto; [lia|].
    split; auto. rewrite M1, T1, P1, <- mult_IZR, rnd_exact by (apply fmt_IZR; lia).
    rewrite mult_IZR, INR_IZR_INZ. lra. }
  destruct Hw as [W1 W2]. cbn [ieee d_add d_mul d_of_Z] in *.
  destruct (four_bound (2 * Z.of_nat p)) as [F1 F2]; [lia|].
  assert (Bx : Rabs (val (rg (i + p)) * val (weight_at A p p)) <= IZR (2 * Z.of_nat p) * bpow radix2 M).
  { rewrite W1, mult_IZR, <- INR_IZR_INZ, Rmult_comm. pose proof (pos_INR p).
    rewrite Rabs_mult. replace (Rabs (-2 * INR p)) with (2 * INR p).
    - apply Rmult_le_compat_l; [nra|auto].
    - rewrite <- Rabs_Ropp. rewrite Rabs_pos_eq; nra. }
  destruct (mul64_ok (rg (i + p)) (weight_at A p p) (M + b + 2) R1 W2) as [M1 M2]; [lia|lra|].
  assert (E : Rabs (val (mul64 (rg (i + p)) (weight_at A p p)) - val (rg (i + p)) * (- 2 * INR p)) <= eps).
  { rewrite M1, <- W1. replace (M + b - 51)%Z with ((M + b + 2) - 53)%Z by lia. apply rnd_err; [lia|lra]. }
  destruct (add_close s (mul64 (rg (i + p)) (weight_at A p p)) V (2 * Z.of_nat p)) as [S1 [S2 S3]]; auto; try lia.
  { rewrite M1. apply rnd_le; auto. }
  split; auto. split; auto.
  set (x := mul64 (rg (i + p)) (weight_at A p p)) in *. set (y := add64 s x) in *.
  match goal with |- Rabs (val y - (val s + ?g)) <= _ =>
    replace (val y - (val s + g)) with ((val y - (val s + val x)) + (val x - g)) by ring end.
  eapply Rle_trans; [apply Rabs_triang|]. lra.
Qed.

Lemma exact_side i (r : list R) l : forall s, (forall a, In a l -> a <> p) ->
  fold_left (fun s k => d_add exact s (d_mul exact (nth (i + k) r (d_of_Z exact 0)) (weight_at exact p k))) l s =
  s + rsum (fun k => nth (i + k) r 0) l.
Proof.
  induction l as [|a l IH]; intros s H; [unfold rsum; simpl; lra|].
  cbn [fold_left]. rewrite IH by (intros c Hc; apply H; right; auto). rewrite rsum_cons.
  unfold weight_at. destruct (a =? p)%nat eqn:E.
  { apply Nat.eqb_eq in E. exfalso. apply (H a); [left; auto|auto]. }
  cbn [exact d_add d_mul d_of_Z]. lra.
Qed.

Lemma nth_val k : nth k (map val ranges) 0 = val (rg k).
Proof.
  rewrite <- (map_nth val). reflexivity.
Qed.

Lemma sum_close i :
  fin (curv_sum A p ranges i) /\
  Rabs (val (curv_sum A p ranges i) - second_diff (fun k => val (rg k)) p (i + p)) <=
  INR (2 * p + 2) * eps.
Proof.
  assert (E : second_diff (fun k => val (rg k)) p (i + p) = curv_sum exact p (map val ranges) i).
  { rewrite curv_sum_exact. apply second_diff_ext. intros k _. symmetry. apply nth_val. }
  rewrite E. clear E. unfold curv_sum.
  replace (2 * p + 1)%nat with (p + (1 + p))%nat by lia. rewrite seq_app. cbn [seq Nat.add].
  rewrite !fold_left_app. cbn [fold_left].
  destruct (of_Z64_ok 0) as [Z1 Z2]; [simpl; lia|].
  destruct (side i (seq 0 p) (d_of_Z A 0) 0%Z) as [A1 [A2 A3]].
  { intros a Ha. apply in_seq in Ha. lia. } { exact Z2. } { lia. } { rewrite seq_length. lia. }
  { cbn [ieee d_of_Z]. rewrite Z1, Rabs_R0. lra. }
  rewrite seq_length in *. set (s1 := fold_left (stepf i) (seq 0 p) (d_of_Z A 0)) in *.
  destruct (centre s1 i (0 + Z.of_nat p)%Z) as [B1 [B2 B3]]; auto; try lia.
  match type of B1 with fin ?e => set (s2 := e) in * end.
  destruct (side i (seq (S p) p) s2 (0 + Z.of_nat p + 2 * Z.of_nat p)%Z) as [C1 [C2 C3]]; auto; try lia.
  { intros a Ha. apply in_seq in Ha. lia. } { rewrite seq_length. lia. }
  rewrite seq_length in *. split; [exact C1|].
  rewrite exact_side by (intros a Ha; apply in_seq in Ha; lia).
  rewrite exact_side by (intros a Ha; apply in_seq in Ha; lia).
  set (s3 := fold_left (stepf i) (seq (S p) p) s2) in *.
  assert (Hc : weight_at exact p p = - 2 * INR p).
  { unfold weight_at. rewrite Nat.eqb_refl. cbn [exact d_mul d_of_Z]. rewrite <- INR_IZR_INZ. lra. }
  rewrite Hc. cbn [exact d_add d_mul d_of_Z].
  rewrite (rsum_ext (fun k => nth (i + k) (map val ranges) 0) (fun k => val (rg (i + k))) (seq 0 p))
    by (intros; apply nth_val).
  rewrite (rsum_ext (fun k => nth (i + k) (map val ranges) 0) (fun k => val (rg (i + k))) (seq (S p) p))
    by (intros; apply nth_val).
  rewrite nth_val.
  cbn [ieee d_of_Z] in A3. rewrite Z1 in A3.
  set (q1 := rsum _ (seq 0 p)) in *. set (q3 := rsum _ (seq (S p) p)) in *.
  set (q2 := val (rg (i + p)) * (-2 * INR p)) in *.
  replace (INR (2 * p + 2)) with (INR p + 2 + INR p).
  2:{ rewrite plus_INR, mult_INR. simpl. lra. }
  assert (G : Rabs (val s3 - (0 + q1 + q2 + q3)) <= (INR p + 2 + INR p) * eps).
  { apply abs_between in A3, B3, C3. apply abs_between. lra. }
  exact G.
Qed.
End Sum.

Lemma rsum_diff f g l : forall c, (forall k, In k l -> Rabs (f k - g k) <= c) ->
  Rabs (rsum f l - rsum g l) <= INR (length l) * c.
Proof.
  induction l as [|k l IH]; intros c H.
  - unfold rsum. simpl. rewrite Rminus_0_r, Rabs_R0. lra.
  - rewrite !rsum_cons. cbn [length]. rewrite S_INR.
    replace (f k + rsum f l - (g k + rsum g l)) with ((f k - g k) + (rsum f l - rsum g l)) by ring.
    eapply Rle_trans; [apply Rabs_triang|].
    specialize (IH c (fun j Hj => H j (or_intror Hj))). specialize (H k (or_introl eq_refl)). lra.
Qed.

Lemma second_diff_close f g p j d : (forall k, Rabs (f k - g k) <= d) ->
  Rabs (second_diff f p j - second_diff g p j) <= INR (4 * p) * d.
Proof.
  intros H. unfold second_diff.
  replace (INR (4 * p) * d) with (INR (length (seq 1 p)) * (4 * d)).
  2:{ rewrite seq_length, mult_INR. simpl. lra. }
  apply rsum_diff. intros k _.
  pose proof (H (j - k)%nat) as H1. pose proof (H j) as H2. pose proof (H (j + k)%nat) as H3.
  apply abs_between in H1, H2, H3. apply abs_between. lra.
Qed.

(** ** A ring *)
Section Ring.
Variables (cloud : list (point A)) (m b : Z) (p : nat).
Hypothesis Hm : (-100 <= m <= 100)%Z.
Hypothesis Hb : (0 <= b <= 30)%Z.
Hypothesis Hp1 : (1 <= p)%nat.
Hypothesis Hp : (Z.of_nat p <= 2 ^ b)%Z.
Hypothesis HC : forall q, In q cloud -> finite_xy acosf q /\ reach q <= bpow radix2 m.

Lemma point_range q : In q cloud ->
  let r := xy_norm A (f2d A (px A q)) (f2d A (py A q)) in
  fin r /\ Rabs (val r) <= bpow radix2 (m + 1) /\ Rabs (val r - reach q) <= bpow radix2 (m - 51).
Proof.
  intros Hq. destruct (HC q Hq) as [[Fx Fy] Hr]. cbv zeta. cbn [ieee f2d].
  destruct (conv64_ok _ Fx) as [X1 X2], (conv64_ok _ Fy) as [Y1 Y2].
  destruct (xy_norm_ok acosf (conv64 (px A q)) (conv64 (py A q))) as [_ [N2 N3]]; auto using conv64_bound.
  pose proof (range_close _ _ Fx Fy) as C.
  change (sqrt (B2R (px A q : b32) * B2R (px A q : b32) + B2R (py A q : b32) * B2R (py A q : b32))) with (reach q) in C.
  assert (P0 : 0 <= reach q) by apply sqrt_pos.
  assert (E : bpow radix2 (-51) * reach q <= bpow radix2 (m - 51)).
  { replace (m - 51)%Z with (-51 + m)%Z by lia. rewrite bpow_plus.
    apply Rmult_le_compat_l; [apply bpow_ge_0|auto]. }
  split; auto. split; [|lra].
  rewrite Rabs_pos_eq by lra. apply abs_between in C.
  assert (bpow radix2 (m - 51) <= bpow radix2 m) by (apply bpow_le; lia).
  rewrite bpow_plus. change (bpow radix2 1) with 2. lra.
Qed.

Variables (ix : list Z) (ranges curv : list b64).
Hypothesis HR : range_interval A {| m_cloud := cloud; m_indices := ix |} 0 (zlen ix) = Ok ranges.
Hypothesis HCv : calc_curvature A ranges (Z.of_nat p) = Ok curv.

Lemma ring_range_len : length ranges = length ix.
Proof.
  destruct (range_interval_from_zero _ _ _ _ (Zle_0_nat _) HR) as [H _].
  apply Nat2Z.inj. exact H.
Qed.

Lemma ring_range k v : nth_error ranges k = Some v ->
  fin v /\ Rabs (val v) <= bpow radix2 (m + 1) /\ Rabs (val v - profile cloud ix k) <= bpow radix2 (m - 51).
Proof.
  intros H. destruct (range_interval_from_zero _ _ _ _ (Zle_0_nat _) HR) as [_ G].
  assert (Hk : (k < length ix)%nat).
  { rewrite <- ring_range_len. apply nth_error_Some. congruence. }
  destruct (G (Z.of_nat k)) as [w [W1 W2]]; [unfold zlen; lia|].
  unfold get in W1. destruct (Z.of_nat k <? 0)%Z eqn:E; [apply Z.ltb_lt in E; lia|].
  rewrite Nat2Z.id in W1. assert (W3 : Some v = Some w) by (rewrite <- H; exact W1).
  clear W1; rename W3 into W1. inversion W1; subst w; clear W1.
  unfold range_at, m_at in W2. cbn [m_indices m_cloud] in W2.
  destruct (vat ix (Z.of_nat k)) as [j| | | | |] eqn:Ej; cbn [bind] in W2; try discriminate.
  destruct (vat cloud j) as [q| | | | |] eqn:Eq; cbn [bind] in W2; try discriminate.
  inversion W2; subst v; clear W2. apply vat_get in Ej, Eq.
  unfold profile. rewrite Ej, Eq. apply point_range.
  unfold get in Eq. destruct (j <? 0)%Z; [discriminate|]. eapply nth_error_In; eauto.
Qed.

(** the error of the window sum *)
Lemma allowance_ok :
  INR (2 * p + 2) * bpow radix2 (m + 1 + b - 51) + INR (4 * p) * bpow radix2 (m - 51) <= allowance m b.
Proof.
  unfold allowance.
  replace (m + 1 + b - 51)%Z with ((m - 51) + (b + 1))%Z by lia.
  replace (m + 2 * b - 47)%Z with ((m - 51) + (2 * b + 4))%Z by lia.
  rewrite !(bpow_plus radix2 (m - 51)).
  pose proof (bpow_gt_0 radix2 (m - 51)) as P0.
  assert (E1 : bpow radix2 (b + 1) = 2 * bpow radix2 b).
  { rewrite bpow_plus. change (bpow radix2 1) with 2. ring. }
  assert (E2 : bpow radix2 (2 * b + 4) = 16 * (bpow radix2 b * bpow radix2 b)).
  { rewrite bpow_plus. replace (2 * b)%Z with (b + b)%Z by lia. rewrite bpow_plus.
    change (bpow radix2 4) with 16. ring. }
  rewrite E1, E2.
  assert (B1 : INR p <= bpow radix2 b).
  { rewrite INR_IZR_INZ, <- IZR_Zpower by lia. apply IZR_le. exact Hp. }
  assert (B2 : 1 <= INR p) by (change 1 with (INR 1); apply le_INR; auto).
  rewrite plus_INR, !mult_INR. replace (INR 2) with 2 by (simpl; lra). replace (INR 4) with 4 by (simpl; lra).
  set (x := bpow radix2 b) in *. set (y := INR p) in *. set (z := bpow radix2 (m - 51)) in *.
  replace ((2 * y + 2) * (z * (2 * x)) + 4 * y * z) with (z * ((2 * y + 2) * (2 * x) + 4 * y)) by ring.
  apply Rmult_le_compat_l; [lra|]. nra.
Qed.

Lemma ring_close j v : (p <= j)%nat -> (j < length ix - p)%nat -> nth_error curv j = Some v ->
  fin v /\ exists t, Rabs (t - bend cloud ix p j) <= allowance m b /\ val v = rnd (t * t).
Proof.
  intros Hj1 Hj2 Hv.
  destruct (Nat.lt_ge_cases (length ranges) (2 * p + 1)) as [Hl|Hl].
  { rewrite curvature_short in HCv by auto. discriminate. }
  pose proof HCv as HC'. rewrite curvature_ok in HC' by auto. inversion HC' as [E]; clear HC'.
  rewrite <- E in Hv. rewrite ring_range_len in *. rewrite nth_error_map in Hv.
  rewrite nth_error_app2 in Hv by (rewrite repeat_length; auto). rewrite repeat_length in Hv.
  rewrite nth_error_app1 in Hv by (rewrite map_length, seq_length; lia).
  rewrite nth_error_map, (nth_error_nth' _ O) in Hv by (rewrite seq_length; lia).
  rewrite seq_nth in Hv by lia. cbn [option_map Nat.add] in Hv. inversion Hv; subst v; clear Hv.
  assert (HF : Forall (fun x => fin x /\ Rabs (val x) <= bpow radix2 (m + 1)) ranges).
  { apply Forall_forall. intros x Hx. apply In_nth_error in Hx. destruct Hx as [k Hk].
    destruct (ring_range k x Hk) as [H1 [H2 _]]. auto. }
  destruct (sum_close p ranges (m + 1) b ltac:(lia) Hb Hp HF (j - p)) as [S1 S2].
  replace (j - p + p)%nat with j in S2 by lia.
  assert (S3 : Rabs (second_diff (fun k => val (nth k ranges (of_Z64 0))) p j - bend cloud ix p j) <=
               INR (4 * p) * bpow radix2 (m - 51)).
  { apply second_diff_close. intros k. destruct (nth_error ranges k) as [v|] eqn:Ek.
    - erewrite nth_error_nth by eauto. apply ring_range. auto.
    - rewrite nth_overflow by (apply nth_error_None; auto).
      apply nth_error_None in Ek. rewrite ring_range_len in Ek.
      unfold profile, get. destruct (Z.of_nat k <? 0)%Z; [|rewrite Nat2Z.id, (proj2 (nth_error_None ix k)) by auto];
        change (val (of_Z64 0)) with 0; rewrite Rminus_0_r, Rabs_R0; apply bpow_ge_0. }
  destruct (curv_sum_ok acosf p ranges (j - p)) as [Q1 Q2].
  { eapply Forall_impl; [|exact HF]. intros x [H1 H2]. split; auto. eapply Rle_trans; [exact H2|].
    apply bpow_le. lia. }
  { assert (2 ^ b <= 2 ^ 30)%Z by (apply Z.pow_le_mono_r; lia). lia. }
  destruct (sqr_ok _ Q1 Q2) as [V1 [V2 _]].
  split; [exact V2|]. exists (val (curv_sum A p ranges (j - p))). split; [|exact V1].
  pose proof allowance_ok. apply abs_between in S2, S3. apply abs_between. lra.
Qed.
End Ring.

(** ** Thresholds *)
Lemma allowance_low m b : (-100 <= m)%Z -> (0 <= b)%Z -> bpow radix2 (-1000) <= allowance m b * allowance m b.
Proof. intros. unfold allowance. rewrite <- bpow_plus. apply bpow_le. lia. Qed.

Lemma bpow52 : bpow radix2 (-52) = 2 * u53.
Proof. change 2 with (bpow radix2 1). rewrite <- bpow_plus. auto. Qed.

(** a curvature that reaches a threshold comes from a bend that does, up to the allowance *)
Lemma reach_threshold S a t e : 0 <= a -> bpow radix2 (-1000) <= a * a ->
  Rabs (t - S) <= a -> e <= rnd (t * t) -> (1 - bpow radix2 (-52)) * sqrt e - a <= Rabs S.
Proof.
  intros Ha La Ht He. pose proof u53_small as Hu. rewrite bpow52.
  set (w := Rabs S + a). assert (Hw : 0 <= w) by (unfold w; pose proof (Rabs_pos S); lra).
  assert (Tw : t * t <= w * w).
  { assert (Rabs t <= w). { unfold w. replace t with (S + (t - S)) by ring.
      eapply Rle_trans; [apply Rabs_triang|]. lra. }
    replace (t * t) with (Rabs t * Rabs t).
    - apply Rmult_le_compat; auto using Rabs_pos.
    - rewrite <- Rabs_mult. apply Rabs_pos_eq. nra. }
  assert (Lw : bpow radix2 (-1000) <= w * w).
  { eapply Rle_trans; [exact La|]. unfold w. pose proof (Rabs_pos S). nra. }
  destruct (rnd_rel_pos (w * w) (or_intror Lw)) as [_ R2]. apply rnd_mono in Tw.
  assert (E : e <= (1 + u53) * (w * w)) by lra.
  assert (Q : sqrt e <= (1 + u53) * w).
  { rewrite <- (sqrt_square ((1 + u53) * w)) by nra. apply sqrt_le_1_alt. nra. }
  assert (QQ : (1 - 2 * u53) * sqrt e <= (1 - 2 * u53) * ((1 + u53) * w)) by (apply Rmult_le_compat_l; lra).
  assert ((1 - 2 * u53) * (1 + u53) <= 1) by nra.
  assert ((1 - 2 * u53) * ((1 + u53) * w) <= w) by nra. unfold w in *. lra.
Qed.

(** and one that stays below a threshold from a bend that does *)
Lemma keep_threshold S a t s : 0 <= a -> bpow radix2 (-1000) <= a * a ->
  Rabs (t - S) <= a -> rnd (t * t) <= s -> Rabs S <= (1 + bpow radix2 (-52)) * sqrt s + 2 * a.
Proof.
  intros Ha La Ht He. pose proof u53_small as Hu. rewrite bpow52.
  destruct (Rle_lt_dec (Rabs S) (2 * a)) as [Hs|Hs].
  { pose proof (sqrt_pos s). nra. }
  set (w := Rabs S - a). assert (Hw : a <= w) by (unfold w; lra).
  assert (Tw : w * w <= t * t).
  { assert (w <= Rabs t). { unfold w. pose proof (Rabs_triang_inv S (S - t)) as T.
      replace (S - (S - t)) with t in T by ring. rewrite (Rabs_minus_sym S t) in T. lra. }
    replace (t * t) with (Rabs t * Rabs t).
    - apply Rmult_le_compat; lra.
    - rewrite <- Rabs_mult. apply Rabs_pos_eq. nra. }
  assert (Lw : bpow radix2 (-1000) <= w * w) by nra.
  destruct (rnd_rel_pos (w * w) (or_intror Lw)) as [R1 _]. apply rnd_mono in Tw.
  assert (E : (1 - u53) * (w * w) <= s) by lra.
  assert (Q : (1 - u53) * w <= sqrt s).
  { rewrite <- (sqrt_square ((1 - u53) * w)) by nra. apply sqrt_le_1_alt. nra. }
  assert (QQ : (1 + 2 * u53) * ((1 - u53) * w) <= (1 + 2 * u53) * sqrt s) by (apply Rmult_le_compat_l; lra).
  assert (1 <= (1 + 2 * u53) * (1 - u53)) by nra.
  assert (w <= (1 + 2 * u53) * ((1 - u53) * w)) by nra. unfold w in *. lra.
Qed.
End Range.
