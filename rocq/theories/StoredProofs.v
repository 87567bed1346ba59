(** Rounding errors of stored points. *)
From Coq Require Import List ZArith Reals Bool Lia Lra Psatz.
From Flocq Require Import Core Relative IEEE754.BinarySingleNaN.
From Verif Require Import Base Arith PoseModel SpecIeee MapModel RoundTripModel TransformModel SpecStored FloatLemmas FiniteProofs FloatAngle AccuracyProofs.
Import ListNotations.
Open Scope R_scope.

Local Notation r32 x := (round radix2 fe ZnearestE x).

(** ** The operations *)
Lemma mul_near x y k : fin x -> fin y -> (-900 <= k <= 1000)%Z -> Rabs (val x * val y) <= bpow radix2 k ->
  fin (mul64 x y) /\ Rabs (val (mul64 x y)) <= bpow radix2 k /\ Rabs (val (mul64 x y) - val x * val y) <= bpow radix2 (k - 53).
Proof.
  intros Hx Hy Hk H. destruct (mul64_ok x y k Hx Hy ltac:(lia) H) as [M1 M2]. split; [exact M2|]. rewrite M1. split; [apply rnd_le; [apply fmt_bpow; lia|exact H]|apply rnd_err; [lia|exact H]].
Qed.
Lemma add_near x y k : fin x -> fin y -> (-900 <= k <= 1000)%Z -> Rabs (val x + val y) <= bpow radix2 k ->
  fin (add64 x y) /\ Rabs (val (add64 x y)) <= bpow radix2 k /\ Rabs (val (add64 x y) - (val x + val y)) <= bpow radix2 (k - 53).
Proof.
  intros Hx Hy Hk H. destruct (add64_ok x y k Hx Hy ltac:(lia) H) as [M1 M2]. split; [exact M2|]. rewrite M1. split; [apply rnd_le; [apply fmt_bpow; lia|exact H]|apply rnd_err; [lia|exact H]].
Qed.
Lemma sub_near x y k : fin x -> fin y -> (-900 <= k <= 1000)%Z -> Rabs (val x - val y) <= bpow radix2 k ->
  fin (sub64 x y) /\ Rabs (val (sub64 x y)) <= bpow radix2 k /\ Rabs (val (sub64 x y) - (val x - val y)) <= bpow radix2 (k - 53).
Proof.
  intros Hx Hy Hk H. destruct (sub64_ok x y k Hx Hy ltac:(lia) H) as [M1 M2]. split; [exact M2|]. rewrite M1. split; [apply rnd_le; [apply fmt_bpow; lia|exact H]|apply rnd_err; [lia|exact H]].
Qed.

(** conversion to float *)
Lemma conv32_ok (x : b64) : fin x -> Rabs (val x) <= bpow radix2 127 -> B2R (conv32 x) = r32 (val x) /\ is_finite (conv32 x) = true.
Proof.
  intros Hx Hb. unfold fin, val in *. destruct x as [s|s| |s m e B]; try discriminate.
  - cbn [conv32 is_finite B2R]. split; [|reflexivity]. symmetry. apply r32_0.
  - cbn [conv32]. pose proof (binary_normalize_correct 24 128 prec32 emax32 mode_NE (cond_Zopp s (Zpos m)) e s) as C. cbv zeta in C.
    change (round_mode mode_NE) with ZnearestE in C. cbn [B2R] in Hb |- *. rewrite r32_lt_emax in C by exact Hb. destruct C as [C1 [C2 _]]. split; assumption.
Qed.
Lemma r32_near x : Rabs (r32 x - x) <= bpow radix2 (-24) * Rabs x + bpow radix2 (-118).
Proof.
  pose proof (bpow_gt_0 radix2 (-118)). destruct (Rle_lt_dec (bpow radix2 (-120)) (Rabs x)) as [L|L].
  - pose proof (r32_rel x L). lra.
  - assert (R : Rabs (r32 x) <= bpow radix2 (-120)) by (apply abs_round_le_generic; [apply vexp32|apply valid_rnd_N|apply f32_bpow; lia|lra]).
    assert (E : bpow radix2 (-118) = 4 * bpow radix2 (-120)) by (change 4 with (bpow radix2 2); rewrite <- bpow_plus; reflexivity).
    assert (T : Rabs (r32 x - x) <= Rabs (r32 x) + Rabs x) by (unfold Rminus; eapply Rle_trans; [apply Rabs_triang|rewrite Rabs_Ropp; lra]).
    assert (0 <= bpow radix2 (-24) * Rabs x) by (apply Rmult_le_pos; [apply bpow_ge_0|apply Rabs_pos]). lra.
Qed.

(** ** The matrix of a quaternion *)
Section Matrix.
Variable acosf : b64 -> b64.
Notation A := (ieee acosf).

(** A double close to a real number. *)
Definition near (x : b64) (v B e : R) : Prop := fin x /\ Rabs (val x) <= B /\ Rabs (val x - v) <= e.

Lemma twice x : fin x -> Rabs (val x) <= 2 -> near (mul64 (of_Z64 2) x) (2 * val x) 4 (bpow radix2 (-51)).
Proof.
  intros F H. destruct (of_Z64_ok 2) as [T1 T2]; [simpl; lia|].
  assert (B : Rabs (val (of_Z64 2) * val x) <= bpow radix2 2) by (rewrite T1, Rabs_mult, (Rabs_pos_eq 2) by lra; change (bpow radix2 2) with 4; lra).
  pose proof (mul_near (of_Z64 2) x 2 T2 F ltac:(lia) B) as N. rewrite T1 in N. exact N.
Qed.
Lemma product x y : fin x -> fin y -> Rabs (val x) <= 2 -> Rabs (val y) <= 2 ->
  near (mul64 (mul64 (of_Z64 2) x) y) (2 * val x * val y) 8 (bpow radix2 (-49)).
Proof.
  intros Fx Fy Hx Hy. destruct (twice x Fx Hx) as (T1 & T2 & T3). set (t := mul64 (of_Z64 2) x) in *.
  assert (B : Rabs (val t * val y) <= bpow radix2 3) by (rewrite Rabs_mult; replace (bpow radix2 3) with (4 * 2) by (change (bpow radix2 3) with 8; ring); apply Rmult_le_compat; auto using Rabs_pos).
  destruct (mul_near t y 3 T1 Fy ltac:(lia) B) as (M1 & M2 & M3). split; [exact M1|]. split; [exact M2|].
  replace (val (mul64 t y) - 2 * val x * val y) with ((val (mul64 t y) - val t * val y) + (val t - 2 * val x) * val y) by ring.
  eapply Rle_trans; [apply Rabs_triang|]. rewrite Rabs_mult. change (3 - 53)%Z with (-50)%Z in M3.
  assert (E1 : bpow radix2 (-49) = 4 * bpow radix2 (-51)) by (change 4 with (bpow radix2 2); rewrite <- bpow_plus; reflexivity).
  assert (E2 : bpow radix2 (-50) = 2 * bpow radix2 (-51)) by (change 2 with (bpow radix2 1); rewrite <- bpow_plus; reflexivity).
  assert (Rabs (val t - 2 * val x) * Rabs (val y) <= bpow radix2 (-51) * 2) by (apply Rmult_le_compat; auto using Rabs_pos). lra.
Qed.
Lemma diagonal x y v w : near x v 8 (bpow radix2 (-49)) -> near y w 8 (bpow radix2 (-49)) ->
  near (sub64 (of_Z64 1) (add64 x y)) (1 - (v + w)) 32 (bpow radix2 (-46)).
Proof.
  intros (X1 & X2 & X3) (Y1 & Y2 & Y3). destruct (of_Z64_ok 1) as [O1 O2]; [simpl; lia|].
  destruct (add_near x y 4 X1 Y1 ltac:(lia)) as (S1 & S2 & S3); [eapply Rle_trans; [apply Rabs_triang|]; change (bpow radix2 4) with 16; lra|].
  set (s := add64 x y) in *. change (bpow radix2 4) with 16 in S2.
  destruct (sub_near (of_Z64 1) s 5 O2 S1 ltac:(lia)) as (D1 & D2 & D3); [rewrite O1; unfold Rminus; eapply Rle_trans; [apply Rabs_triang|]; rewrite Rabs_Ropp, Rabs_R1; change (bpow radix2 5) with 32; lra|].
  split; [exact D1|]. split; [exact D2|]. rewrite O1 in D3. change (5 - 53)%Z with (-48)%Z in D3. change (4 - 53)%Z with (-49)%Z in S3.
  assert (E1 : bpow radix2 (-46) = 8 * bpow radix2 (-49)) by (change 8 with (bpow radix2 3); rewrite <- bpow_plus; reflexivity).
  assert (E2 : bpow radix2 (-48) = 2 * bpow radix2 (-49)) by (change 2 with (bpow radix2 1); rewrite <- bpow_plus; reflexivity).
  pose proof (bpow_gt_0 radix2 (-49)).
  apply abs_between in X3, Y3, S3, D3. apply abs_between. lra.
Qed.
Lemma sum_entry x y v w : near x v 8 (bpow radix2 (-49)) -> near y w 8 (bpow radix2 (-49)) -> near (add64 x y) (v + w) 32 (bpow radix2 (-46)).
Proof.
  intros (X1 & X2 & X3) (Y1 & Y2 & Y3).
  destruct (add_near x y 4 X1 Y1 ltac:(lia)) as (S1 & S2 & S3); [eapply Rle_trans; [apply Rabs_triang|]; change (bpow radix2 4) with 16; lra|].
  change (bpow radix2 4) with 16 in S2. split; [exact S1|]. split; [lra|]. change (4 - 53)%Z with (-49)%Z in S3.
  assert (E1 : bpow radix2 (-46) = 8 * bpow radix2 (-49)) by (change 8 with (bpow radix2 3); rewrite <- bpow_plus; reflexivity).
  pose proof (bpow_gt_0 radix2 (-49)). apply abs_between in X3, Y3, S3. apply abs_between. lra.
Qed.
Lemma difference_entry x y v w : near x v 8 (bpow radix2 (-49)) -> near y w 8 (bpow radix2 (-49)) -> near (sub64 x y) (v - w) 32 (bpow radix2 (-46)).
Proof.
  intros (X1 & X2 & X3) (Y1 & Y2 & Y3).
  destruct (sub_near x y 4 X1 Y1 ltac:(lia)) as (S1 & S2 & S3); [unfold Rminus; eapply Rle_trans; [apply Rabs_triang|]; rewrite Rabs_Ropp; change (bpow radix2 4) with 16; lra|].
  change (bpow radix2 4) with 16 in S2. split; [exact S1|]. split; [lra|]. change (4 - 53)%Z with (-49)%Z in S3.
  assert (E1 : bpow radix2 (-46) = 8 * bpow radix2 (-49)) by (change 8 with (bpow radix2 3); rewrite <- bpow_plus; reflexivity).
  pose proof (bpow_gt_0 radix2 (-49)). apply abs_between in X3, Y3, S3. apply abs_between. lra.
Qed.

Lemma near_eq x v v' B e : near x v B e -> v = v' -> near x v' B e.
Proof. intros H <-. exact H. Qed.
Notation entry x v := (near x v 32 (bpow radix2 (-46))).
Lemma matrix_near (q : dquat A) : usual_quaternion acosf q ->
  let m := d_to_rotation A q in let M := to_rotation (real_quaternion acosf q) in
  (entry (d00 A m) (m00 M) /\ entry (d01 A m) (m01 M) /\ entry (d02 A m) (m02 M)) /\
  (entry (d10 A m) (m10 M) /\ entry (d11 A m) (m11 M) /\ entry (d12 A m) (m12 M)) /\
  (entry (d20 A m) (m20 M) /\ entry (d21 A m) (m21 M) /\ entry (d22 A m) (m22 M)).
Proof.
  intros ((W & X & Y & Z) & Bw & Bx & By & Bz). unfold d_to_rotation. cbn [d00 d01 d02 d10 d11 d12 d20 d21 d22]. unfold to_rotation, real_quaternion. cbn [m00 m01 m02 m10 m11 m12 m20 m21 m22 qw qx qy qz]. cbn [ieee d_add d_sub d_mul d_of_Z].
  pose proof (product _ _ X W Bx Bw) as PXW. pose proof (product _ _ Y W By Bw) as PYW. pose proof (product _ _ Z W Bz Bw) as PZW.
  pose proof (product _ _ X X Bx Bx) as PXX. pose proof (product _ _ Y X By Bx) as PYX. pose proof (product _ _ Z X Bz Bx) as PZX.
  pose proof (product _ _ Y Y By By) as PYY. pose proof (product _ _ Z Y Bz By) as PZY. pose proof (product _ _ Z Z Bz Bz) as PZZ.
  repeat match goal with |- _ /\ _ => split end;
    match goal with |- near _ ?v _ _ => eapply near_eq; [first [eapply diagonal; eassumption|eapply sum_entry; eassumption|eapply difference_entry; eassumption]|ring] end.
Qed.

(** ** A coordinate *)
Section Coordinate.
Variable from_right : bool.
Variables (a b : Z).
Hypothesis Ha : (0 <= a <= 100)%Z.
Hypothesis Hb : (0 <= b <= 100)%Z.
Notation c := (Z.max (a + 7) b + 1)%Z.
Lemma term m v p : entry m v -> is_finite (p : b32) = true -> Rabs (B2R p) <= bpow radix2 a ->
  near (mul64 m (conv64 p)) (v * B2R p) (bpow radix2 (a + 5)) (5 * bpow radix2 (a - 48)).
Proof.
  intros (M1 & M2 & M3) P1 P2. destruct (conv64_ok p P1) as [C1 C2].
  assert (B : Rabs (val m * val (conv64 p)) <= bpow radix2 (a + 5)) by (rewrite C1, Rabs_mult, Z.add_comm, bpow_plus; change (bpow radix2 5) with 32; apply Rmult_le_compat; auto using Rabs_pos).
  destruct (mul_near m (conv64 p) (a + 5) M1 C2 ltac:(lia) B) as (N1 & N2 & N3). split; [exact N1|]. split; [exact N2|]. rewrite C1 in N3.
  replace (val (mul64 m (conv64 p)) - v * B2R p) with ((val (mul64 m (conv64 p)) - val m * B2R p) + (val m - v) * B2R p) by ring.
  eapply Rle_trans; [apply Rabs_triang|]. rewrite Rabs_mult. replace (a + 5 - 53)%Z with (a - 48)%Z in N3 by lia.
  assert (Rabs (val m - v) * Rabs (B2R p) <= bpow radix2 (-46) * bpow radix2 a) by (apply Rmult_le_compat; auto using Rabs_pos).
  assert (E : bpow radix2 (-46) * bpow radix2 a = 4 * bpow radix2 (a - 48)) by (change 4 with (bpow radix2 2); rewrite <- !bpow_plus; f_equal; lia). lra.
Qed.
Lemma coordinate_near_exact m1 m2 m3 t v1 v2 v3 (p : fpoint A) : entry m1 v1 -> entry m2 v2 -> entry m3 v3 -> fin t -> Rabs (val t) <= bpow radix2 b ->
  point_within acosf (bpow radix2 a) p ->
  let X := v1 * vx (real_point acosf p) + v2 * vy (real_point acosf p) + v3 * vz (real_point acosf p) + val t in
  let r := moved_coordinate A from_right m1 m2 m3 t p : b32 in
  is_finite r = true /\ coordinate_near (bpow radix2 (-24)) (bpow radix2 (c - 49)) X (B2R r).
Proof.
  intros E1 E2 E3 T1 T2 ((F1 & F2 & F3) & B1 & B2 & B3). cbv zeta. unfold real_point in *. cbn [vx vy vz] in *. unfold moved_coordinate. cbv zeta. cbn [ieee d_add d_mul f2d d2f].
  destruct (term _ _ _ E1 F1 B1) as (X1 & X2 & X3). destruct (term _ _ _ E2 F2 B2) as (Y1 & Y2 & Y3). destruct (term _ _ _ E3 F3 B3) as (Z1 & Z2 & Z3).
  set (x := mul64 m1 (conv64 (p0 A p))) in *. set (y := mul64 m2 (conv64 (p1 A p))) in *. set (z := mul64 m3 (conv64 (p2 A p))) in *.
  set (v := v1 * _) in *. set (w := v2 * _) in *. set (u := v3 * _) in *. set (P := bpow radix2 (a + 5)) in *.
  set (H := bpow radix2 (Z.max (a + 7) b)).
  assert (C1 : 4 * P <= H) by (unfold P, H; change 4 with (bpow radix2 2); rewrite <- bpow_plus; apply bpow_le; lia).
  assert (C2 : bpow radix2 b <= H) by (apply bpow_le; lia).
  assert (C3 : bpow radix2 c = 2 * H) by (rewrite bpow_plus; change (bpow radix2 1) with 2; unfold H; ring).
  assert (C4 : 8 * bpow radix2 (c - 53) <= H) by (unfold H; change 8 with (bpow radix2 3); rewrite <- bpow_plus; apply bpow_le; lia).
  assert (P0 : 0 < P) by apply bpow_gt_0. pose proof (bpow_gt_0 radix2 b) as Q0. assert (E0 : 0 < bpow radix2 (c - 53)) by apply bpow_gt_0. set (e := bpow radix2 (c - 53)) in *.
  assert (K : (-900 <= c <= 1000)%Z) by lia.
  apply abs_between in X2, Y2, Z2, T2.
  match goal with |- is_finite (conv32 ?g) = true /\ _ => set (s := g) end.
  assert (S : fin s /\ Rabs (val s) <= bpow radix2 c /\ Rabs (val s - (val x + val y + val z + val t)) <= 3 * e).
  { unfold s; clear s. destruct from_right.
    - destruct (add_near z t c Z1 T1 K) as (S1 & _ & S2); [apply abs_between; lra|]. fold e in S2. set (s1 := add64 z t) in *. apply abs_between in S2.
      destruct (add_near y s1 c Y1 S1 K) as (S3 & _ & S4); [apply abs_between; lra|]. fold e in S4. set (s2 := add64 y s1) in *. apply abs_between in S4.
      destruct (add_near x s2 c X1 S3 K) as (S5 & S6 & S7); [apply abs_between; lra|]. fold e in S7. apply abs_between in S7. split; [exact S5|]. split; [exact S6|]. apply abs_between. lra.
    - destruct (add_near x y c X1 Y1 K) as (S1 & _ & S2); [apply abs_between; lra|]. fold e in S2. set (s1 := add64 x y) in *. apply abs_between in S2.
      destruct (add_near s1 z c S1 Z1 K) as (S3 & _ & S4); [apply abs_between; lra|]. fold e in S4. set (s2 := add64 s1 z) in *. apply abs_between in S4.
      destruct (add_near s2 t c S3 T1 K) as (S5 & S6 & S7); [apply abs_between; lra|]. fold e in S7. apply abs_between in S7. split; [exact S5|]. split; [exact S6|]. apply abs_between. lra. }
  destruct S as (S1 & S2 & S3). change (D A) with b64 in s.
  destruct (conv32_ok s S1) as [V1 V2]; [eapply Rle_trans; [exact S2|apply bpow_le; lia]|]. split; [exact V2|]. unfold coordinate_near. rewrite V1.
  pose proof (r32_near (val s)) as N.
  assert (D1 : 15 * bpow radix2 (a - 48) <= 2 * e).
  { apply Rle_trans with (bpow radix2 4 * bpow radix2 (a - 48)); [change (bpow radix2 4) with 16; pose proof (bpow_gt_0 radix2 (a - 48)); lra|]. unfold e. change 2 with (bpow radix2 1). rewrite <- !bpow_plus. apply bpow_le. lia. }
  assert (D2 : bpow radix2 (-118) <= e) by (apply bpow_le; lia).
  assert (D3 : bpow radix2 (c - 49) = 16 * e) by (unfold e; change 16 with (bpow radix2 4); rewrite <- bpow_plus; f_equal; lia).
  assert (D4 : Rabs (val s - (v + w + u + val t)) <= 5 * e) by (apply abs_between in X3, Y3, Z3, S3; apply abs_between; lra).
  assert (D5 : Rabs (val s) <= Rabs (v + w + u + val t) + 5 * e) by (replace (val s) with ((v + w + u + val t) + (val s - (v + w + u + val t))) by ring; eapply Rle_trans; [apply Rabs_triang|]; lra).
  assert (D6 : bpow radix2 (-24) <= 1) by (change 1 with (bpow radix2 0); apply bpow_le; lia). pose proof (bpow_gt_0 radix2 (-24)).
  assert (D7 : bpow radix2 (-24) * Rabs (val s) <= bpow radix2 (-24) * Rabs (v + w + u + val t) + 5 * e) by nra.
  replace (r32 (val s) - (v + w + u + val t)) with ((r32 (val s) - val s) + (val s - (v + w + u + val t))) by ring.
  eapply Rle_trans; [apply Rabs_triang|]. lra.
Qed.
End Coordinate.

Lemma moved_near from_right a b (q : dquat A) t p : (0 <= a <= 100)%Z -> (0 <= b <= 100)%Z -> usual_quaternion acosf q ->
  position_within acosf (bpow radix2 b) t -> point_within acosf (bpow radix2 a) p ->
  stored_near acosf (bpow radix2 (-24)) (bpow radix2 (Z.max (a + 7) b - 48)) (belongs acosf t q p) (moved_point A from_right (d_make_pose A q t) p).
Proof.
  intros Ha Hb Q ((T1 & T2 & T3) & B1 & B2 & B3) P. destruct (matrix_near q Q) as ((M1 & M2 & M3) & (M4 & M5 & M6) & (M7 & M8 & M9)).
  replace (Z.max (a + 7) b - 48)%Z with (Z.max (a + 7) b + 1 - 49)%Z by lia.
  destruct (coordinate_near_exact from_right a b Ha Hb _ _ _ _ _ _ _ p M1 M2 M3 T1 B1 P) as [R1 N1].
  destruct (coordinate_near_exact from_right a b Ha Hb _ _ _ _ _ _ _ p M4 M5 M6 T2 B2 P) as [R2 N2].
  destruct (coordinate_near_exact from_right a b Ha Hb _ _ _ _ _ _ _ p M7 M8 M9 T3 B3 P) as [R3 N3].
  split; [split; [exact R1|split; [exact R2|exact R3]]|]. split; [exact N1|split; [exact N2|exact N3]].
Qed.
End Matrix.

(** ** The map builder and accumulated scans *)
Section Collected.
Variable Pose Point : Type.
Variable move : bool -> Pose -> Point -> Point.
Variable small : Pose -> Pose -> bool.
Notation part m := (map (move (dense (snd m)) (fst m)) (points (snd m))).
Lemma builder_parts l : forall b, exists k, (forall m, In m k -> In m l) /\
  points (map_ (fold_left (builder_callback Pose Point move small) l b)) = points (map_ b) ++ concat (map (fun m : Pose * cloud Point => part m) k).
Proof.
  induction l as [|m l IH]; intros b; [exists []; split; [tauto|cbn; rewrite app_nil_r; reflexivity]|].
  cbn [fold_left]. destruct (IH (builder_callback Pose Point move small b m)) as (k & K1 & K2). rewrite K2. unfold builder_callback. destruct m as [T c0].
  destruct (Nat.eqb _ 0); [exists k; split; [intros m' Hm; right; auto|reflexivity]|].
  destruct (negb _ && small _ _)%bool; [exists k; split; [intros m' Hm; right; auto|reflexivity]|].
  exists ((T, c0) :: k). split; [intros m' [<-|Hm]; [left; reflexivity|right; auto]|]. cbn [map_ append points map concat fst snd transform_cloud]. rewrite <- app_assoc. reflexivity.
Qed.
End Collected.

(** ** The mean of floats, in doubles *)
Section Mean.
Variable acosf : b64 -> b64.
Notation A := (ieee acosf).
Variables m b : Z.
Hypothesis Hm : (-100 <= m <= 128)%Z.
Hypothesis Hb : (0 <= b <= 32)%Z.
Notation e := (bpow radix2 (m + b - 53)).
Lemma floats_sum l : forall s V, fin s -> (0 <= V)%Z -> (V + Z.of_nat (length l) <= 2 ^ b)%Z -> Rabs (val s) <= IZR V * bpow radix2 m ->
  Forall (fun x : b32 => is_finite x = true /\ Rabs (B2R x) <= bpow radix2 m) l ->
  let r := fold_left (fun acc (x : b32) => add64 acc (conv64 x)) l s in
  fin r /\ Rabs (val r) <= IZR (V + Z.of_nat (length l)) * bpow radix2 m /\
  Rabs (val r - (val s + fold_right Rplus 0 (map (B2R (prec := 24) (emax := 128)) l))) <= INR (length l) * e.
Proof.
  induction l as [|x l IH]; intros s V Hs HV HW Bs HF.
  - cbn. rewrite Z.add_0_r. split; [exact Hs|]. split; [exact Bs|]. replace (val s - (val s + 0)) with 0 by ring. rewrite Rabs_R0. lra.
  - inversion HF as [|? ? [Fx Bx] HF']; subst. cbn [length] in HW. destruct (conv64_ok x Fx) as [C1 C2].
    assert (P : (2 ^ b <= 2 ^ 32)%Z) by (apply Z.pow_le_mono_r; lia).
    assert (B : Rabs (val s + val (conv64 x)) <= IZR (V + 1) * bpow radix2 m) by (rewrite C1, plus_IZR; eapply Rle_trans; [apply Rabs_triang|]; lra).
    assert (B' : IZR (V + 1) * bpow radix2 m <= bpow radix2 (m + b)) by (replace (m + b)%Z with (b + m)%Z by lia; rewrite bpow_plus; apply Rmult_le_compat_r; [apply bpow_ge_0|]; rewrite <- IZR_Zpower by lia; apply IZR_le; cbn [radix_val radix2]; lia).
    destruct (add64_ok s (conv64 x) (m + b) Hs C2) as [S1 S2]; [lia|lra|].
    cbn [fold_left]. cbv zeta. destruct (IH (add64 s (conv64 x)) (V + 1)%Z) as (I1 & I2 & I3); auto; try lia.
    { rewrite S1. apply rnd_le; [apply fmt_kM; lia|exact B]. }
    split; [exact I1|]. split; [replace (V + Z.of_nat (length (x :: l)))%Z with (V + 1 + Z.of_nat (length l))%Z by (cbn [length]; lia); exact I2|].
    cbn [map fold_right length]. rewrite S_INR.
    assert (E : Rabs (val (add64 s (conv64 x)) - (val s + B2R x)) <= e) by (rewrite S1, <- C1; apply rnd_err; [lia|lra]).
    set (r := fold_left _ l _) in *. set (q := fold_right Rplus 0 _) in *. apply abs_between in I3, E. apply abs_between. lra.
Qed.
Lemma floats_mean (l : list b32) : (0 < zlen l <= 2 ^ b)%Z -> (zlen l < 2 ^ 32)%Z ->
  Forall (fun x : b32 => is_finite x = true /\ Rabs (B2R x) <= bpow radix2 m) l ->
  fin (coordinate A l) /\ Rabs (val (coordinate A l) - fold_right Rplus 0 (map (B2R (prec := 24) (emax := 128)) l) / INR (length l)) <= bpow radix2 (m + b - 52).
Proof.
  intros HL H32 HF. unfold coordinate. assert (HL0 : (0 <= zlen l < 2 ^ 32)%Z) by lia. cbv zeta. rewrite Z.mod_small by exact HL0. unfold zlen in *. rewrite Nat2Z.id, firstn_all. cbn [ieee d_add f2d d_of_Z d_div]. change (D A) with b64. change (F A) with b32.
  destruct (of_Z64_ok 0) as [Z1 Z2]; [simpl; lia|]. destruct (of_Z64_ok (Z.of_nat (length l))) as [N1 N2]; [lia|]. rewrite <- INR_IZR_INZ in N1.
  destruct (floats_sum l (of_Z64 0) 0%Z Z2) as (S1 & S2 & S3); auto; try lia; [rewrite Z1, Rabs_R0; lra|]. rewrite Z1, Rplus_0_l in S3. rewrite Z.add_0_l, <- INR_IZR_INZ in S2.
  set (s := fold_left _ l (of_Z64 0)) in *. set (q := fold_right Rplus 0 _) in *.
  assert (P : 0 < INR (length l)) by (apply lt_0_INR; lia).
  assert (Q : Rabs (val s / val (of_Z64 (Z.of_nat (length l)))) <= bpow radix2 m).
  { rewrite N1. unfold Rdiv. rewrite Rabs_mult, (Rabs_pos_eq (/ _)) by (left; apply Rinv_0_lt_compat; exact P). apply (Rmult_le_reg_r (INR (length l))); [exact P|]. rewrite Rmult_assoc, Rinv_l by lra. lra. }
  destruct (div64_ok s (of_Z64 (Z.of_nat (length l))) m S1 ltac:(rewrite N1; lra) ltac:(lia) Q) as [D1 D2]. split; [exact D2|].
  pose proof (rnd_err _ m ltac:(lia) Q) as E. rewrite <- D1 in E. rewrite N1 in E.
  set (r := div64 s _) in *. replace (val r - q / INR (length l)) with ((val r - val s / INR (length l)) + (val s - q) * / INR (length l)) by (field; lra).
  eapply Rle_trans; [apply Rabs_triang|]. rewrite Rabs_mult, (Rabs_pos_eq (/ _)) by (left; apply Rinv_0_lt_compat; exact P).
  assert (F : Rabs (val s - q) * / INR (length l) <= e) by (apply (Rmult_le_reg_r (INR (length l))); [exact P|]; rewrite Rmult_assoc, Rinv_l by lra; lra).
  assert (G : bpow radix2 (m - 53) <= e) by (apply bpow_le; lia).
  assert (T : bpow radix2 (m + b - 52) = 2 * e) by (change 2 with (bpow radix2 1); rewrite <- bpow_plus; f_equal; lia). lra.
Qed.
End Mean.

(** ** Floats around a power of two *)
Lemma me32 e : (-149 <= e <= 100)%Z -> B2R (of_me32 1 e) = bpow radix2 e /\ is_finite (of_me32 1 e) = true.
Proof.
  intros He. pose proof (binary_normalize_correct 24 128 prec32 emax32 mode_NE 1 e false) as C. cbv zeta in C. unfold F2R in C. cbn [Fnum Fexp] in C. rewrite Rmult_1_l in C.
  change (round_mode mode_NE) with ZnearestE in C. rewrite r32_exact in C by (apply f32_bpow; lia).
  rewrite Rlt_bool_true in C by (rewrite Rabs_pos_eq by apply bpow_ge_0; apply bpow_lt; lia). destruct C as [C1 [C2 _]]. split; assumption.
Qed.
Lemma me64 e : (-900 <= e <= 900)%Z -> val (of_me64 1 e) = bpow radix2 e /\ fin (of_me64 1 e).
Proof.
  intros He. pose proof (binary_normalize_correct 53 1024 prec64 emax64 mode_NE 1 e false) as C. cbv zeta in C. unfold F2R in C. cbn [Fnum Fexp] in C. rewrite Rmult_1_l in C.
  change (round_mode mode_NE) with ZnearestE in C. fold (rnd (bpow radix2 e)) in C. rewrite rnd_exact in C by (apply fmt_bpow; lia).
  rewrite Rlt_bool_true in C by (rewrite Rabs_pos_eq by apply bpow_ge_0; apply bpow_lt; lia). destruct C as [C1 [C2 _]]. split; assumption.
Qed.
(** No float is close to the middle between a power of two and the next float. *)
Lemma no_float_between k (x : b32) : (-100 <= k <= 120)%Z -> bpow radix2 (k - 24) <= Rabs (B2R x - (bpow radix2 k + bpow radix2 (k - 24))).
Proof.
  intros Hk. assert (Fx : generic_format radix2 fe (B2R x)) by (apply generic_format_B2R). pose proof (f32_bpow k ltac:(lia)) as Fk.
  pose proof (bpow_gt_0 radix2 (k - 24)).
  destruct (Rle_lt_dec (B2R x) (bpow radix2 k)) as [L|L]; [rewrite Rabs_left1 by lra; lra|].
  assert (S : bpow radix2 k + 2 * bpow radix2 (k - 24) <= B2R x).
  { pose proof (succ_le_lt radix2 fe _ _ Fk Fx L) as S. rewrite succ_eq_pos in S by apply bpow_ge_0. rewrite ulp_bpow in S.
    replace (2 * bpow radix2 (k - 24)) with (bpow radix2 (fe (k + 1))); [exact S|]. change 2 with (bpow radix2 1). rewrite <- bpow_plus. f_equal. rewrite fexp32_eq. unfold FLT_exp. lia. }
  rewrite Rabs_pos_eq by lra. lra.
Qed.
