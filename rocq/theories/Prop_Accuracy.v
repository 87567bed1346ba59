(** C130: the curvature is the bend of the ring, within a known tolerance, in the arithmetic
    the node runs on. *)
From Coq Require Import List ZArith Reals Bool Lia Lra.
From Flocq Require Import Core IEEE754.BinarySingleNaN.
From Verif Require Import Base Arith ExtractModel Spec SpecReal SpecIeee SpecBearing SpecAccuracy.
From Verif Require Import FillProofs LabelProofs OcclusionProofs RingProofs PipelineProofs MiscProofs
  ConvProofs CurvatureProofs FloatLemmas FiniteProofs SeparationProofs AccuracyProofs FloatAngle Prop_Pipeline.
Import ListNotations.
Open Scope R_scope.

(** The scan is made of points whose horizontal coordinates are numbers and which are at most
    2^m metres away. *)
Notation within_reach cloud m :=
  (forall q, In q cloud -> finite_xy _ q /\ reach q <= bpow radix2 m).

(** ** The computed curvature of a point in the interior of a ring is the double next to the
    square of a number that differs from the true bend by no more than the allowance. *)
Theorem C130_curvature_accurate acosf (cloud : list (point (ieee acosf))) ix m b p ranges curv j v :
  let A := ieee acosf in
  (-100 <= m <= 100)%Z -> (0 <= b <= 30)%Z -> (1 <= p)%nat -> (Z.of_nat p <= 2 ^ b)%Z ->
  within_reach cloud m ->
  range_interval A {| m_cloud := cloud; m_indices := ix |} 0 (zlen ix) = Ok ranges ->
  calc_curvature A ranges (Z.of_nat p) = Ok curv ->
  (p <= j < length ix - p)%nat -> nth_error curv j = Some v ->
  fin v /\ exists t, Rabs (t - bend cloud ix p j) <= allowance m b /\ val v = rnd (t * t).
Proof.
  intros A Hm Hb H1 H2 HC HR HK Hj Hv.
  apply (ring_close acosf cloud m b p Hm Hb H1 H2 HC ix ranges curv HR HK); auto; lia.
Qed.
Print Assumptions C130_curvature_accurate.

(** ** So points that clearly stand out reach the edge threshold and points that clearly do not
    stay below the surface threshold. *)
Theorem C130_clear_points_qualify acosf (cloud : list (point (ieee acosf))) ix m b p ranges curv j v e :
  let A := ieee acosf in
  (-100 <= m <= 100)%Z -> (0 <= b <= 30)%Z -> (1 <= p)%nat -> (Z.of_nat p <= 2 ^ b)%Z ->
  within_reach cloud m ->
  range_interval A {| m_cloud := cloud; m_indices := ix |} 0 (zlen ix) = Ok ranges ->
  calc_curvature A ranges (Z.of_nat p) = Ok curv ->
  (p <= j < length ix - p)%nat -> nth_error curv j = Some v -> fin e ->
  ((1 + bpow radix2 (-52)) * sqrt (val e) + 2 * allowance m b < Rabs (bend cloud ix p j) ->
     d_leb A e v = true) /\
  (Rabs (bend cloud ix p j) < (1 - bpow radix2 (-52)) * sqrt (val e) - allowance m b ->
     d_leb A v e = true).
Proof.
  intros A Hm Hb H1 H2 HC HR HK Hj Hv He.
  destruct (C130_curvature_accurate acosf cloud ix m b p ranges curv j v Hm Hb H1 H2 HC HR HK Hj Hv)
    as [Fv [t [T1 T2]]].
  assert (Pa : 0 <= allowance m b) by apply bpow_ge_0.
  assert (La : bpow radix2 (-1000) <= allowance m b * allowance m b) by (apply allowance_low; lia).
  unfold A. cbn [ieee d_leb]. rewrite !leb64_ok by auto. split; intros G.
  - apply Rle_bool_true. destruct (Rle_lt_dec (val e) (val v)) as [|L]; auto. exfalso.
    rewrite T2 in L. pose proof (keep_threshold _ _ _ _ Pa La T1 (Rlt_le _ _ L)). lra.
  - apply Rle_bool_true. destruct (Rle_lt_dec (val v) (val e)) as [|L]; auto. exfalso.
    rewrite T2 in L. pose proof (reach_threshold _ _ _ _ Pa La T1 (Rlt_le _ _ L)). lra.
Qed.
Print Assumptions C130_clear_points_qualify.

(** ** Evenly changing distances give next to no curvature. *)
Theorem C130_even_profile acosf (cloud : list (point (ieee acosf))) ix m b p ranges curv j v a d :
  let A := ieee acosf in
  (-100 <= m <= 100)%Z -> (0 <= b <= 30)%Z -> (1 <= p)%nat -> (Z.of_nat p <= 2 ^ b)%Z ->
  within_reach cloud m ->
  range_interval A {| m_cloud := cloud; m_indices := ix |} 0 (zlen ix) = Ok ranges ->
  calc_curvature A ranges (Z.of_nat p) = Ok curv ->
  (p <= j < length ix - p)%nat -> nth_error curv j = Some v ->
  (forall k, (j - p <= k <= j + p)%nat -> profile cloud ix k = a + d * INR k) ->
  0 <= val v <= allowance m b * allowance m b.
Proof.
  intros A Hm Hb H1 H2 HC HR HK Hj Hv HP.
  destruct (C130_curvature_accurate acosf cloud ix m b p ranges curv j v Hm Hb H1 H2 HC HR HK Hj Hv)
    as [Fv [t [T1 T2]]].
  assert (B0 : bend cloud ix p j = 0).
  { unfold bend. rewrite (second_diff_ext _ (fun k => a + d * INR k)) by exact HP.
    unfold second_diff. rewrite (rsum_ext _ (fun _ => 0)).
    - rewrite rsum_const. ring.
    - intros k Hk. apply in_seq in Hk. rewrite minus_INR, plus_INR by lia. ring. }
  rewrite B0, Rminus_0_r in T1.
  assert (Sq : 0 <= t * t <= allowance m b * allowance m b).
  { pose proof (Rabs_pos t). replace (t * t) with (Rabs t * Rabs t).
    - split; [nra|]. apply Rmult_le_compat; auto.
    - rewrite <- Rabs_mult. apply Rabs_pos_eq. nra. }
  rewrite T2. apply rnd_between; auto.
  - apply (fmt_IZR 0). simpl. lia.
  - unfold allowance. rewrite <- bpow_plus. apply fmt_bpow. lia.
Qed.
Print Assumptions C130_even_profile.

(** ** The published edges stand out and the published surface points do not: whatever the
    scan, the order in which the rings are processed and the order of equal keys. *)
Lemma feature_bend acosf srt (P : params (ieee acosf)) cloud ord dense has_ring out m b lab q :
  let A := ieee acosf in
  valid_sort srt -> valid_order ord -> valid_params A P ->
  (zlen cloud + p_padding A P + 2 < 2 ^ 31)%Z -> (zlen cloud * p_blocks A P <= 2 ^ 53)%Z ->
  (-100 <= m <= 100)%Z -> (0 <= b <= 30)%Z -> (p_padding A P <= 2 ^ b)%Z -> within_reach cloud m ->
  callback A srt ord P dense has_ring cloud = Ok out ->
  (lab = Edge /\ In q (o_edge A out)) \/ (lab = Surface /\ In q (o_surface A out)) ->
  exists rings k ix i j pt v t,
    extract_rings A srt cloud = Ok rings /\ In (k, ix) rings /\
    get ix i = Some j /\ get cloud j = Some pt /\ q = xyz A pt /\
    (p_padding A P <= i < zlen ix - p_padding A P)%Z /\
    fin v /\ Rabs (t - bend cloud ix (Z.to_nat (p_padding A P)) (Z.to_nat i)) <= allowance m b /\
    val v = rnd (t * t) /\
    (if label_eqb lab Edge then d_leb A (p_edge A P) v = true else d_leb A v (p_surface A P) = true).
Proof.
  cbv zeta. intros Hs Ho Hval Hb1 Hb2 Hm Hb Hpb HC H Hq.
  assert (Hpad : (0 < p_padding (ieee acosf) P)%Z) by apply Hval.
  assert (Hblk : (0 < p_blocks (ieee acosf) P)%Z) by apply Hval.
  destruct (feature_origin (ieee acosf) srt P cloud ord dense has_ring out Ho H) as [rings [Hr Hf]].
  destruct (Hf lab q Hq) as [k [ix [ls [curv [i [j [pt [Hin [Hsz [Hrl [Hlen [Gl [Gi [Gc Eq]]]]]]]]]]]]]].
  destruct (ring_size_le (ieee acosf) srt cloud rings k ix Hr Hs Hin) as [Hle _].
  cbv zeta in Hrl. set (mp := {| m_cloud := cloud; m_indices := ix |}) in *.
  assert (Hms : m_size (ieee acosf) mp = zlen ix) by reflexivity.
  assert (Hi : (p_padding (ieee acosf) P <= i < zlen ix - p_padding (ieee acosf) P)%Z).
  { assert (Hbl : (zlen ix * p_blocks (ieee acosf) P <= 2 ^ 53)%Z).
    { eapply Z.le_trans; [apply Z.mul_le_mono_nonneg_r; [apply Z.lt_le_incl, Hblk|exact Hle]|exact Hb2]. }
    assert (Hlab : get ls i = Some Edge \/ get ls i = Some Surface).
    { destruct Hq as [[E _]|[E _]]; rewrite E in Gl; auto. }
    apply (C06_features_clear_of_ends acosf srt P mp ls curv i); rewrite ?Hms; auto; lia. }
  pose proof Hrl as Hrl'. apply ring_labels_spec in Hrl'; try lia.
  destruct Hrl' as [_ [_ [[ranges [R1 R2]] [_ [He Hsu]]]]].
  assert (Hv : exists v, get curv i = Some v /\
     (if label_eqb lab Edge then d_leb (ieee acosf) (p_edge (ieee acosf) P) v = true else d_leb (ieee acosf) v (p_surface (ieee acosf) P) = true)).
  { destruct Hq as [[-> _]|[-> _]]; simpl; [apply (He i Gl)|apply (Hsu i Gl)]. }
  destruct Hv as [v [V1 V2]].
  assert (V1' : nth_error curv (Z.to_nat i) = Some v).
  { unfold get in V1. destruct (i <? 0)%Z; [discriminate|exact V1]. }
  rewrite <- (Z2Nat.id (p_padding (ieee acosf) P)) in R2 by lia.
  destruct (C130_curvature_accurate acosf cloud ix m b (Z.to_nat (p_padding (ieee acosf) P)) ranges curv (Z.to_nat i) v)
    as [Fv [t [T1 T2]]]; auto; try (unfold zlen in *; lia).
  exists rings, k, ix, i, j, pt, v, t. repeat (split; [solve [auto]|]). auto.
Qed.

Lemma below_finite (e v : b64) : Bltb (of_Z64 0) e = true -> fin v -> Bleb e v = true -> val e <= val v.
Proof.
  intros H0 Fv L. assert (Fe : fin e).
  { unfold fin in *. destruct e as [s|s| |s mx ex Hx]; auto; try discriminate H0.
    destruct s; [discriminate H0|].
    destruct v as [z|z| |z my ey Hy]; try discriminate Fv; try discriminate L;
    destruct z; discriminate L. }
  rewrite leb64_ok in L by auto. unfold Rle_bool in L.
  destruct (Rle_lt_dec (val e) (val v)) as [K|K]; auto. exfalso.
  rewrite Rcompare_Gt in L; [discriminate|exact K].
Qed.

Theorem C130_edges_stand_out acosf srt (P : params (ieee acosf)) cloud ord dense has_ring out m b q :
  let A := ieee acosf in
  valid_sort srt -> valid_order ord -> valid_params A P ->
  (zlen cloud + p_padding A P + 2 < 2 ^ 31)%Z -> (zlen cloud * p_blocks A P <= 2 ^ 53)%Z ->
  (-100 <= m <= 100)%Z -> (0 <= b <= 30)%Z -> (p_padding A P <= 2 ^ b)%Z -> within_reach cloud m ->
  callback A srt ord P dense has_ring cloud = Ok out -> In q (o_edge A out) ->
  exists rings k ix i j pt,
    (* the point is entry i of the sorted ring k *)
    extract_rings A srt cloud = Ok rings /\ In (k, ix) rings /\
    get ix i = Some j /\ get cloud j = Some pt /\ q = xyz A pt /\
    (p_padding A P <= i < zlen ix - p_padding A P)%Z /\
    (* and the ring bends there *)
    (1 - bpow radix2 (-52)) * sqrt (val (p_edge A P)) - allowance m b <=
    Rabs (bend cloud ix (Z.to_nat (p_padding A P)) (Z.to_nat i)).
Proof.
  intros A Hs Ho Hval Hb1 Hb2 Hm Hb Hpb HC H Hq.
  destruct (feature_bend acosf srt P cloud ord dense has_ring out m b Edge q Hs Ho Hval Hb1 Hb2 Hm Hb Hpb HC H)
    as [rings [k [ix [i [j [pt [v [t [G1 [G2 [G3 [G4 [G5 [G6 [G7 [G8 [G9 G10]]]]]]]]]]]]]]]]]; auto.
  exists rings, k, ix, i, j, pt. repeat (split; [solve [auto]|]).
  cbn [label_eqb] in G10.
  apply reach_threshold with t; auto; [apply bpow_ge_0|apply allowance_low; lia|].
  rewrite <- G9.
  apply below_finite; [|exact G7|exact G10].
  destruct Hval as [_ [_ F]]. do 3 (apply Forall_inv_tail in F). apply Forall_inv in F. exact F.
Qed.
Print Assumptions C130_edges_stand_out.

Theorem C130_surfaces_are_even acosf srt (P : params (ieee acosf)) cloud ord dense has_ring out m b q :
  let A := ieee acosf in
  valid_sort srt -> valid_order ord -> valid_params A P -> fin (p_surface A P) ->
  (zlen cloud + p_padding A P + 2 < 2 ^ 31)%Z -> (zlen cloud * p_blocks A P <= 2 ^ 53)%Z ->
  (-100 <= m <= 100)%Z -> (0 <= b <= 30)%Z -> (p_padding A P <= 2 ^ b)%Z -> within_reach cloud m ->
  callback A srt ord P dense has_ring cloud = Ok out -> In q (o_surface A out) ->
  exists rings k ix i j pt,
    extract_rings A srt cloud = Ok rings /\ In (k, ix) rings /\
    get ix i = Some j /\ get cloud j = Some pt /\ q = xyz A pt /\
    (p_padding A P <= i < zlen ix - p_padding A P)%Z /\
    Rabs (bend cloud ix (Z.to_nat (p_padding A P)) (Z.to_nat i)) <=
    (1 + bpow radix2 (-52)) * sqrt (val (p_surface A P)) + 2 * allowance m b.
Proof.
  intros A Hs Ho Hval Fs Hb1 Hb2 Hm Hb Hpb HC H Hq.
  destruct (feature_bend acosf srt P cloud ord dense has_ring out m b Surface q Hs Ho Hval Hb1 Hb2 Hm Hb Hpb HC H)
    as [rings [k [ix [i [j [pt [v [t [G1 [G2 [G3 [G4 [G5 [G6 [G7 [G8 [G9 G10]]]]]]]]]]]]]]]]]; auto.
  exists rings, k, ix, i, j, pt. repeat (split; [solve [auto]|]).
  cbn [label_eqb] in G10.
  apply keep_threshold with t; auto; [apply bpow_ge_0|apply allowance_low; lia|].
  rewrite <- G9. unfold A in *. cbn [ieee d_leb] in G10.
  rewrite leb64_ok in G10 by auto. unfold Rle_bool in G10.
  destruct (Rle_lt_dec (val v) (val (p_surface (ieee acosf) P))) as [L|L]; auto. exfalso.
  rewrite Rcompare_Gt in G10; [discriminate|exact L].
Qed.
Print Assumptions C130_surfaces_are_even.

(** ** C25 in double arithmetic: the curvature of points with finite coordinates is a finite
    number and not negative. *)
Theorem C25_nonnegative_double acosf (cloud : list (point (ieee acosf))) ix p
    (ranges curv : list b64) :
  let A := ieee acosf in
  (1 <= p)%nat -> (Z.of_nat p < 2 ^ 31)%Z -> (forall q, In q cloud -> finite_xy acosf q) ->
  range_interval A {| m_cloud := cloud; m_indices := ix |} 0 (zlen ix) = Ok ranges ->
  calc_curvature A ranges (Z.of_nat p) = Ok curv ->
  Forall (fun v => fin v /\ 0 <= val v) curv.
Proof.
  cbv zeta. intros Hp Hp2 HC HR HK.
  assert (HF : Forall range_like ranges).
  { apply Forall_forall. intros x Hx. apply In_nth_error in Hx. destruct Hx as [k Hk].
    destruct (range_interval_from_zero _ _ _ _ (Zle_0_nat _) HR) as [L G].
    assert (Hkl : (k < length ranges)%nat) by (apply nth_error_Some; congruence).
    assert (L' : length ranges = length ix) by (apply Nat2Z.inj; exact L).
    destruct (G (Z.of_nat k)) as [w [W1 W2]]; [unfold zlen; lia|].
    unfold get in W1. destruct (Z.of_nat k <? 0)%Z eqn:E; [apply Z.ltb_lt in E; lia|].
    rewrite Nat2Z.id in W1. assert (W3 : Some x = Some w) by (rewrite <- Hk; exact W1).
    inversion W3; subst w; clear W1 W3.
    unfold range_at, m_at in W2. cbn [m_indices m_cloud] in W2.
    destruct (vat ix (Z.of_nat k)) as [j| | | | |] eqn:Ej; cbn [bind] in W2; try discriminate.
    destruct (vat cloud j) as [q| | | | |] eqn:Eq; cbn [bind] in W2; try discriminate.
    injection W2 as W2. apply vat_get in Eq.
    assert (Hq : In q cloud).
    { unfold get in Eq. destruct (j <? 0)%Z; [discriminate|]. eapply nth_error_In; eauto. }
    destruct (HC q Hq) as [Fx Fy].
    destruct (conv64_ok _ Fx) as [X1 X2], (conv64_ok _ Fy) as [Y1 Y2].
    destruct (xy_norm_ok acosf (conv64 (px (ieee acosf) q)) (conv64 (py (ieee acosf) q))) as [_ [N2 N3]]; auto using conv64_bound.
    assert (E' : x = xy_norm (ieee acosf) (conv64 (px (ieee acosf) q)) (conv64 (py (ieee acosf) q))) by (symmetry; exact W2).
    rewrite E'. split; [exact N2|]. rewrite Rabs_pos_eq; apply N3. }
  destruct (Nat.lt_ge_cases (length ranges) (2 * p + 1)) as [Hl|Hl].
  { rewrite curvature_short in HK by auto. discriminate. }
  rewrite curvature_ok in HK by auto. inversion HK; subst; clear HK.
  apply Forall_forall. intros v Hv. apply in_map_iff in Hv. destruct Hv as [u [<- Hu]].
  assert (Hu' : fin u /\ Rabs (val u) <= bpow radix2 200).
  { assert (Hz : fin (of_Z64 0) /\ Rabs (val (of_Z64 0)) <= bpow radix2 200).
    { destruct (of_Z64_ok 0) as [H1 H2]; [simpl; lia|]. split; auto. rewrite H1, Rabs_R0. apply bpow_ge_0. }
    apply in_app_or in Hu. destruct Hu as [Hu|Hu]; [apply repeat_spec in Hu; subst; auto|].
    apply in_app_or in Hu. destruct Hu as [Hu|Hu]; [|apply repeat_spec in Hu; subst; auto].
    apply in_map_iff in Hu. destruct Hu as [i [<- _]]. apply curv_sum_ok; auto. }
  destruct Hu' as [H1 H2]. destruct (sqr_ok u H1 H2) as [_ [H3 H4]]. split; [exact H3|exact H4].
Qed.
Print Assumptions C25_nonnegative_double.

(** ** Cases *)
(** five points straight ahead, the middle one three metres further away: the bend is -6 and
    the curvature 36; the tolerance is 2^-43 *)
Definition step_ring : list (point XA) := map (fun d => ex_pt 0 d 0) [10; 10; 13; 10; 10]%Z.

Lemma reach_ahead r x : (0 <= x <= 2 ^ 24)%Z -> reach (ex_pt r x 0) = IZR x.
Proof.
  intros H. unfold reach, east, north, ex_pt. cbn [px py].
  destruct (of_Z32_ok x) as [E1 _]; [lia|]. destruct (of_Z32_ok 0) as [E2 _]; [lia|].
  change (F XA) with b32 in *. rewrite E1, E2.
  replace (IZR x * IZR x + 0 * 0) with (IZR x * IZR x) by ring.
  apply sqrt_square. apply (IZR_le 0). lia.
Qed.

Example C130_case :
  within_reach step_ring 4 /\ bend step_ring [0; 1; 2; 3; 4]%Z 1 2 = -6 /\
  allowance 4 0 = bpow radix2 (-43) /\
  exists ranges curv v,
    range_interval XA {| m_cloud := step_ring; m_indices := [0; 1; 2; 3; 4]%Z |} 0 5 = Ok ranges /\
    calc_curvature XA ranges 1 = Ok curv /\ nth_error curv 2 = Some v /\ val v = 36.
Proof.
  split; [|split; [|split]].
  - intros q Hq. unfold step_ring in Hq. apply in_map_iff in Hq. destruct Hq as [d [<- Hd]].
    assert (Bd : (0 <= d <= 16)%Z) by (simpl in Hd; lia).
    split.
    + split; apply of_Z32_ok; lia.
    + rewrite reach_ahead by lia. change (bpow radix2 4) with 16. apply IZR_le. lia.
  - assert (P1 : profile step_ring [0; 1; 2; 3; 4]%Z 1 = 10) by (apply (reach_ahead 0 10); lia).
    assert (P2 : profile step_ring [0; 1; 2; 3; 4]%Z 2 = 13) by (apply (reach_ahead 0 13); lia).
    assert (P3 : profile step_ring [0; 1; 2; 3; 4]%Z 3 = 10) by (apply (reach_ahead 0 10); lia).
    unfold bend, second_diff, rsum. cbn [seq fold_right Nat.sub Nat.add]. rewrite P1, P2, P3. lra.
  - reflexivity.
  - set (r := range_interval XA _ 0 5).
    assert (H : match r with
                | Ok l => match calc_curvature XA l 1 with
                          | Ok c => match nth_error c 2 with
                                    | Some v => is_finite (v : b64) && Beqb (v : b64) (of_Z64 36)
                                    | None => false
                                    end
                          | _ => false
                          end
                | _ => false
                end = true) by (vm_compute; reflexivity).
    destruct r as [l| | | | |]; try discriminate H.
    destruct (calc_curvature XA l 1) as [c| | | | |] eqn:Ec; try discriminate H.
    destruct (nth_error c 2) as [v|] eqn:Ev; try discriminate H.
    exists l, c, v. split; [reflexivity|]. split; [exact Ec|]. split; [exact Ev|].
    apply andb_true_iff in H. destruct H as [H1 H2]. destruct (of_Z64_ok 36) as [E1 E2]; [lia|].
    rewrite eqb64_ok in H2 by auto. rewrite E1 in H2.
    destruct (Req_bool_spec (val v) 36); [auto|discriminate].
Qed.

(** the scan of the other examples: 24 points within 2^16, padding 1, edge threshold 1000^2 *)
Example C130_scan_case :
  valid_params XA ex_params /\ fin (p_surface XA ex_params) /\ within_reach ex_cloud 16 /\
  (zlen ex_cloud * p_blocks XA ex_params <= 2 ^ 53)%Z /\
  exists out q r, ex_out (fun l => l) = Ok out /\ In q (o_edge XA out) /\ In r (o_surface XA out).
Proof.
  split; [exact ex_valid_params|]. split; [reflexivity|]. split; [|split].
  - intros q Hq.
    assert (HF : Forall (fun p : point XA => is_finite (px XA p : b32) = true /\ is_finite (py XA p : b32) = true /\
        Bleb (Babs (px XA p : b32)) (of_Z32 32768) = true /\ Bleb (Babs (py XA p : b32)) (of_Z32 32768) = true) ex_cloud).
    { repeat (apply Forall_cons; [vm_compute; auto|]). apply Forall_nil. }
    rewrite Forall_forall in HF. destruct (HF q Hq) as [Fx [Fy [Bx By]]].
    split; [split; auto|].
    destruct (of_Z32_ok 32768) as [E1 E2]; [lia|].
    assert (G : forall z : b32, is_finite z = true -> Bleb (Babs z) (of_Z32 32768) = true ->
              B2R z * B2R z <= 32768 * 32768).
    { intros z Fz Bz. rewrite Bleb_correct in Bz; auto; [|rewrite is_finite_Babs; auto].
      rewrite E1, B2R_Babs in Bz. unfold Rle_bool in Bz.
      assert (L : Rabs (B2R z) <= 32768).
      { destruct (Rle_lt_dec (Rabs (B2R z)) 32768) as [|L]; auto.
        rewrite Rcompare_Gt in Bz by auto. discriminate. }
      replace (B2R z * B2R z) with (Rabs (B2R z) * Rabs (B2R z)).
      - pose proof (Rabs_pos (B2R z)). nra.
      - rewrite <- Rabs_mult. apply Rabs_pos_eq. nra. }
    pose proof (G _ Fx Bx) as Gx. pose proof (G _ Fy By) as Gy. unfold reach, east, north.
    rewrite <- (sqrt_square (bpow radix2 16)) by apply bpow_ge_0. apply sqrt_le_1_alt.
    eapply Rle_trans; [apply Rplus_le_compat; [exact Gx|exact Gy]|].
    change (bpow radix2 16) with 65536. lra.
  - vm_compute. discriminate.
  - destruct (ex_callback_ok (fun l => l) (or_introl eq_refl)) as [out E]. exists out.
    pose proof ex_callback as HX. rewrite E in HX. destruct HX as [HE [HS _]].
    destruct (o_edge XA out) as [|q l]; [discriminate HE|].
    destruct (o_surface XA out) as [|r l']; [discriminate HS|].
    exists q, r. simpl. auto.
Qed.
