(** The callback on finite clouds in IEEE arithmetic. *)
From Coq Require Import List ZArith Reals Bool Lia Lra.
From Flocq Require Import Core.
From Flocq Require Import IEEE754.BinarySingleNaN.
From Verif Require Import Base Arith ExtractModel Spec FillProofs LabelProofs OcclusionProofs
  NeighborProofs RingProofs RingMapProofs SoftProofs ConvProofs FloatLemmas FiniteProofs
  IndexRangeProofs CallbackProofs PipelineProofs.
Import ListNotations.
Open Scope Z_scope.

Section Run.
Variable acosf : b64 -> b64.
Notation A := (ieee acosf).
Variable srt : sorter.
Hypothesis Hsrt : valid_sort srt.
Variable P : params A.
Hypothesis Hp : 1 <= p_padding A P.
Hypothesis Hbl : 1 <= p_blocks A P.

Notation finite_xy := (Spec.finite_xy acosf).
Notation at_origin := (Spec.at_origin acosf).

Section OneRing.
Variable m : mapped A.
Hypothesis Hvalid : forall i, 0 <= i < m_size A m -> exists pt, m_at A m i = Ok pt /\ finite_xy pt.
Hypothesis Hn : p_padding A P + 1 <= m_size A m.
Hypothesis Hb31 : m_size A m + p_padding A P + 2 < 2 ^ 31.
Hypothesis Hsz : m_size A m * p_blocks A P <= 2 ^ 53.

Lemma Hvalid' i : 0 <= i < m_size A m -> exists pt, m_at A m i = Ok pt.
Proof. intros H. destruct (Hvalid i H) as [pt [H1 _]]. eauto. Qed.

Lemma ranges_ok ranges : range_interval A m 0 (m_size A m) = Ok ranges ->
  zlen ranges = m_size A m /\ Forall range_like ranges.
Proof.
  intros H. destruct (range_interval_total A P m Hp Hvalid' Hn) as [rs [H1 [H2 H3]]].
  rewrite H in H1. inversion H1; subst rs; clear H1. split; auto.
  apply Forall_forall. intros x Hx. apply In_nth_error in Hx. destruct Hx as [k Hk].
  assert (Hk2 : (k < length ranges)%nat) by (apply nth_error_Some; intros HN; pose proof (eq_trans (eq_sym Hk) HN); discriminate).
  destruct (H3 (Z.of_nat k)) as [r [G1 G2]]; [unfold zlen in H2; lia|].
  unfold get in G1. destruct (Z.of_nat k <? 0) eqn:E; [discriminate|]. rewrite Nat2Z.id in G1.
  pose proof (eq_trans (eq_sym Hk) G1) as G3. inversion G3; subst r; clear G1 G3.
  destruct (Hvalid (Z.of_nat k)) as [pt [V1 [V2 V3]]]; [unfold zlen in H2; lia|].
  unfold range_at in G2. rewrite V1 in G2. cbn [bind] in G2. inversion G2; subst x; clear G2.
  cbn [ieee f2d].
  destruct (conv64_ok _ V2) as [_ X2], (conv64_ok _ V3) as [_ Y2].
  destruct (xy_norm_ok acosf (conv64 (px A pt)) (conv64 (py A pt))) as [_ [N2 N3]];
    auto using conv64_bound.
  split; [exact N2|]. rewrite Rabs_pos_eq by (apply N3). apply N3.
Qed.

Lemma curvature_orderable ranges curv : range_interval A m 0 (m_size A m) = Ok ranges ->
  calc_curvature A ranges (p_padding A P) = Ok curv -> zlen curv = m_size A m /\ orderable A curv.
Proof.
  intros H1 H2. destruct (ranges_ok ranges H1) as [L HF].
  rewrite <- (Z2Nat.id (p_padding A P)) in H2 by lia. split.
  - apply curvature_length in H2; [|lia]. unfold zlen in *. cbn [ieee D] in *. lia.
  - apply finite_orderable. apply (curvature_finite acosf _ ranges curv) in H2; auto; lia.
Qed.

Lemma block_bounds r :
  padded_index_range (m_size A m) (p_blocks A P) (p_padding A P) = Ok r ->
  exists B, forall j, 0 <= j < p_blocks A P ->
      ir_begin A r j = Ok (B j) /\ ir_finish A r j = Ok (B (j + 1)) /\
      0 <= B j /\ B j <= B (j + 1) /\ B (j + 1) <= m_size A m /\
      (3 * p_blocks A P <= m_size A m - 2 * p_padding A P -> B j + 2 <= B (j + 1)).
Proof.
  intros Hr. unfold padded_index_range in Hr.
  set (n := p_blocks A P) in *. set (s := p_padding A P) in *. set (e := m_size A m - s) in *.
  assert (Hen : e * n <= 2 ^ 53) by (unfold e; nia).
  destruct (blocks_partition acosf s e n r) as [B [B0 [B1 [B2 B3]]]]; auto; try lia.
  exists B. intros j Hj. destruct (B2 j Hj) as [E1 [E2 E3]].
  destruct (blocks_width acosf s e n r 3) with (j := j) as [b [f [F1 [F2 [F3 [F4 [F5 _]]]]]]]; auto; try lia.
  pose proof (eq_trans (eq_sym E1) F1) as X1. pose proof (eq_trans (eq_sym E2) F2) as X2.
  inversion X1; inversion X2; subst b f.
  split; auto. split; auto. split; [lia|]. split; [lia|]. split; [lia|]. intros. lia.
Qed.

Lemma ring_soft :
  soft true (fun lc => zlen (fst lc) = m_size A m /\ zlen (snd lc) = m_size A m)
    (ring_labels A srt P m (nb_xy A m (p_rad A P))).
Proof.
  apply soft_ring_labels; auto using Hvalid'.
  - apply curvature_orderable.
  - intros ranges Hr. destruct (ranges_ok ranges Hr) as [L _].
    rewrite <- (Z2Nat.id (p_padding A P)) by lia.
    destruct (Nat.lt_ge_cases (length ranges) (2 * Z.to_nat (p_padding A P) + 1)) as [Hl|Hl].
    + left. split; auto. apply curvature_short; auto. lia.
    + right. rewrite curvature_ok by (auto; lia). eauto.
  - discriminate.
  - intros r Hr. destruct (block_bounds r Hr) as [B HB]. exists B. intros j Hj.
    destruct (HB j Hj) as [H1 [H2 [H3 [H4 [H5 _]]]]]. repeat (split; [solve [auto]|]). discriminate.
Qed.

(** long rings without two adjacent points at the origin are labelled *)
Lemma ring_ok :
  2 * p_padding A P + 3 * p_blocks A P <= m_size A m ->
  (forall i p q, m_at A m i = Ok p -> m_at A m (i + 1) = Ok q -> ~ (at_origin p /\ at_origin q)) ->
  exists ls curv, ring_labels A srt P m (nb_xy A m (p_rad A P)) = Ok (ls, curv) /\
    zlen ls = m_size A m /\ zlen curv = m_size A m.
Proof.
  intros Hlong Horig.
  assert (Hs : soft false (fun lc => zlen (fst lc) = m_size A m /\ zlen (snd lc) = m_size A m)
    (ring_labels A srt P m (nb_xy A m (p_rad A P)))).
  { apply soft_ring_labels; auto using Hvalid'.
    - apply curvature_orderable.
    - intros ranges Hr. destruct (ranges_ok ranges Hr) as [L _].
      rewrite <- (Z2Nat.id (p_padding A P)) by lia. right.
      rewrite curvature_ok; [eauto|lia|unfold zlen in L; lia].
    - intros _ i j Hi Hj Hij.
      cbn [nb_xy nb]. unfold check_index.
      assert (Hc : forall k, 0 <= k < m_size A m ->
        (if k <? 0 then ThrowRange else if m_size A m <=? k then ThrowRange else Ok tt) = Ok tt).
      { intros k Hk. destruct (k <? 0) eqn:E; [apply Z.ltb_lt in E; lia|].
        destruct (_ <=? k) eqn:E2; [apply Z.leb_le in E2; lia|]. auto. }
      rewrite !Hc by auto. cbn [bind].
      destruct (Hvalid i Hi) as [p [Hpi [Fp1 Fp2]]], (Hvalid j Hj) as [q [Hqj [Fq1 Fq2]]].
      rewrite Hpi, Hqj. cbn [bind]. unfold is_neighbor_xy, calc_radian.
      match goal with |- context [if ?b then _ else _] => destruct b eqn:E end; [|cbn [bind]; eauto].
      exfalso. apply andb_true_iff in E. destruct E as [E1 E2].
      assert (Hz : forall x y : b32, is_finite x = true -> is_finite y = true ->
         d_eqb A (xy_norm A (f2d A x) (f2d A y)) (d_of_Z A 0) = true -> B2R x = 0%R /\ B2R y = 0%R).
      { intros x y Hx Hy H. apply (norm_zero acosf x y Hx Hy). cbn [ieee d_eqb f2d d_of_Z] in H.
        destruct (conv64_ok _ Hx) as [_ X2], (conv64_ok _ Hy) as [_ Y2].
        destruct (xy_norm_ok acosf (conv64 x) (conv64 y)) as [_ [N2 _]]; auto using conv64_bound.
        destruct (of_Z64_ok 0) as [Z1 Z2]; [simpl; lia|].
        rewrite eqb64_ok in H by auto. destruct (Req_bool_spec (val (xy_norm A (conv64 x) (conv64 y))) (val (of_Z64 0)));
          [|discriminate]. rewrite Z1 in H0. auto. }
      apply Hz in E1; auto. apply Hz in E2; auto.
      destruct (Z.eq_dec j (i + 1)) as [->|Hne].
      + apply (Horig i p q); auto.
      + replace j with (i - 1) in * by lia. apply (Horig (i - 1) q p); auto.
        replace (i - 1 + 1) with i by lia. auto.
    - lia.
    - intros r Hr. destruct (block_bounds r Hr) as [B HB]. exists B. intros j Hj.
      destruct (HB j Hj) as [H1 [H2 [H3 [H4 [H5 H6]]]]]. repeat (split; [solve [auto]|]).
      intros _. apply H6. lia. }
  destruct Hs as [[Hf _]|[[ls curv] [H1 [H2 H3]]]]; [discriminate|].
  exists ls, curv. auto.
Qed.

End OneRing.

Variable cloud : list (point A).
Hypothesis Hfin : Forall finite_xy cloud.
Hypothesis Hsize : zlen cloud + p_padding A P + 2 < 2 ^ 31.
Hypothesis Hprod : zlen cloud * p_blocks A P <= 2 ^ 53.

Lemma ring_valid rings k ix :
  extract_rings A srt cloud = Ok rings -> In (k, ix) rings ->
  let m := {| m_cloud := cloud; m_indices := ix |} in
  forall i, 0 <= i < m_size A m -> exists pt, m_at A m i = Ok pt /\ finite_xy pt.
Proof.
  intros Hr Hi m i Hb. destruct (ring_size_le A srt cloud rings k ix Hr Hsrt Hi) as [_ Hval].
  unfold m_at. simpl. destruct (get_some ix i Hb) as [j Hj].
  assert (Hjin : In j ix).
  { unfold get in Hj. destruct (i <? 0); [discriminate|]. eapply nth_error_In; eauto. }
  apply Hval in Hjin. apply vat_get in Hj. rewrite Hj. simpl.
  destruct (get_some cloud j Hjin) as [pt Hpt]. exists pt. split; [apply vat_get; auto|].
  rewrite Forall_forall in Hfin. apply Hfin. unfold get in Hpt. destruct (j <? 0); [discriminate|].
  eapply nth_error_In; eauto.
Qed.

Lemma callback_never_escapes ord dense has_ring rings :
  valid_order ord -> extract_rings A srt cloud = Ok rings ->
  exists out, callback A srt ord P dense has_ring cloud = Ok out.
Proof.
  intros Ho Hr. apply (callback_total A srt P cloud ord dense has_ring rings); auto.
  intros k ix Hi Hlen m.
  destruct (ring_size_le A srt cloud rings k ix Hr Hsrt Hi) as [Hle _].
  assert (Hms : m_size A m = zlen ix) by auto.
  destruct (ring_soft m) as [[_ H]|[[ls curv] [H1 [H2 H3]]]]; auto; try lia.
  - eapply ring_valid; eauto.
  - nia.
  - right. exists ls, curv. auto.
Qed.

Lemma long_ring_contributes ord dense has_ring out rings k ix :
  valid_order ord ->
  callback A srt ord P dense has_ring cloud = Ok out ->
  extract_rings A srt cloud = Ok rings -> In (k, ix) rings ->
  2 * p_padding A P + 3 * p_blocks A P <= zlen ix ->
  (forall i a b p q, get ix i = Some a -> get ix (i + 1) = Some b ->
     get cloud a = Some p -> get cloud b = Some q -> ~ (at_origin p /\ at_origin q)) ->
  forall a p, In a ix -> get cloud a = Some p ->
    exists c, In c (o_colored A out) /\ (cx A c, cy A c, cz A c) = xyz A p.
Proof.
  intros Ho Hcb Hr Hi Hlong Horig a p Ha Hpa.
  destruct (ring_size_le A srt cloud rings k ix Hr Hsrt Hi) as [Hle _].
  destruct (isolation A srt P cloud ord dense has_ring out Hcb) as [rings' [parts [Hr' [HF [_ [_ Hc]]]]]].
  rewrite Hr in Hr'. inversion Hr'; subst rings'; clear Hr'.
  assert (Hk : In (k, ix) (ord (remove_sparse_rings rings (p_padding A P + 1)))).
  { eapply Permutation_in; [apply Ho|]. apply remove_sparse_spec. simpl. split; auto. lia. }
  destruct (Forall2_In_l _ _ _ _ HF Hk) as [part [Hpart Hcase]].
  set (m := {| m_cloud := cloud; m_indices := ix |}) in *.
  assert (Hms : m_size A m = zlen ix) by auto.
  assert (Hval : forall i, 0 <= i < m_size A m -> exists pt, m_at A m i = Ok pt /\ finite_xy pt)
    by (eapply ring_valid; eauto).
  assert (Hpr : m_size A m * p_blocks A P <= 2 ^ 53) by nia.
  destruct (ring_ok m Hval ltac:(lia) ltac:(lia) Hpr ltac:(lia)) as [ls [curv [Hok [L1 L2]]]].
  - intros i p1 p2 H1 H2. unfold m_at in H1, H2. simpl in H1, H2.
    apply bind_ok in H1, H2. destruct H1 as [a1 [H1 H1']], H2 as [a2 [H2 H2']].
    apply vat_get in H1, H1', H2, H2'. exact (Horig i a1 a2 p1 p2 H1 H2 H1' H2').
  - simpl in Hcase. fold m in Hcase. rewrite Hok in Hcase.
    destruct Hcase as [[Hx _]|[ls' [curv' [Hx Hy]]]]; [discriminate|].
    inversion Hx; subst ls' curv'; clear Hx.
    apply In_nth_error in Ha. destruct Ha as [t Ht].
    assert (Hti : (t < length ix)%nat) by (apply nth_error_Some; congruence).
    destruct (nth_error ls t) as [l|] eqn:El.
    2:{ apply nth_error_None in El. unfold zlen in *. lia. }
    exists {| cx := px A p : F A; cy := py A p; cz := pz A p; crgb := label_to_color l |}.
    split; [|reflexivity]. rewrite Hc. apply in_concat. exists (snd part). split.
    { apply in_map. auto. }
    subst part. simpl. unfold colored_of. apply in_flat_map. exists (l, a). split.
    + clear - El Ht. revert ls ix El Ht. induction t as [|t IH]; intros [|x ls] [|y ix]; simpl; try discriminate.
      * intros H1 H2. inversion H1; inversion H2. auto.
      * intros H1 H2. right. apply IH; auto.
    + simpl. rewrite Hpa. simpl. auto.
Qed.

End Run.

Lemma never_escapes acosf srt ord (P : params (ieee acosf)) cloud rings dense has_ring :
  let A := ieee acosf in
  valid_sort srt -> valid_order ord -> valid_params A P ->
  Forall (fun p => is_finite (px A p : b32) = true /\ is_finite (py A p : b32) = true) cloud ->
  zlen cloud + p_padding A P + 2 < 2 ^ 31 -> zlen cloud * p_blocks A P <= 2 ^ 53 ->
  extract_rings A srt cloud = Ok rings ->
  exists out, callback A srt ord P dense has_ring cloud = Ok out.
Proof.
  intros A Hs Ho [Hp [Hb _]] Hf H1 H2 Hr. subst A.
  assert (Hp' : 1 <= p_padding _ P) by lia. assert (Hb' : 1 <= p_blocks _ P) by lia.
  apply (callback_never_escapes acosf srt Hs P Hp' Hb' cloud Hf H1 H2 ord dense has_ring rings Ho Hr).
Qed.

Lemma long_rings acosf srt ord (P : params (ieee acosf)) cloud rings k ix out dense has_ring :
  let A := ieee acosf in
  valid_sort srt -> valid_order ord -> valid_params A P ->
  Forall (fun p => is_finite (px A p : b32) = true /\ is_finite (py A p : b32) = true) cloud ->
  zlen cloud + p_padding A P + 2 < 2 ^ 31 -> zlen cloud * p_blocks A P <= 2 ^ 53 ->
  (forall i a b p q, get ix i = Some a -> get ix (i + 1) = Some b ->
     get cloud a = Some p -> get cloud b = Some q -> ~ (at_origin acosf p /\ at_origin acosf q)) ->
  callback A srt ord P dense has_ring cloud = Ok out ->
  extract_rings A srt cloud = Ok rings -> In (k, ix) rings ->
  2 * p_padding A P + 3 * p_blocks A P <= zlen ix ->
  forall a p, In a ix -> get cloud a = Some p ->
    exists c, In c (o_colored A out) /\ (cx A c, cy A c, cz A c) = xyz A p.
Proof.
  intros A Hs Ho [Hp [Hb _]] Hf H1 H2 Hor Hcb Hr Hi Hl. subst A.
  assert (Hp' : 1 <= p_padding _ P) by lia. assert (Hb' : 1 <= p_blocks _ P) by lia.
  apply (long_ring_contributes acosf srt Hs P Hp' Hb' cloud Hf H1 H2 ord dense has_ring
    out rings k ix Ho Hcb Hr Hi Hl Hor).
Qed.
