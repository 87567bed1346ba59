(** Completeness of the labelling: what the surface pass, one block and one ring do with
    every candidate (x/label.hpp:40-164, feature_extraction.cpp:127-138). *)
From Coq Require Import List ZArith Bool Lia Sorting.Permutation Sorting.Sorted.
From Verif Require Import Base Arith ExtractModel Spec SpecRing FillProofs LabelProofs OcclusionProofs
  NeighborProofs RingProofs IndexRangeProofs SeparationProofs.
Import ListNotations.
Open Scope Z_scope.

Lemma surface_assign_cover A srt p thr c curv ls ls' :
  valid_sort srt -> 0 <= p -> nb_symmetric c -> (forall i, get ls i <> Some Surface) ->
  surface_assign A srt p thr c curv ls = Ok ls' ->
  forall i v, get ls i = Some Default -> get curv i = Some v -> d_leb A v thr = true ->
  exists k w, get ls' k = Some Surface /\ within c p k i /\
              get curv k = Some w /\ d_ltb A v w = false.
Proof.
  intros Hvs Hp Hs H0 H i v Hd Hv Hok.
  unfold surface_assign in H. apply assert_ok in H. destruct H as [Hlen H].
  inv_bind H. rename v0 into ix. pose proof E as Eix. apply argsort_ok in E; auto.
  destruct E as [Hperm Hsort].
  assert (Hin : In i ix).
  { apply (Permutation_in i Hperm). apply zrange_In.
    apply get_bounds in Hv. unfold zlen in Hv. auto. }
  pose proof K as K2.
  eapply label_loop_cover in K2; eauto; try discriminate.
  2: { intros a b l Ha -> _ _. apply (H0 a); auto. }
  destruct K2 as [k [pre [post [Hsplit [Hink [Hk Hw]]]]]].
  assert (Hkb : 0 <= k < zlen curv).
  { assert (In k ix) by (rewrite Hsplit; apply in_or_app; simpl; auto).
    eapply argsort_indices; eauto. }
  destruct (get_some curv k Hkb) as [w Hwk].
  exists k, w. repeat split; auto; try apply Hw.
  rewrite <- (by_value_get A curv i k v w Hv Hwk).
  destruct Hink as [->|Hink].
  - unfold argsort in Eix. apply std_sort_ok in Eix. destruct Eix as [[Hirr _] _].
    apply Hirr. apply zrange_In. unfold zlen in Hkb; auto.
  - rewrite Hsplit in Hsort. apply in_split in Hink. destruct Hink as [q1 [q2 ->]].
    replace (pre ++ k :: q1 ++ i :: q2) with ((pre ++ k :: q1) ++ i :: q2) in Hsort
      by (rewrite <- app_assoc; auto).
    apply (SSorted_split _ _ _ _ k) in Hsort; auto. apply in_or_app; simpl; auto.
Qed.

(** a neighbour label written by a pass lies within the padding of a point the pass
    labelled, and that point keeps its label *)
Lemma label_loop_neighbor A c p ok nlab lab curv :
  0 <= p -> nlab <> Default -> lab <> Default -> nlab <> lab -> nb_symmetric c ->
  forall order ls ls',
  (forall i, get ls i <> Some lab) -> (forall i, get ls i <> Some nlab) ->
  foldM (label_step A c p ok nlab lab curv) ls order = Ok ls' ->
  forall i, get ls' i = Some nlab -> exists k, get ls' k = Some lab /\ within c p k i.
Proof.
  intros Hp Hnl Hll Hne Hsym order ls ls' H0 H1 H.
  assert (HI : protected c p (fun l => l = lab) ls' /\
    forall i, get ls' i = Some nlab -> exists k, get ls' k = Some lab /\ within c p k i).
  { revert H. apply (foldM_inv (label_step A c p ok nlab lab curv)
      (fun t => protected c p (fun l => l = lab) t /\
         forall i, get t i = Some nlab -> exists k, get t k = Some lab /\ within c p k i)).
    - intros s x s' [Hs1 Hs2] Hx.
      assert (Hprot : protected c p (fun l => l = lab) s').
      { apply (label_loop_protected A c p ok nlab lab curv Hp Hnl Hll Hne Hsym (fun l => l = lab) [x] s s'); auto.
        cbn [foldM]. rewrite Hx. reflexivity. }
      split; auto.
      assert (Hkeep : forall i, get s i = Some lab -> get s' i = Some lab).
      { intros i Hi.
        apply (label_loop_keeps A c p ok nlab lab curv Hp Hnl Hll Hne Hsym (fun l => l = lab) [x] s s'); auto.
        cbn [foldM]. rewrite Hx. reflexivity. }
      apply label_step_spec in Hx; auto.
      destruct Hx as [Hlen [Hb [[-> _]|[Hd [Hv [Hn [Hf1 Hf2]]]]]]]; [auto|].
      intros i Hi. assert (i <> x) by congruence.
      destruct (dec_near c p x i) as [Hnr|Hnr].
      + exists x. split; auto. apply near_within; auto.
      + rewrite Hf2 in Hi by auto. destruct (Hs2 i Hi) as [k [Hk Hw]]. eauto.
    - split.
      + intros a b l Ha -> _ _. apply (H0 a); auto.
      + intros i Hi. exfalso. apply (H1 i); auto. }
  apply HI.
Qed.

(** every label after the edge pass over a Default block *)
Lemma edge_assign_cases A srt p thr c curv ls ls' :
  0 <= p -> nb_symmetric c -> (forall i l, get ls i = Some l -> l = Default) ->
  edge_assign A srt p thr c curv ls = Ok ls' ->
  forall i, 0 <= i < zlen ls ->
    get ls' i = Some Default \/
    exists k, get ls' k = Some Edge /\ within c p k i.
Proof.
  intros Hp Hs H0 H i Hi.
  assert (Hl : zlen ls' = zlen ls) by exact (edge_assign_length _ _ _ _ _ _ _ _ Hp H).
  unfold edge_assign in H. apply assert_ok in H. destruct H as [_ H].
  apply assert_ok in H. destruct H as [_ H]. inv_bind H.
  destruct (get_some ls' i) as [l Hli]; [lia|].
  assert (Hoth : forall l0, l0 <> Edge -> l0 <> EdgeNeighbor -> get ls' i = Some l0 -> l0 = Default).
  { intros l0 N1 N2 Hl0. apply (H0 i).
    exact (label_loop_other A c p _ _ _ curv Hp _ _ _ _ N1 N2 K i Hl0). }
  destruct (label_eqb l Edge) eqn:E1; [apply label_eqb_eq in E1; subst l|].
  { right. exists i. split; auto. split; [lia|]. intros k Hk. lia. }
  destruct (label_eqb l EdgeNeighbor) eqn:E2; [apply label_eqb_eq in E2; subst l|].
  { right. eapply label_loop_neighbor in K; eauto; try discriminate;
      intros j Hj; apply H0 in Hj; discriminate. }
  left. rewrite Hli. f_equal. apply Hoth; auto.
  - intros ->. discriminate.
  - intros ->. discriminate.
Qed.

(** one block that starts Default *)
Section Block.
Variable A : arith.
Hypothesis Hcomm : mul_comm_arith A.
Variable srt : sorter.
Hypothesis Hsrt : valid_sort srt.
Variable p : Z.
Hypothesis Hp : 0 <= p.
Variables eth sth : D A.

Definition covered (c : nbcheck) (curv : list (D A)) (ls : list label) (lo hi i : Z) : Prop :=
  forall v, get curv i = Some v ->
  (d_leb A eth v = true -> exists k w, lo <= k < hi /\ within c p k i /\ get curv k = Some w /\
     d_ltb A w v = false /\ get ls k = Some Edge) /\
  (d_leb A v sth = true -> exists k w, lo <= k < hi /\ within c p k i /\ get curv k = Some w /\
     ((d_leb A eth w = true /\ get ls k = Some Edge) \/
      (d_leb A w sth = true /\ d_ltb A v w = false /\ get ls k = Some Surface))).

Lemma block_covered c cv lv lv1 lv2 :
  nb_symmetric c -> (forall i l, get lv i = Some l -> l = Default) ->
  edge_assign A srt p eth c cv lv = Ok lv1 ->
  surface_assign A srt p sth c cv lv1 = Ok lv2 ->
  forall i, 0 <= i < zlen lv -> covered c cv lv2 0 (zlen lv) i.
Proof.
  intros Hs Hdef H1 H2 i Hi v Hv.
  assert (N1 : forall i, get lv i <> Some Edge) by (intros q Hq; apply Hdef in Hq; discriminate).
  assert (N2 : forall i, get lv1 i <> Some Surface).
  { intros q Hq. apply (edge_assign_surface _ _ _ _ _ _ _ _ Hp H1) in Hq.
    apply Hdef in Hq. discriminate. }
  assert (L1 : zlen lv1 = zlen lv) by exact (edge_assign_length _ _ _ _ _ _ _ _ Hp H1).
  assert (L2 : zlen lv2 = zlen lv1) by exact (surface_assign_length _ _ _ _ _ _ _ _ Hp H2).
  assert (Hd : get lv i = Some Default).
  { destruct (get_some lv i Hi) as [l Hl]. pose proof (Hdef _ _ Hl). congruence. }
  assert (Hke : forall k, get lv1 k = Some Edge -> get lv2 k = Some Edge).
  { intros k Hk. apply (surface_keeps_edges A srt srt p eth sth c cv lv lv1 lv2); auto. }
  split; intros Hok.
  - destruct (edge_assign_cover A srt p eth c cv lv lv1 Hsrt Hp Hs N1 H1 i v Hd Hv Hok)
      as [k [w [Hk [Hw [Hwk Hlt]]]]].
    exists k, w. repeat (split; [solve [auto | apply get_bounds in Hk; lia]|]). auto.
  - destruct (edge_assign_cases A srt p eth c cv lv lv1 Hp Hs Hdef H1 i Hi) as [Hd1|[k [Hk Hw]]].
    + destruct (surface_assign_cover A srt p sth c cv lv1 lv2 Hsrt Hp Hs N2 H2 i v Hd1 Hv Hok)
        as [k [w [Hk [Hw [Hwk Hlt]]]]].
      exists k, w. repeat (split; [solve [auto | apply get_bounds in Hk; lia]|]).
      right. split; auto.
      destruct (surface_assign_sound _ _ _ _ _ _ _ _ Hp H2 k Hk) as [Hk1|[_ [w' [Hw' Hok']]]].
      * exfalso. apply (N2 k); auto.
      * congruence.
    + destruct (edge_assign_sound _ _ _ _ _ _ _ _ Hp H1 k Hk) as [Hk1|[_ [w [Hwk Hokw]]]].
      * exfalso. apply (N1 k); auto.
      * exists k, w. repeat (split; [solve [auto | apply get_bounds in Hk; lia]|]).
        left. auto.
Qed.

Variable curv : list (D A).
Variable m : mapped A.
Variable rad : D A.
Variable r : index_range.
Variable B : Z -> Z.
Variable N : nat.
Hypothesis HB : forall j, 0 <= j < Z.of_nat N ->
  ir_begin A r j = Ok (B j) /\ ir_finish A r j = Ok (B (j + 1)) /\ B j <= B (j + 1).

Lemma within_shift sm b e k i : m_slice A m b e = Ok sm -> 0 <= k < e - b -> 0 <= i < e - b ->
  0 <= b -> within (nb_xy A sm rad) p k i -> within (nb_xy A m rad) p (b + k) (b + i).
Proof.
  intros Hsm Hk Hi Hb [H1 H2]. split; [lia|].
  intros q Hq. specialize (H2 (q - b)).
  rewrite (nb_xy_slice A m sm rad b e) in H2 by (auto; lia).
  replace (b + (q - b)) with q in H2 by lia.
  replace (b + (q - b + 1)) with (q + 1) in H2 by lia. apply H2. lia.
Qed.

Lemma blocks_covered ls n : (n <= N)%nat -> (forall i l, get ls i = Some l -> l = Default) ->
  forall ls', foldM (assign_block A srt p eth sth curv m rad r) ls (zrange n) = Ok ls' ->
  (forall i, B (Z.of_nat n) <= i -> get ls' i = get ls i) /\
  forall j i, 0 <= j < Z.of_nat n -> B j <= i < B (j + 1) ->
    covered (nb_xy A m rad) curv ls' (B j) (B (j + 1)) i.
Proof.
  intros Hn Hinit. induction n as [|n IH]; intros ls' H.
  { inversion H; subst. split; auto. intros; lia. }
  rewrite zrange_S, foldM_app in H. apply bind_ok in H. destruct H as [t [Ht H]].
  cbn [foldM] in H. apply bind_ok in H. destruct H as [t' [Hb H]]. inversion H; subst t'; clear H.
  destruct (IH ltac:(lia) t Ht) as [I1 I2]. clear IH Ht.
  apply assign_block_inv in Hb; auto.
  destruct Hb as [b [e [lv [lv1 [lv2 [cv [sm [Eb [Ee [Hlv [Hcv [Hsm [Hs [Hns [H1 [H2 [L2 [Hl Hg]]]]]]]]]]]]]]]]]].
  destruct (HB (Z.of_nat n)) as [Eb' [Ee' _]]; [lia|].
  rewrite Eb' in Eb. rewrite Ee' in Ee. inversion Eb; subst b; inversion Ee; subst e; clear Eb Ee.
  replace (Z.of_nat (S n)) with (Z.of_nat n + 1) by lia.
  set (b := B (Z.of_nat n)) in *. set (e := B (Z.of_nat n + 1)) in *.
  pose proof (vslice_spec _ _ _ _ Hlv) as [B0 [B1 [B2 [B3 B4]]]].
  pose proof (vslice_spec _ _ _ _ Hcv) as [C0 [C1 [C2 [C3 C4]]]].
  assert (Hin : forall i, b <= i < e -> get ls' i = get lv2 (i - b)).
  { intros i Hi. rewrite Hg. replace ((b <=? i) && (i <? e)) with true; auto.
    symmetry. apply andb_true_iff. split; [apply Z.leb_le|apply Z.ltb_lt]; lia. }
  assert (Hout : forall i, ~ (b <= i < e) -> get ls' i = get t i).
  { intros i Hi. rewrite Hg. replace ((b <=? i) && (i <? e)) with false; auto.
    symmetry. apply andb_false_iff.
    destruct (Z_le_gt_dec b i); [right; apply Z.ltb_ge|left; apply Z.leb_gt]; lia. }
  assert (Hdef : forall k l, get lv k = Some l -> l = Default).
  { intros k l Hk. assert (Hkb := get_bounds _ _ _ Hk). rewrite B4 in Hk by lia.
    rewrite I1 in Hk by lia. eapply Hinit; eauto. }
  split.
  - intros i Hi. rewrite Hout by lia. apply I1. lia.
  - intros j i Hj Hi. destruct (Z.eq_dec j (Z.of_nat n)) as [->|Hne].
    + fold b e. fold b e in Hi.
      pose proof (block_covered (nb_xy A sm rad) cv lv lv1 lv2 (nb_xy_symmetric A sm rad Hcomm)
        Hdef H1 H2 (i - b) ltac:(lia)) as Hcov.
      intros v Hv. rewrite <- (Z.sub_add b i), Z.add_comm in Hv.
      rewrite <- C4 in Hv by lia. destruct (Hcov v Hv) as [V1 V2].
      assert (Hmove : forall k w, 0 <= k < zlen lv -> within (nb_xy A sm rad) p k (i - b) ->
        get cv k = Some w ->
        b <= b + k < e /\ within (nb_xy A m rad) p (b + k) i /\ get curv (b + k) = Some w /\
        get ls' (b + k) = get lv2 k).
      { intros k w Hk Hw Hwk. split; [lia|]. split.
        - replace i with (b + (i - b)) by lia. eapply within_shift; eauto; lia.
        - split; [rewrite <- C4 by lia; auto|]. rewrite Hin by lia. f_equal. lia. }
      split; intros Hok.
      * destruct (V1 Hok) as [k [w [Hk [Hw [Hwk [Hlt Hlab]]]]]].
        destruct (Hmove k w Hk Hw Hwk) as [M1 [M2 [M3 M4]]].
        exists (b + k), w. rewrite M4. auto.
      * destruct (V2 Hok) as [k [w [Hk [Hw [Hwk Hlab]]]]].
        destruct (Hmove k w Hk Hw Hwk) as [M1 [M2 [M3 M4]]].
        exists (b + k), w. rewrite M4. auto.
    + assert (Hjn : 0 <= j < Z.of_nat n) by lia. specialize (I2 j i Hjn Hi).
      assert (Hle : B (j + 1) <= b).
      { unfold b. eapply (B_mono A r B N); eauto; lia. }
      intros v Hv. destruct (I2 v Hv) as [V1 V2]. split; intros Hok.
      * destruct (V1 Hok) as [k [w [Hk Hr]]]. exists k, w. rewrite Hout by lia. auto.
      * destruct (V2 Hok) as [k [w [Hk Hr]]]. exists k, w. rewrite Hout by lia. auto.
Qed.

End Block.

(** ** Ring level *)
Lemma ring_labels_forward A srt P m ls curv :
  0 <= p_padding A P -> p_padding A P + 1 <= m_size A m ->
  m_size A m + p_padding A P + 2 < 2 ^ 31 ->
  ring_labels A srt P m (nb_xy A m (p_rad A P)) = Ok (ls, curv) ->
  exists r ls1, padded_index_range (m_size A m) (p_blocks A P) (p_padding A P) = Ok r /\
    assign_label A srt (p_padding A P) (p_edge A P) (p_surface A P) curv m (p_rad A P) r
      (init_labels (length (m_indices A m))) = Ok ls1 /\
    (forall i, 0 <= i < m_size A m -> get ls i = get ls1 i \/ masked A P m i).
Proof.
  intros Hp Hn Hb H. unfold ring_labels in H. cbv zeta in H.
  inv_bind H. rename v into ranges. inv_bind K. rename v into cv. inv_bind K0. rename v into r.
  inv_bind K. rename v into ls1. inv_bind K0. rename v into ls2. inv_bind K. rename v into ls3.
  inv_bind K0. rename v into ls4. inversion K; subst; clear K.
  pose proof (init_labels_len (length (m_indices A m))) as HL0.
  fold (zlen (m_indices A m)) in HL0. fold (m_size A m) in HL0.
  exists r, ls1. split; auto. split; auto.
  apply assign_label_labels in E2; auto.
  destruct E2 as [C1 [C2 [L1 _]]]. rewrite HL0 in *.
  apply label_occluded_spec in E3; auto; try lia. destruct E3 as [L2 [M2 U2]]. rewrite L1 in *.
  apply label_oor_spec in E4. destruct E4 as [L3 [M3 U3]].
  apply label_pb_spec in E5; [|lia]. destruct E5 as [ranges' [R' [L4 [M4 U4]]]].
  rewrite L3, L2 in *.
  intros i Hi.
  destruct (Classical_Prop.classic (masked A P m i)) as [Hm|Hm]; [auto|]. left.
  rewrite U4.
  2:{ intros [Ha Hb']. apply Hm. right. right. eauto. }
  rewrite U3.
  2:{ intros [Ha Hb']. apply Hm. right. left. auto. }
  apply U2. intros Ha. apply Hm. left. auto.
Qed.

Lemma ring_complete acosf srt (P : params (ieee acosf)) m ls curv :
  let A := ieee acosf in
  valid_sort srt ->
  0 <= p_padding A P -> p_padding A P + 1 <= m_size A m ->
  m_size A m + p_padding A P + 2 < 2 ^ 31 -> 1 <= p_blocks A P ->
  m_size A m * p_blocks A P <= 2 ^ 53 ->
  ring_labels A srt P m (nb_xy A m (p_rad A P)) = Ok (ls, curv) ->
  exists r B, padded_index_range (m_size A m) (p_blocks A P) (p_padding A P) = Ok r /\
    B 0 = p_padding A P /\ B (p_blocks A P) = m_size A m - p_padding A P /\
    (forall j, 0 <= j < p_blocks A P -> ir_begin A r j = Ok (B j) /\
                             ir_finish A r j = Ok (B (j + 1)) /\ B j <= B (j + 1)) /\
    forall j i v, 0 <= j < p_blocks A P -> B j <= i < B (j + 1) -> get curv i = Some v ->
      (d_leb A (p_edge A P) v = true ->
         exists k w, B j <= k < B (j + 1) /\
           within (nb_xy A m (p_rad A P)) (p_padding A P) k i /\
           get curv k = Some w /\ d_ltb A w v = false /\
           (get ls k = Some Edge \/ masked A P m k)) /\
      (d_leb A v (p_surface A P) = true ->
         exists k w, B j <= k < B (j + 1) /\
           within (nb_xy A m (p_rad A P)) (p_padding A P) k i /\
           get curv k = Some w /\
           ((d_leb A (p_edge A P) w = true /\ (get ls k = Some Edge \/ masked A P m k)) \/
            (d_leb A w (p_surface A P) = true /\ d_ltb A v w = false /\
             (get ls k = Some Surface \/ masked A P m k)))).
Proof.
  intros A Hsrt Hp Hn Hb Hnb Hsz H.
  destruct (ring_labels_forward A srt P m ls curv Hp Hn Hb H) as [r [ls1 [Hr [Ha Hfw]]]].
  assert (Hpr : m_size A m - p_padding A P < 2 ^ 31) by lia.
  destruct (blocks_partition acosf (p_padding A P) (m_size A m - p_padding A P) (p_blocks A P) r)
    as [B [B0 [B1 [B2 B3]]]]; auto; [nia|].
  exists r, B. split; auto. split; auto. split; auto. split; auto.
  assert (Hinit : forall i l, get (init_labels (length (m_indices A m))) i = Some l -> l = Default).
  { intros i l. rewrite init_labels_get. destruct (_ && _); congruence. }
  assert (HN : ir_n r = p_blocks A P).
  { unfold padded_index_range, make_index_range in Hr. destruct (_ <? _); [discriminate|].
    inversion Hr; subst. auto. }
  assert (HB' : forall j, 0 <= j < Z.of_nat (Z.to_nat (p_blocks A P)) -> ir_begin A r j = Ok (B j) /\
                             ir_finish A r j = Ok (B (j + 1)) /\ B j <= B (j + 1)).
  { intros j Hj. apply B2. lia. }
  pose proof Ha as Hal. apply assign_label_labels in Hal; auto.
  destruct Hal as [Hcl [Hml [Hll _]]].
  unfold assign_label in Ha. apply assert_ok in Ha. destruct Ha as [_ Ha].
  apply assert_ok in Ha. destruct Ha as [_ Ha]. rewrite HN in Ha.
  eapply blocks_covered in Ha; eauto; [|apply ieee_mul_comm].
  destruct Ha as [_ Hcov].
  intros j i v Hj Hi Hv. destruct (Hcov j i ltac:(lia) Hi v Hv) as [V1 V2].
  assert (Hlab : forall k w l, get curv k = Some w -> get ls1 k = Some l ->
    get ls k = Some l \/ masked A P m k).
  { intros k w l Hk Hl. destruct (Hfw k) as [E|E]; auto.
    - pose proof (get_bounds _ _ _ Hk) as Hkb.
      exact (eq_ind _ (fun z => 0 <= k < z) Hkb _ (eq_trans Hcl (eq_sym Hml))).
    - left. congruence. }
  split; intros Hok.
  - destruct (V1 Hok) as [k [w [H1 [H2 [H3 [H4 H5]]]]]]. exists k, w.
    repeat (split; [assumption|]). eauto.
  - destruct (V2 Hok) as [k [w [H1 [H2 [H3 H4]]]]]. exists k, w.
    repeat (split; [assumption|]). destruct H4 as [[H4 H5]|[H4 [H5 H6]]]; [left|right]; eauto.
Qed.
