(** Separation of Edge and Surface points inside one block of a ring, and positions of
    the features in a ring. *)
From Coq Require Import List ZArith Bool Lia.
From Verif Require Import Base Arith ExtractModel Spec FillProofs LabelProofs OcclusionProofs
  NeighborProofs RingProofs IndexRangeProofs.
Import ListNotations.
Open Scope Z_scope.

Lemma foldM_app {X S} (f : S -> X -> outcome S) l1 l2 : forall s,
  foldM f s (l1 ++ l2) = (t <- foldM f s l1 ;; foldM f t l2).
Proof.
  induction l1 as [|x l1 IH]; intros s; simpl; auto.
  destruct (f s x); simpl; auto.
Qed.

Lemma zrange_S n : zrange (S n) = zrange n ++ [Z.of_nat n].
Proof. unfold zrange. rewrite seq_S, map_app. auto. Qed.

Section Sep.
Variable A : arith.
Hypothesis Hcomm : mul_comm_arith A.
Variable srt : sorter.
Variable p : Z.
Variables eth sth : D A.
Variable curv : list (D A).
Variable m : mapped A.
Variable rad : D A.
Variable r : index_range.
Hypothesis Hp : 0 <= p.
Variable B : Z -> Z.
Variable N : nat.
Hypothesis HB : forall j, 0 <= j < Z.of_nat N ->
  ir_begin A r j = Ok (B j) /\ ir_finish A r j = Ok (B (j + 1)) /\ B j <= B (j + 1).

Notation c := (nb_xy A m rad).

Definition sep_label (lab : label) (ls : list label) (j : Z) : Prop :=
  forall i k, B j <= i -> i < k -> k < B (j + 1) ->
    get ls i = Some lab -> get ls k = Some lab -> run c i k -> p < k - i.

Lemma B_mono j k : 0 <= j -> j <= k -> k <= Z.of_nat N -> B j <= B k.
Proof.
  intros H1 H2. revert k H2. apply (Zlt_lower_bound_ind (fun k => k <= Z.of_nat N -> B j <= B k) j).
  intros k IH Hk Hn. destruct (Z.eq_dec j k) as [->|Hne]; [lia|].
  destruct (HB (k - 1)) as [_ [_ H]]; [lia|]. replace (k - 1 + 1) with k in H by lia.
  specialize (IH (k - 1)). lia.
Qed.

Lemma blocks_separated ls n : (n <= N)%nat -> (forall i l, get ls i = Some l -> l = Default) ->
  forall ls', foldM (assign_block A srt p eth sth curv m rad r) ls (zrange n) = Ok ls' ->
  (forall i, B (Z.of_nat n) <= i -> get ls' i = get ls i) /\
  forall j, 0 <= j < Z.of_nat n -> sep_label Edge ls' j /\ sep_label Surface ls' j.
Proof.
  intros Hn Hinit. induction n as [|n IH]; intros ls' H.
  { inversion H; subst. split; auto. intros; lia. }
  rewrite zrange_S, foldM_app in H. apply bind_ok in H. destruct H as [t [Ht H]].
  cbn [foldM] in H. apply bind_ok in H. destruct H as [t' [Hb H]]. inversion H; subst t'; clear H.
  destruct (IH ltac:(lia) t Ht) as [I1 I2]. clear IH Ht.
  apply assign_block_inv in Hb; auto.
  destruct Hb as [b [e [lv [lv1 [lv2 [cv [sm [Eb [Ee [Hlv [Hcv [Hsm [Hs [Hns [H1 [H2 [L2 [Hl Hg]]]]]]]]]]]]]]]]]].
  destruct (HB (Z.of_nat n)) as [Eb' [Ee' _]]; [lia|].
  rewrite Eb' in Eb. rewrite Ee' in Ee. inversion Eb; subst b; inversion Ee; subst e; clear Eb Ee.
  replace (Z.of_nat (S n)) with (Z.of_nat n + 1) by lia.
  set (b := B (Z.of_nat n)) in *. set (e := B (Z.of_nat n + 1)) in *.
  pose proof (vslice_spec _ _ _ _ Hlv) as [B0 [B1 [B2 [B3 B4]]]].
  assert (Hin : forall i, b <= i < e -> get ls' i = get lv2 (i - b)).
  { intros i Hi. rewrite Hg. replace ((b <=? i) && (i <? e)) with true; auto.
    symmetry. apply andb_true_iff. split; [apply Z.leb_le|apply Z.ltb_lt]; lia. }
  assert (Hout : forall i, ~ (b <= i < e) -> get ls' i = get t i).
  { intros i Hi. rewrite Hg. replace ((b <=? i) && (i <? e)) with false; auto.
    symmetry. apply andb_false_iff.
    destruct (Z_le_gt_dec b i); [right; apply Z.ltb_ge|left; apply Z.leb_gt]; lia. }
  assert (Hdef : forall k l, get lv k = Some l -> l = Default).
  { intros k l Hk. assert (Hkb := get_bounds _ _ _ Hk). rewrite B4 in Hk by lia.
    rewrite I1 in Hk by lia. eapply Hinit; eauto. }
  split.
  - intros i Hi. rewrite Hout by lia. apply I1. lia.
  - intros j Hj. destruct (Z.eq_dec j (Z.of_nat n)) as [->|Hne].
    + fold b e.
      assert (Hrun : forall i k, b <= i -> k < e -> run c i k -> run (nb_xy A sm rad) (i - b) (k - b)).
      { intros i k Hi Hk Hr q Hq. rewrite (nb_xy_slice A m sm rad b e) by (auto; lia).
        replace (b + (q + 1)) with (b + q + 1) by lia. apply Hr. lia. }
      split; intros i k Hi Hik Hk Gi Gk Hr; fold b in Hi; fold e in Hk;
        rewrite Hin in Gi, Gk by lia.
      * apply (surface_assign_edge _ _ _ _ _ _ _ _ Hp H2) in Gi, Gk.
        assert (Hd : p < (k - b) - (i - b)); [|lia].
        refine (edge_assign_separated _ _ _ _ _ _ _ _ _ _ H1 _ _ Gi Gk _ _).
        -- apply nb_xy_symmetric; auto.
        -- intros q Hq. apply Hdef in Hq. discriminate.
        -- lia.
        -- apply Hrun; auto.
      * assert (Hd : p < (k - b) - (i - b)); [|lia].
        refine (surface_assign_separated _ _ _ _ _ _ _ _ _ _ H2 _ _ Gi Gk _ _).
        -- apply nb_xy_symmetric; auto.
        -- intros q Hq. apply (edge_assign_surface _ _ _ _ _ _ _ _ Hp H1) in Hq.
           apply Hdef in Hq. discriminate.
        -- lia.
        -- apply Hrun; auto.
    + assert (Hjn : 0 <= j < Z.of_nat n) by lia. destruct (I2 j Hjn) as [S1 S2].
      assert (Hle : B (j + 1) <= b) by (apply B_mono; lia).
      split; intros i k Hi Hik Hk Gi Gk Hr; rewrite Hout in Gi, Gk by lia;
        [apply S1|apply S2]; auto.
Qed.

End Sep.

(** ** Ring level *)
Lemma ring_labels_back A srt P m ls curv :
  0 <= p_padding A P -> p_padding A P + 1 <= m_size A m ->
  m_size A m + p_padding A P + 2 < 2 ^ 31 ->
  ring_labels A srt P m (nb_xy A m (p_rad A P)) = Ok (ls, curv) ->
  exists r ls1, padded_index_range (m_size A m) (p_blocks A P) (p_padding A P) = Ok r /\
    assign_label A srt (p_padding A P) (p_edge A P) (p_surface A P) curv m (p_rad A P) r
      (init_labels (length (m_indices A m))) = Ok ls1 /\
    forall i l, get ls i = Some l -> l = Edge \/ l = Surface -> get ls1 i = Some l.
Proof.
  intros Hp Hn Hb H. unfold ring_labels in H. cbv zeta in H.
  inv_bind H. rename v into ranges. inv_bind K. rename v into cv. inv_bind K0. rename v into r.
  inv_bind K. rename v into ls1. inv_bind K0. rename v into ls2. inv_bind K. rename v into ls3.
  inv_bind K0. rename v into ls4. inversion K; subst; clear K.
  pose proof (init_labels_len (length (m_indices A m))) as HL0.
  fold (zlen (m_indices A m)) in HL0. fold (m_size A m) in HL0.
  exists r, ls1. split; auto. split; auto.
  apply assign_label_labels in E2; auto.
  destruct E2 as [C1 [C2 [L1 _]]]. rewrite HL0 in *.
  apply label_occluded_spec in E3; auto; try lia. destruct E3 as [L2 [M2 U2]]. rewrite L1 in *.
  apply label_oor_spec in E4. destruct E4 as [L3 [M3 U3]].
  apply label_pb_spec in E5; [|lia]. destruct E5 as [ranges' [R' [L4 [M4 U4]]]].
  rewrite L3, L2 in *.
  intros i l Hi Hl.
  rewrite U4 in Hi.
  2:{ intros [Ha Hb']. rewrite (M4 i Ha Hb') in Hi. destruct Hl; congruence. }
  rewrite U3 in Hi.
  2:{ intros [Ha Hb']. rewrite (M3 i Ha Hb') in Hi. destruct Hl; congruence. }
  rewrite U2 in Hi; auto.
  intros Ha. rewrite (M2 i Ha) in Hi. destruct Hl; congruence.
Qed.

Lemma ring_block_separated acosf srt (P : params (ieee acosf)) m ls curv :
  let A := ieee acosf in
  0 <= p_padding A P -> p_padding A P + 1 <= m_size A m ->
  m_size A m + p_padding A P + 2 < 2 ^ 31 -> 1 <= p_blocks A P ->
  m_size A m * p_blocks A P <= 2 ^ 53 ->
  ring_labels A srt P m (nb_xy A m (p_rad A P)) = Ok (ls, curv) ->
  exists r B, padded_index_range (m_size A m) (p_blocks A P) (p_padding A P) = Ok r /\
    B 0 = p_padding A P /\ B (p_blocks A P) = m_size A m - p_padding A P /\
    (forall j, 0 <= j < p_blocks A P -> ir_begin A r j = Ok (B j) /\
                             ir_finish A r j = Ok (B (j + 1)) /\ B j <= B (j + 1)) /\
    (forall i, get ls i = Some Edge \/ get ls i = Some Surface ->
       p_padding A P <= i < m_size A m - p_padding A P) /\
    forall j lab i k, lab = Edge \/ lab = Surface -> 0 <= j < p_blocks A P ->
      B j <= i -> i < k -> k < B (j + 1) ->
      get ls i = Some lab -> get ls k = Some lab -> run (nb_xy A m (p_rad A P)) i k ->
      p_padding A P < k - i.
Proof.
  intros A Hp Hn Hb Hnb Hsz H.
  destruct (ring_labels_back A srt P m ls curv Hp Hn Hb H) as [r [ls1 [Hr [Ha Hback]]]].
  assert (Hpr : m_size A m - p_padding A P < 2 ^ 31) by lia.
  destruct (blocks_partition acosf (p_padding A P) (m_size A m - p_padding A P) (p_blocks A P) r)
    as [B [B0 [B1 [B2 B3]]]]; auto; [nia|].
  exists r, B. split; auto. split; auto. split; auto. split; auto.
  pose proof Ha as Hal. apply assign_label_labels in Hal; auto.
  destruct Hal as [_ [_ [_ [_ [_ Hblk]]]]].
  assert (Hinit : forall i l, get (init_labels (length (m_indices A m))) i = Some l -> l = Default).
  { intros i l. rewrite init_labels_get. destruct (_ && _); congruence. }
  assert (HN : ir_n r = p_blocks A P).
  { unfold padded_index_range, make_index_range in Hr. destruct (_ <? _); [discriminate|].
    inversion Hr; subst. auto. }
  assert (HB' : forall j, 0 <= j < Z.of_nat (Z.to_nat (p_blocks A P)) -> ir_begin A r j = Ok (B j) /\
                             ir_finish A r j = Ok (B (j + 1)) /\ B j <= B (j + 1)).
  { intros j Hj. apply B2. lia. }
  split.
  - intros i Hi.
    assert (Hi1 : get ls1 i <> get (init_labels (length (m_indices A m))) i).
    { intros Heq. destruct Hi as [Hi|Hi]; apply Hback in Hi; auto; rewrite Heq in Hi;
        apply Hinit in Hi; discriminate. }
    apply Hblk in Hi1. destruct Hi1 as [j [b [e [Hj [Eb [Ee Hbe]]]]]]. rewrite HN in Hj.
    destruct (B2 j Hj) as [Eb' [Ee' _]].
    pose proof (eq_trans (eq_sym Eb') Eb) as X1. pose proof (eq_trans (eq_sym Ee') Ee) as X2.
    inversion X1; inversion X2; subst b e.
    pose proof (B_mono A r B _ HB' 0 j). pose proof (B_mono A r B _ HB' (j + 1) (p_blocks A P)). lia.
  - intros j lab i k Hl Hj Hi Hik Hk Gi Gk Hrun.
    unfold assign_label in Ha. apply assert_ok in Ha. destruct Ha as [_ Ha].
    apply assert_ok in Ha. destruct Ha as [_ Ha]. rewrite HN in Ha.
    eapply blocks_separated in Ha; eauto; [|apply ieee_mul_comm].
    destruct Ha as [_ Ha]. destruct (Ha j) as [S1 S2]; [lia|].
    destruct Hl as [-> | ->]; [apply (S1 i k)|apply (S2 i k)]; auto.
Qed.
