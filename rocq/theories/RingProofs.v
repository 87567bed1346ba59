(** Proofs about AssignLabel and the labelling of one ring (x/label.hpp:141-164,
    feature_extraction.cpp:127-138). *)
From Coq Require Import List ZArith Bool Lia.
From Verif Require Import Base Arith ExtractModel Spec FillProofs LabelProofs OcclusionProofs NeighborProofs.
Import ListNotations.
Open Scope Z_scope.

Section Ring.
Variable A : arith.
Variable srt : sorter.
Variable p : Z.
Variables eth sth : D A.
Variable curv : list (D A).
Variable m : mapped A.
Variable rad : D A.
Variable r : index_range.
Hypothesis Hp : 0 <= p.

(** one block: the written window and what the labels in it can be *)
Lemma assign_block_inv ls j ls' :
  assign_block A srt p eth sth curv m rad r ls j = Ok ls' ->
  exists b e lv lv1 lv2 cv sm,
    ir_begin A r j = Ok b /\ ir_finish A r j = Ok e /\
    vslice ls b e = Ok lv /\ vslice curv b e = Ok cv /\ m_slice A m b e = Ok sm /\
    2 <= e - b /\ nb_size (nb_xy A sm rad) = e - b /\
    edge_assign A srt p eth (nb_xy A sm rad) cv lv = Ok lv1 /\
    surface_assign A srt p sth (nb_xy A sm rad) cv lv1 = Ok lv2 /\
    zlen lv2 = e - b /\ zlen ls' = zlen ls /\
    (forall i, get ls' i = if (b <=? i) && (i <? e) then get lv2 (i - b) else get ls i).
Proof.
  intros H. unfold assign_block in H. inv_bind H. rename v into b. inv_bind K. rename v into e.
  inv_bind K0. rename v into lv. inv_bind K. rename v into cv. inv_bind K0. rename v into sm.
  inv_bind K. rename v into sc. inv_bind K0. rename v into lv1. inv_bind K. rename v into lv2.
  inversion K0; subst; clear K0.
  unfold make_nb_xy in E4. destruct (m_size A sm <? 2) eqn:Es; [discriminate|].
  inversion E4; subst sc; clear E4.
  pose proof E1 as S1. apply vslice_spec in S1. destruct S1 as [H0 [H1 [H2 [H3 _]]]].
  assert (Hms : m_size A sm = e - b).
  { unfold m_slice in E3. inv_bind E3. inversion K; subst. unfold m_size. simpl.
    apply vslice_spec in E4. tauto. }
  assert (L1 : zlen lv1 = zlen lv) by exact (edge_assign_length _ _ _ _ _ _ _ _ Hp E5).
  assert (L2 : zlen lv2 = zlen lv1) by exact (surface_assign_length _ _ _ _ _ _ _ _ Hp E6).
  destruct (vunslice_spec ls lv2 b) as [U1 U2]; [auto|lia|].
  exists b, e, lv, lv1, lv2, cv, sm. apply Z.ltb_ge in Es.
  repeat (split; [solve [auto | lia | rewrite <- Hms; auto]|]).
  intros i. rewrite U2. replace (b + zlen lv2) with e by lia. auto.
Qed.

Definition good_edge (i : Z) := exists v, get curv i = Some v /\ d_leb A eth v = true.
Definition good_surface (i : Z) := exists v, get curv i = Some v /\ d_leb A v sth = true.

Lemma block_default lv lv1 lv2 cv sc :
  edge_assign A srt p eth sc cv lv = Ok lv1 ->
  surface_assign A srt p sth sc cv lv1 = Ok lv2 ->
  forall k, get lv2 k = Some Default -> get lv k = Some Default.
Proof.
  intros H1 H2 k Hk. eapply edge_assign_default; eauto.
  unfold surface_assign in H2. apply assert_ok in H2. destruct H2 as [_ H2]. inv_bind H2.
  eapply label_loop_default; try exact K; auto; discriminate.
Qed.

Lemma assign_block_labels ls j ls' :
  assign_block A srt p eth sth curv m rad r ls j = Ok ls' ->
  zlen ls' = zlen ls /\
  (forall i, get ls' i = Some Default -> get ls i = Some Default) /\
  (forall i, get ls' i = Some Edge ->
     get ls i = Some Edge \/ (get ls i = Some Default /\ good_edge i)) /\
  (forall i, get ls' i = Some Surface ->
     get ls i = Some Surface \/ (get ls i = Some Default /\ good_surface i)) /\
  exists b e, ir_begin A r j = Ok b /\ ir_finish A r j = Ok e /\
     0 <= b /\ b + 2 <= e /\ e <= zlen ls /\
     forall i, ~ (b <= i < e) -> get ls' i = get ls i.
Proof.
  intros H. apply assign_block_inv in H.
  destruct H as [b [e [lv [lv1 [lv2 [cv [sm [Hb [He [Hlv [Hcv [Hsm [Hs [Hns [H1 [H2 [L2 [Hl Hg]]]]]]]]]]]]]]]]]].
  pose proof (vslice_spec _ _ _ _ Hlv) as [B0 [B1 [B2 [B3 B4]]]].
  pose proof (vslice_spec _ _ _ _ Hcv) as [C0 [C1 [C2 [C3 C4]]]].
  assert (Hin : forall i, b <= i < e -> get ls' i = get lv2 (i - b)).
  { intros i Hi. rewrite Hg. replace ((b <=? i) && (i <? e)) with true; auto.
    symmetry. apply andb_true_iff. split; [apply Z.leb_le|apply Z.ltb_lt]; lia. }
  assert (Hout : forall i, ~ (b <= i < e) -> get ls' i = get ls i).
  { intros i Hi. rewrite Hg. replace ((b <=? i) && (i <? e)) with false; auto.
    symmetry. apply andb_false_iff. destruct (Z_le_gt_dec b i); [right; apply Z.ltb_ge|left; apply Z.leb_gt]; lia. }
  assert (Hlv0 : forall i, b <= i < e -> get lv (i - b) = get ls i).
  { intros i Hi. rewrite B4 by lia. f_equal. lia. }
  assert (Hcv0 : forall i, b <= i < e -> get cv (i - b) = get curv i).
  { intros i Hi. rewrite C4 by lia. f_equal. lia. }
  assert (Hdec : forall i, b <= i < e \/ ~ (b <= i < e)) by (intros i; lia).
  split; [auto|]. split; [|split; [|split]].
  - intros i Hi. destruct (Hdec i) as [Hd|Hd]; [|rewrite Hout in Hi; auto].
    rewrite Hin in Hi by auto. rewrite <- Hlv0 by auto. eapply block_default; eauto.
  - intros i Hi. destruct (Hdec i) as [Hd|Hd]; [|rewrite Hout in Hi; auto].
    rewrite Hin in Hi by auto. apply (surface_assign_edge _ _ _ _ _ _ _ _ Hp H2) in Hi.
    apply (edge_assign_sound _ _ _ _ _ _ _ _ Hp H1) in Hi. rewrite Hlv0, Hcv0 in Hi by auto. exact Hi.
  - intros i Hi. destruct (Hdec i) as [Hd|Hd]; [|rewrite Hout in Hi; auto].
    rewrite Hin in Hi by auto. apply (surface_assign_sound _ _ _ _ _ _ _ _ Hp H2) in Hi.
    rewrite Hcv0 in Hi by auto. destruct Hi as [Hi|[Hi Hv]].
    + left. rewrite <- Hlv0 by auto. exact (edge_assign_surface _ _ _ _ _ _ _ _ Hp H1 _ Hi).
    + right. split; [|exact Hv]. rewrite <- Hlv0 by auto. exact (edge_assign_default _ _ _ _ _ _ _ _ Hp H1 _ Hi).
  - exists b, e. repeat (split; [auto; lia|]). auto.
Qed.

(** all blocks *)
Definition in_block (i : Z) : Prop := exists j b e, 0 <= j < ir_n r /\
  ir_begin A r j = Ok b /\ ir_finish A r j = Ok e /\ b <= i < e.

Lemma assign_label_labels ls ls' :
  assign_label A srt p eth sth curv m rad r ls = Ok ls' ->
  zlen curv = zlen ls /\ m_size A m = zlen ls /\ zlen ls' = zlen ls /\
  (forall i, get ls' i = Some Edge ->
     get ls i = Some Edge \/ (get ls i = Some Default /\ good_edge i)) /\
  (forall i, get ls' i = Some Surface ->
     get ls i = Some Surface \/ (get ls i = Some Default /\ good_surface i)) /\
  (forall i, get ls' i <> get ls i -> in_block i).
Proof.
  intros H. unfold assign_label in H. apply assert_ok in H. destruct H as [H1 H].
  apply assert_ok in H. destruct H as [H2 H]. apply Z.eqb_eq in H1, H2.
  split; [auto|]. split; [auto|].
  assert (HI : zlen ls' = zlen ls /\ (forall i, get ls' i = Some Default -> get ls i = Some Default) /\
     (forall i, get ls' i = Some Edge ->
     get ls i = Some Edge \/ (get ls i = Some Default /\ good_edge i)) /\
     (forall i, get ls' i = Some Surface ->
     get ls i = Some Surface \/ (get ls i = Some Default /\ good_surface i)) /\
     (forall i, get ls' i <> get ls i -> in_block i)).
  { assert (Hin : forall x, In x (zrange (Z.to_nat (ir_n r))) -> 0 <= x < ir_n r).
    { intros x Hx. apply zrange_In in Hx. lia. }
    revert H Hin. generalize (zrange (Z.to_nat (ir_n r))) as l.
    clear H1 H2. intros l. revert ls. induction l as [|x l IH]; intros ls H Hin; cbn [foldM] in H.
    { inversion H; subst. repeat split; auto. intros i Hi; congruence. }
    inv_bind H. rename v into t. apply assign_block_labels in E.
    destruct E as [E1 [E2 [E3 [E4 [b [e [Hb [He [B0 [B1 [B2 Bo]]]]]]]]]]].
    destruct (IH t K) as [I1 [I2 [I3 [I4 I5]]]]; [intros; apply Hin; simpl; auto|].
    split; [lia|]. split; [auto|]. split; [|split].
    - intros i Hi. destruct (I3 i Hi) as [Ht|[Ht Hv]]; auto.
    - intros i Hi. destruct (I4 i Hi) as [Ht|[Ht Hv]]; auto.
    - intros i Hi. assert (Hdec : b <= i < e \/ ~ (b <= i < e)) by lia.
      destruct Hdec as [Hd|Hd].
      + exists x, b, e. split; [apply Hin; simpl; auto|auto].
      + apply I5. rewrite Bo; auto. }
  tauto.
Qed.

End Ring.

(** ** One ring, feature_extraction.cpp:127-138 *)
Lemma init_labels_get n i : get (init_labels n) i = if (0 <=? i) && (i <? Z.of_nat n) then Some Default else None.
Proof.
  unfold init_labels. destruct (0 <=? i) eqn:E1, (i <? Z.of_nat n) eqn:E2; simpl.
  - apply Z.leb_le in E1. apply Z.ltb_lt in E2. unfold get.
    destruct (i <? 0) eqn:E; [apply Z.ltb_lt in E; lia|].
    rewrite nth_error_repeat; auto. lia.
  - apply Z.ltb_ge in E2. apply get_none. unfold zlen. rewrite repeat_length. lia.
  - apply Z.leb_gt in E1. apply get_none. lia.
  - apply get_none. apply Z.leb_gt in E1. lia.
Qed.

Lemma init_labels_len n : zlen (init_labels n) = Z.of_nat n.
Proof. unfold zlen, init_labels. rewrite repeat_length. auto. Qed.

Section RingLabels.
Variable A : arith.
Variable srt : sorter.
Variable P : params A.
Variable m : mapped A.
Notation c := (nb_xy A m (p_rad A P)).
Notation n := (m_size A m).
Hypothesis Hp : 0 <= p_padding A P.
Hypothesis Hn : p_padding A P + 1 <= n.
Hypothesis Hb : n + p_padding A P + 2 < 2 ^ 31.

(** what an Edge or Surface label of the finished ring means *)
Definition clean_at (i : Z) : Prop :=
  (exists rr, range_at A m i = Ok rr /\ d_leb A (p_min A P) rr = true /\ d_leb A rr (p_max A P) = true) /\
  ~ shadowed A c (range_at A m) (p_padding A P) (p_distance A P) n i /\
  (forall ranges, range_interval A m 0 n = Ok ranges -> 1 <= i < n - 1 -> ~ pb_at A (p_ratio A P) ranges i).

Lemma ring_labels_spec ls curv :
  ring_labels A srt P m c = Ok (ls, curv) ->
  zlen ls = n /\ zlen curv = n /\
  (exists ranges, range_interval A m 0 n = Ok ranges /\ calc_curvature A ranges (p_padding A P) = Ok curv) /\
  (exists r, padded_index_range n (p_blocks A P) (p_padding A P) = Ok r /\
     forall i, (get ls i = Some Edge \/ get ls i = Some Surface) -> in_block A r i) /\
  (forall i, get ls i = Some Edge ->
     clean_at i /\ exists v, get curv i = Some v /\ d_leb A (p_edge A P) v = true) /\
  (forall i, get ls i = Some Surface ->
     clean_at i /\ exists v, get curv i = Some v /\ d_leb A v (p_surface A P) = true).
Proof.
  intros H. unfold ring_labels in H. cbv zeta in H.
  inv_bind H. rename v into ranges. inv_bind K. rename v into cv. inv_bind K0. rename v into r.
  inv_bind K. rename v into ls1. inv_bind K0. rename v into ls2. inv_bind K. rename v into ls3.
  inv_bind K0. rename v into ls4. inversion K; subst; clear K.
  pose proof (init_labels_len (length (m_indices A m))) as HL0.
  fold (zlen (m_indices A m)) in HL0. fold (m_size A m) in HL0.
  apply assign_label_labels in E2; auto.
  destruct E2 as [C1 [C2 [L1 [Ge [Gs Gb]]]]]. rewrite HL0 in *.
  apply label_occluded_spec in E3; auto; try lia. destruct E3 as [L2 [M2 U2]]. rewrite L1 in *.
  apply label_oor_spec in E4. destruct E4 as [L3 [M3 U3]].
  apply label_pb_spec in E5; [|lia]. destruct E5 as [ranges' [R' [L4 [M4 U4]]]].
  rewrite L3, L2 in *. rewrite R' in E. inversion E; subst ranges'; clear E.
  assert (Hback : forall i l, get ls i = Some l -> l <> ParallelBeam -> l <> OutOfRange -> l <> Occluded ->
     get ls1 i = Some l /\ ~ (1 <= i < n - 1 /\ pb_at A (p_ratio A P) ranges i) /\
     ~ (0 <= i < n /\ bad_range A (range_at A m) (p_min A P) (p_max A P) i) /\
     ~ shadowed A c (range_at A m) (p_padding A P) (p_distance A P) n i).
  { intros i l Hi N1 N2 N3.
    assert (D4 : ~ (1 <= i < n - 1 /\ pb_at A (p_ratio A P) ranges i)).
    { intros [Ha Hb']. rewrite (M4 i Ha Hb') in Hi. congruence. }
    rewrite U4 in Hi by auto.
    assert (D3 : ~ (0 <= i < n /\ bad_range A (range_at A m) (p_min A P) (p_max A P) i)).
    { intros [Ha Hb']. rewrite (M3 i Ha Hb') in Hi. congruence. }
    rewrite U3 in Hi by auto.
    assert (D2 : ~ shadowed A c (range_at A m) (p_padding A P) (p_distance A P) n i).
    { intros Ha. rewrite (M2 i Ha) in Hi. congruence. }
    rewrite U2 in Hi by auto. auto. }
  assert (Hclean : forall i l, get ls i = Some l -> l <> ParallelBeam -> l <> OutOfRange -> l <> Occluded ->
     clean_at i).
  { intros i l Hi N1 N2 N3. destruct (Hback i l Hi N1 N2 N3) as [H1 [D4 [D3 D2]]].
    assert (Hbd : 0 <= i < n) by (apply get_bounds in Hi; lia).
    split; [|split; auto].
    - assert (Hr : exists rr, range_at A m i = Ok rr).
      { assert (Hnz : 0 <= n) by lia.
        unfold range_interval in R'. destruct (n - 0 <? 0) eqn:Ez; [apply Z.ltb_lt in Ez; lia|].
        apply mapM_spec in R'. destruct R' as [_ R'].
        destruct (R' (Z.to_nat i) i) as [y [Hy _]]; [|eauto].
        unfold zrange. rewrite nth_error_map, nth_error_nth' with (d := O) by (rewrite seq_length; lia).
        rewrite seq_nth by lia. simpl. f_equal. lia. }
      destruct Hr as [rr Hr]. exists rr. split; auto.
      apply andb_true_iff. destruct (d_leb A (p_min A P) rr && d_leb A rr (p_max A P)) eqn:Eb; auto.
      exfalso. apply D3. split; auto. exists rr. auto.
    - intros rs Hrs Hi2. rewrite R' in Hrs. inversion Hrs; subst. intros Hpb. apply D4. auto. }
  assert (Hinit : forall i l, l <> Default -> get (init_labels (length (m_indices A m))) i <> Some l).
  { intros i l Hl. rewrite init_labels_get. destruct (_ && _); congruence. }
  split; [lia|]. split; [lia|]. split; [eauto|]. split; [|split].
  - exists r. split; auto. intros i Hi. apply Gb.
    assert (H1 : get ls1 i = Some Edge \/ get ls1 i = Some Surface).
    { destruct Hi as [Hi|Hi]; [left|right]; apply Hback in Hi; try discriminate; tauto. }
    intros Heq. destruct H1 as [H1|H1]; rewrite Heq in H1; apply Hinit in H1; auto; discriminate.
  - intros i Hi. split; [eapply Hclean; eauto; discriminate|].
    apply Hback in Hi; try discriminate. destruct Hi as [Hi _].
    apply Ge in Hi. destruct Hi as [Hi|[_ Hi]]; auto. apply Hinit in Hi; [tauto|discriminate].
  - intros i Hi. split; [eapply Hclean; eauto; discriminate|].
    apply Hback in Hi; try discriminate. destruct Hi as [Hi _].
    apply Gs in Hi. destruct Hi as [Hi|[_ Hi]]; auto. apply Hinit in Hi; [tauto|discriminate].
Qed.

End RingLabels.
