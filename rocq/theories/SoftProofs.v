(** The stages of a ring end normally or with std::invalid_argument. *)
From Coq Require Import List ZArith Bool Lia Permutation.
From Verif Require Import Base Arith ExtractModel Spec FillProofs LabelProofs OcclusionProofs
  NeighborProofs RingProofs SeparationProofs.
Import ListNotations.
Open Scope Z_scope.

(** [o] is [o'] or an invalid_argument raised earlier *)
Definition rej {T} (o o' : outcome T) : Prop := o = ThrowInvalid \/ o = o'.

Lemma rej_refl {T} (o : outcome T) : rej o o.
Proof. right. auto. Qed.

Lemma rej_bind {T U} (m m' : outcome T) (f f' : T -> outcome U) :
  rej m m' -> (forall x, rej (f x) (f' x)) -> rej (bind m f) (bind m' f').
Proof. intros [-> | ->] H; [left; auto|]. destruct m'; simpl; auto; right; auto. Qed.

Lemma rej_foldM {X S} (f f' : S -> X -> outcome S) l :
  (forall s x, rej (f s x) (f' s x)) -> forall s, rej (foldM f s l) (foldM f' s l).
Proof.
  intros H. induction l as [|x l IH]; intros s; simpl; [apply rej_refl|].
  apply rej_bind; auto.
Qed.

Lemma rej_assert {T} b (o o' : outcome T) : rej o o' -> rej (assert_ b o) (assert_ b o').
Proof. destruct b; simpl; auto. intros; right; auto. Qed.

(** the neighbour check that answers "no" instead of throwing *)
Definition patch (c : nbcheck) : nbcheck := {|
  nb_size := nb_size c;
  nb := fun i j => match nb c i j with ThrowInvalid => Ok false | o => o end |}.

Lemma rej_nb c i j : rej (nb c i j) (nb (patch c) i j).
Proof. simpl. destruct (nb c i j); [right|left|right|right|right|right]; auto. Qed.

Section Rej.
Variable A : arith.
Variable c : nbcheck.
Notation c' := (patch c).

Lemma rej_fill_left_loop lab e n : forall i ls,
  rej (fill_left_loop c lab e n i ls) (fill_left_loop c' lab e n i ls).
Proof.
  induction n as [|n IH]; intros i ls; simpl; [apply rej_refl|].
  apply rej_bind; [apply rej_refl|]. intros ls1. apply rej_bind; [apply rej_nb|].
  intros [|]; auto. apply rej_refl.
Qed.

Lemma rej_fill_right_loop lab b n : forall i ls,
  rej (fill_right_loop c lab b n i ls) (fill_right_loop c' lab b n i ls).
Proof.
  induction n as [|n IH]; intros i ls; simpl; [apply rej_refl|].
  apply rej_bind; [apply rej_refl|]. intros ls1. apply rej_bind; [apply rej_nb|].
  intros [|]; auto. apply rej_refl.
Qed.

Lemma rej_fill_left b e lab ls : rej (fill_from_left c b e lab ls) (fill_from_left c' b e lab ls).
Proof.
  unfold fill_from_left. apply rej_assert. destruct (_ <? _); [apply rej_refl|].
  destruct (_ <? _); [apply rej_refl|]. apply rej_fill_left_loop.
Qed.

Lemma rej_fill_right b e lab ls : rej (fill_from_right c b e lab ls) (fill_from_right c' b e lab ls).
Proof.
  unfold fill_from_right. apply rej_assert. destruct (_ <=? _); [apply rej_refl|].
  destruct (_ <? _); [apply rej_refl|]. apply rej_fill_right_loop.
Qed.

Lemma rej_fill_neighbors i p lab ls : rej (fill_neighbors c i p lab ls) (fill_neighbors c' i p lab ls).
Proof.
  unfold fill_neighbors. apply rej_assert. apply rej_bind; [apply rej_fill_right|].
  intros; apply rej_fill_left.
Qed.

Lemma rej_label_step p ok nlab lab curv ls i :
  rej (label_step A c p ok nlab lab curv ls i) (label_step A c' p ok nlab lab curv ls i).
Proof.
  unfold label_step. apply rej_bind; [apply rej_refl|]. intros l.
  destruct (label_eqb l Default); [|apply rej_refl]. apply rej_bind; [apply rej_refl|]. intros v.
  destruct (ok v); [|apply rej_refl]. apply rej_bind; [apply rej_fill_neighbors|].
  intros; apply rej_refl.
Qed.

Lemma rej_edge_assign srt p thr curv ls :
  rej (edge_assign A srt p thr c curv ls) (edge_assign A srt p thr c' curv ls).
Proof.
  unfold edge_assign. apply rej_assert. apply rej_assert. apply rej_bind; [apply rej_refl|].
  intros ix. apply rej_foldM. intros; apply rej_label_step.
Qed.

Lemma rej_surface_assign srt p thr curv ls :
  rej (surface_assign A srt p thr c curv ls) (surface_assign A srt p thr c' curv ls).
Proof.
  unfold surface_assign. apply rej_assert. apply rej_bind; [apply rej_refl|].
  intros ix. apply rej_foldM. intros; apply rej_label_step.
Qed.

Lemma rej_label_occluded rng p thr ls :
  rej (label_occluded A c rng p thr ls) (label_occluded A c' rng p thr ls).
Proof.
  unfold label_occluded. apply rej_bind; unfold from_left, from_right.
  - apply rej_foldM. intros s i. unfold from_left_step. apply rej_bind; [apply rej_nb|].
    intros [|]; [|apply rej_refl]. simpl. apply rej_bind; [apply rej_refl|]. intros r0.
    apply rej_bind; [apply rej_refl|]. intros r1. destruct (d_ltb A _ _); [|apply rej_refl].
    apply rej_fill_left.
  - intros ls1. apply rej_foldM. intros s i. unfold from_right_step. apply rej_bind; [apply rej_nb|].
    intros [|]; [|apply rej_refl]. simpl. apply rej_bind; [apply rej_refl|]. intros r0.
    apply rej_bind; [apply rej_refl|]. intros r1. destruct (d_ltb A _ _); [|apply rej_refl].
    apply rej_fill_right.
Qed.
End Rej.

(** [soft Q o]: a result satisfying [Q], or invalid_argument if [b] allows it *)
Definition soft {T} (b : bool) (Q : T -> Prop) (o : outcome T) : Prop :=
  (b = true /\ o = ThrowInvalid) \/ (exists a, o = Ok a /\ Q a).

Lemma soft_bind {T U} b (Q : T -> Prop) (R : U -> Prop) m f :
  soft b Q m -> (forall x, Q x -> soft b R (f x)) -> soft b R (bind m f).
Proof.
  intros [[Hb ->]|[a [-> Ha]]] H; simpl; [left; auto|apply H; auto].
Qed.

Lemma soft_rej {T} (Q : T -> Prop) o o' : rej o o' -> soft true Q o' -> soft true Q o.
Proof. intros [-> | ->] H; auto. left; auto. Qed.

Lemma soft_foldM {X S} b (Q : S -> Prop) (f : S -> X -> outcome S) l :
  (forall s x, In x l -> Q s -> soft b Q (f s x)) -> forall s, Q s -> soft b Q (foldM f s l).
Proof.
  induction l as [|x l IH]; intros H s Hs; simpl; [right; eauto|].
  eapply soft_bind; [apply H; simpl; auto|]. intros t Ht. apply IH; auto.
  intros; apply H; simpl; auto.
Qed.

Section Ring.
Variable A : arith.
Variable srt : sorter.
Hypothesis Hsrt : valid_sort srt.
Variable P : params A.
Variable m : mapped A.
Hypothesis Hp : 1 <= p_padding A P.
Hypothesis Hvalid : forall i, 0 <= i < m_size A m -> exists pt, m_at A m i = Ok pt.
Hypothesis Hn : p_padding A P + 1 <= m_size A m.
Hypothesis Hb31 : m_size A m + p_padding A P + 2 < 2 ^ 31.

(** curvature values comparable like numbers *)
Definition orderable (l : list (D A)) : Prop :=
  forall l', incl l' l -> strict_weak_order (by_value A l') (zrange (length l')).

Lemma nb_xy_cases mm thr i j :
  (forall k, 0 <= k < m_size A mm -> exists pt, m_at A mm k = Ok pt) ->
  0 <= i < m_size A mm -> 0 <= j < m_size A mm ->
  (exists b, nb (nb_xy A mm thr) i j = Ok b) \/ nb (nb_xy A mm thr) i j = ThrowInvalid.
Proof.
  intros Hv Hi Hj. simpl. unfold check_index.
  assert (Hc : forall k, 0 <= k < m_size A mm ->
    (if k <? 0 then ThrowRange else if m_size A mm <=? k then ThrowRange else Ok tt) = Ok tt).
  { intros k Hk. destruct (k <? 0) eqn:E; [apply Z.ltb_lt in E; lia|].
    destruct (_ <=? k) eqn:E2; [apply Z.leb_le in E2; lia|]. auto. }
  rewrite !Hc by auto. simpl. destruct (Hv i Hi) as [p1 ->], (Hv j Hj) as [p2 ->]. simpl.
  unfold is_neighbor_xy, calc_radian. destruct (_ && _); simpl; eauto.
Qed.

Lemma patch_total mm thr :
  (forall k, 0 <= k < m_size A mm -> exists pt, m_at A mm k = Ok pt) ->
  nb_total (patch (nb_xy A mm thr)) (m_size A mm).
Proof.
  intros Hv i j Hi Hj _. cbn [patch nb].
  destruct (nb_xy_cases mm thr i j Hv Hi Hj) as [[b Hb]|Hb]; cbn [nb_xy nb] in Hb; simpl; rewrite Hb; eauto.
Qed.

Lemma soft_edge_assign b mm thr curv ls :
  (forall k, 0 <= k < m_size A mm -> exists pt, m_at A mm k = Ok pt) ->
  m_size A mm = zlen ls -> zlen curv = zlen ls -> orderable curv ->
  (b = false -> nb_total (nb_xy A mm (p_rad A P)) (zlen ls)) ->
  soft b (fun ls' => zlen ls' = zlen ls)
    (edge_assign A srt (p_padding A P) thr (nb_xy A mm (p_rad A P)) curv ls).
Proof.
  intros Hv Hm Hc Ho Ht. destruct b.
  - eapply soft_rej; [apply rej_edge_assign|]. right.
    apply edge_assign_total; auto; try lia.
    + rewrite <- Hm. apply patch_total; auto.
    + apply Ho. apply incl_refl.
  - right. apply edge_assign_total; auto; try lia. apply Ho. apply incl_refl.
Qed.

Lemma soft_surface_assign b mm thr curv ls :
  (forall k, 0 <= k < m_size A mm -> exists pt, m_at A mm k = Ok pt) ->
  ls <> [] -> m_size A mm = zlen ls -> zlen curv = zlen ls -> orderable curv ->
  (b = false -> nb_total (nb_xy A mm (p_rad A P)) (zlen ls)) ->
  soft b (fun ls' => zlen ls' = zlen ls)
    (surface_assign A srt (p_padding A P) thr (nb_xy A mm (p_rad A P)) curv ls).
Proof.
  intros Hv Hne Hm Hc Ho Ht. destruct b.
  - eapply soft_rej; [apply rej_surface_assign|]. right.
    apply surface_assign_total; auto; try lia.
    + rewrite <- Hm. apply patch_total; auto.
    + apply Ho. apply incl_refl.
  - right. apply surface_assign_total; auto; try lia. apply Ho. apply incl_refl.
Qed.

Lemma vslice_total {T} (l : list T) b e : 0 <= b -> b <= e -> e <= zlen l ->
  exists l', vslice l b e = Ok l' /\ incl l' l.
Proof.
  intros H1 H2 H3. unfold vslice. rewrite (proj2 (Z.leb_le 0 b)), (proj2 (Z.leb_le b e)), (proj2 (Z.leb_le e (zlen l))) by auto.
  simpl. eexists. split; [reflexivity|]. intros x Hx.
  assert (Hs : forall n (l : list T), incl (skipn n l) l).
  { clear. induction n; intros l; simpl; [apply incl_refl|]. destruct l; [apply incl_refl|].
    apply incl_tl. auto. }
  assert (Hf : forall n (l : list T), incl (firstn n l) l).
  { clear. induction n; intros l; simpl; [intros y []|]. destruct l; [apply incl_refl|].
    intros y [->|Hy]; simpl; auto. right. eapply IHn; eauto. }
  eapply Hs. eapply Hf. eauto.
Qed.

Lemma soft_assign_label b curv r B (Bn : Z) :
  zlen curv = m_size A m -> orderable curv ->
  ir_n r = Bn -> 0 <= Bn ->
  (forall j, 0 <= j < Bn -> ir_begin A r j = Ok (B j) /\ ir_finish A r j = Ok (B (j + 1)) /\
     0 <= B j /\ B j <= B (j + 1) /\ B (j + 1) <= m_size A m) ->
  (b = false -> nb_total (nb_xy A m (p_rad A P)) (m_size A m) /\
     forall j, 0 <= j < Bn -> B j + 2 <= B (j + 1)) ->
  soft b (fun ls' => zlen ls' = m_size A m)
    (assign_label A srt (p_padding A P) (p_edge A P) (p_surface A P) curv m (p_rad A P) r
       (init_labels (length (m_indices A m)))).
Proof.
  intros Hc Ho HBn HBn0 HB Hb. unfold assign_label.
  rewrite init_labels_len. fold (zlen (m_indices A m)). fold (m_size A m).
  rewrite Hc, Z.eqb_refl. simpl. apply soft_foldM.
  2:{ rewrite init_labels_len. auto. }
  intros ls j Hj HL. apply zrange_In in Hj. rewrite HBn in Hj.
  assert (Hj' : 0 <= j < Bn) by lia. clear Hj.
  destruct (HB j Hj') as [E1 [E2 [B0 [B1 B2]]]].
  unfold assign_block. rewrite E1, E2. cbn [bind].
  destruct (vslice_total ls (B j) (B (j + 1))) as [lv [Hlv _]]; [lia..|].
  destruct (vslice_total curv (B j) (B (j + 1))) as [cv [Hcv Hinc]]; [lia..|].
  rewrite Hlv, Hcv. cbn [bind].
  unfold m_slice. destruct (vslice_total (m_indices A m) (B j) (B (j + 1))) as [ix [Hix _]];
    [lia|lia|exact B2|].
  assert (Hsl : m_slice A m (B j) (B (j + 1)) = Ok {| m_cloud := m_cloud A m; m_indices := ix |}).
  { unfold m_slice. rewrite Hix. auto. }
  rewrite Hix. cbn [bind].
  pose proof (vslice_spec _ _ _ _ Hlv) as [_ [_ [_ [Llv _]]]].
  pose proof (vslice_spec _ _ _ _ Hcv) as [_ [_ [_ [Lcv _]]]].
  pose proof (vslice_spec _ _ _ _ Hix) as [_ [_ [_ [Lix Gix]]]].
  set (sm := {| m_cloud := m_cloud A m; m_indices := ix |}) in *.
  assert (Hsm : m_size A sm = B (j + 1) - B j) by auto.
  assert (Hvs : forall k, 0 <= k < m_size A sm -> exists pt, m_at A sm k = Ok pt).
  { intros k Hk. destruct (Hvalid (B j + k)) as [pt Hpt]; [lia|]. exists pt.
    unfold m_at in *. simpl. specialize (Gix k ltac:(lia)).
    destruct (get_some ix k) as [v Hv]; [lia|]. rewrite Hv in Gix. symmetry in Gix.
    apply vat_get in Hv, Gix. rewrite Hv. rewrite Gix in Hpt. exact Hpt. }
  assert (Hocv : orderable cv). { intros l' Hl'. apply Ho. eapply incl_tran; eauto. }
  unfold make_nb_xy. destruct (m_size A sm <? 2) eqn:Es.
  { destruct b; [left; auto|]. destruct (Hb eq_refl) as [_ Hw]. specialize (Hw j Hj').
    apply Z.ltb_lt in Es. lia. }
  apply Z.ltb_ge in Es. cbn [bind].
  assert (Ht : b = false -> nb_total (nb_xy A sm (p_rad A P)) (m_size A sm)).
  { intros ->. destruct (Hb eq_refl) as [Ht _]. intros i k Hi Hk Hik.
    rewrite (nb_xy_slice A m sm (p_rad A P) (B j) (B (j + 1))) by (auto; lia). apply Ht; lia. }
  eapply soft_bind.
  { apply soft_edge_assign; auto; try lia. rewrite Llv, <- Hsm. auto. }
  intros lv1 L1. cbn beta in L1. eapply soft_bind.
  { apply soft_surface_assign; auto; try lia.
    - intros ->. unfold zlen in L1 at 1. simpl in L1. lia.
    - rewrite L1, Llv, <- Hsm. auto. }
  intros lv2 L2. cbn beta in L2. right. eexists. split; [reflexivity|].
  destruct (vunslice_spec ls lv2 (B j)) as [U1 _]; lia.
Qed.

Lemma range_interval_total :
  exists ranges, range_interval A m 0 (m_size A m) = Ok ranges /\ zlen ranges = m_size A m /\
    forall i, 0 <= i < m_size A m -> exists r, get ranges i = Some r /\ range_at A m i = Ok r.
Proof.
  unfold range_interval. destruct (m_size A m - 0 <? 0) eqn:E; [apply Z.ltb_lt in E; lia|].
  destruct (mapM_ok (range_at A m) (zrange (Z.to_nat (m_size A m - 0)))) as [ys Hys].
  { intros x Hx. apply zrange_In in Hx. unfold range_at. destruct (Hvalid x) as [pt ->]; [lia|].
    simpl. eauto. }
  exists ys. split; auto. pose proof Hys as Hs. apply mapM_spec in Hs. destruct Hs as [Hl Hs].
  unfold zrange in Hl. rewrite map_length, seq_length in Hl.
  split; [unfold zlen; lia|].
  intros i Hi. destruct (Hs (Z.to_nat i) i) as [y [H1 H2]].
  { unfold zrange. rewrite nth_error_map, nth_error_nth' with (d := O) by (rewrite seq_length; lia).
    rewrite seq_nth by lia. simpl. f_equal. lia. }
  exists y. split; auto. unfold get. destruct (i <? 0) eqn:E2; [apply Z.ltb_lt in E2; lia|]. auto.
Qed.

Lemma soft_ring_labels b :
  (forall ranges curv, range_interval A m 0 (m_size A m) = Ok ranges ->
     calc_curvature A ranges (p_padding A P) = Ok curv -> zlen curv = m_size A m /\ orderable curv) ->
  (forall ranges, range_interval A m 0 (m_size A m) = Ok ranges ->
     soft b (fun _ => True) (calc_curvature A ranges (p_padding A P))) ->
  (b = false -> nb_total (nb_xy A m (p_rad A P)) (m_size A m)) ->
  (if b then True else p_blocks A P <= m_size A m - 2 * p_padding A P) ->
  1 <= p_blocks A P ->
  (forall r, padded_index_range (m_size A m) (p_blocks A P) (p_padding A P) = Ok r ->
    exists B, forall j, 0 <= j < p_blocks A P ->
      ir_begin A r j = Ok (B j) /\ ir_finish A r j = Ok (B (j + 1)) /\
      0 <= B j /\ B j <= B (j + 1) /\ B (j + 1) <= m_size A m /\ (b = false -> B j + 2 <= B (j + 1))) ->
  soft b (fun lc => zlen (fst lc) = m_size A m /\ zlen (snd lc) = m_size A m)
    (ring_labels A srt P m (nb_xy A m (p_rad A P))).
Proof.
  intros Hcurv Hcurv2 Hnb Hfit Hbl HB. unfold ring_labels. cbv zeta.
  destruct range_interval_total as [ranges [Hr [Lr Gr]]].
  rewrite Hr. cbn [bind].
  assert (Hrng : forall i, 0 <= i < m_size A m -> exists r, range_at A m i = Ok r).
  { intros i Hi. destruct (Gr i Hi) as [r [_ H]]. eauto. }
  eapply (soft_bind b (fun curv => zlen curv = m_size A m /\ orderable curv)).
  { destruct (Hcurv2 ranges Hr) as [[E1 E2]|[curv [Hc _]]]; [left; auto|].
    right. exists curv. split; auto. apply (Hcurv ranges); auto. }
  intros curv [Lc Oc].
  eapply (soft_bind b (fun r => padded_index_range (m_size A m) (p_blocks A P) (p_padding A P) = Ok r /\
     ir_n r = p_blocks A P)).
  { unfold padded_index_range, make_index_range.
    destruct (_ <? p_blocks A P) eqn:E.
    - destruct b; [left; auto|]. apply Z.ltb_lt in E. lia.
    - right. eexists. split; [reflexivity|]. auto. }
  intros r [Hr' Hrn]. destruct (HB r Hr') as [B HBs].
  eapply soft_bind.
  { apply (soft_assign_label b curv r B (p_blocks A P)); auto; try lia.
    - intros j Hj. destruct (HBs j Hj) as [H1 [H2 [H3 [H4 [H5 _]]]]]. auto.
    - intros Hbf. split; auto. intros j Hj. apply HBs; auto. }
  intros ls1 L1. cbn beta in L1.
  eapply (soft_bind b (fun ls => zlen ls = m_size A m)).
  { destruct b.
    - eapply soft_rej; [apply rej_label_occluded|]. right.
      destruct (label_occluded_total A (patch (nb_xy A m (p_rad A P))) (range_at A m) (p_padding A P)
        (p_distance A P) ltac:(lia) ls1) as [ls2 [H1 H2]]; try lia.
      + simpl. auto.
      + rewrite L1. apply patch_total; auto.
      + rewrite L1. auto.
      + exists ls2. split; auto. lia.
    - right. destruct (label_occluded_total A (nb_xy A m (p_rad A P)) (range_at A m) (p_padding A P)
        (p_distance A P) ltac:(lia) ls1) as [ls2 [H1 H2]]; try lia.
      + simpl. auto.
      + rewrite L1. auto.
      + rewrite L1. auto.
      + exists ls2. split; auto. lia. }
  intros ls2 L2. cbn beta in L2.
  destruct (label_oor_total A (range_at A m) (p_min A P) (p_max A P) (m_size A m) ls2) as [ls3 [H3 L3]]; auto.
  rewrite H3. cbn [bind].
  destruct (label_pb_total A (p_ratio A P) m ls3) as [ls4 [H4 L4]].
  { rewrite L3, L2. split; [lia|]. assert (2 ^ 31 < 2 ^ 63) by reflexivity. lia. }
  { rewrite L3, L2. auto. }
  rewrite H4. cbn [bind]. right. eexists. split; [reflexivity|]. simpl. split; lia.
Qed.

End Ring.
