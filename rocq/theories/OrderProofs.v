(** The extraction callback on two clouds with the same points in different orders. *)
From Coq Require Import List ZArith Bool Lia Permutation Sorting.Sorted FunctionalExtensionality.
From Verif Require Import Base Arith ExtractModel Spec FillProofs LabelProofs NeighborProofs RingProofs
  RingMapProofs CallbackProofs PipelineProofs.
Import ListNotations.
Open Scope Z_scope.

(** ** A ring is processed by its points, not by their indices *)
Section View.
Variable A : arith.

Lemma vat_by_get {T} (l : list T) i : vat l i = match get l i with Some x => Ok x | None => ThrowRange end.
Proof. unfold vat, get. destruct (i <? 0); auto. Qed.

Lemma get_map {X Y} (f : X -> Y) l i : get (map f l) i = option_map f (get l i).
Proof. unfold get. destruct (i <? 0); auto. apply nth_error_map. Qed.

Lemma m_at_view (c : list (point A)) ix i :
  m_at A {| m_cloud := c; m_indices := ix |} i =
  match get (map (get c) ix) i with Some (Some p) => Ok p | _ => ThrowRange end.
Proof.
  unfold m_at. cbn [m_cloud m_indices]. rewrite vat_by_get, get_map.
  destruct (get ix i) as [k|]; cbn [option_map bind]; auto. rewrite vat_by_get. destruct (get c k); auto.
Qed.

Lemma ring_labels_view srt (P : params A) (c1 c2 : list (point A)) ix1 ix2 :
  map (get c1) ix1 = map (get c2) ix2 ->
  (let m := {| m_cloud := c1; m_indices := ix1 |} in ring_labels A srt P m (nb_xy A m (p_rad A P))) =
  (let m := {| m_cloud := c2; m_indices := ix2 |} in ring_labels A srt P m (nb_xy A m (p_rad A P))).
Proof.
  intros H. cbv zeta.
  assert (G : forall d1 jx1 d2 jx2, map (get d1) jx1 = map (get d2) jx2 ->
    m_at A {| m_cloud := d1; m_indices := jx1 |} = m_at A {| m_cloud := d2; m_indices := jx2 |} /\
    length jx1 = length jx2 /\ zlen jx1 = zlen jx2 /\
    forall thr, nb_xy A {| m_cloud := d1; m_indices := jx1 |} thr = nb_xy A {| m_cloud := d2; m_indices := jx2 |} thr).
  { intros d1 jx1 d2 jx2 HH.
    assert (E1 : m_at A {| m_cloud := d1; m_indices := jx1 |} = m_at A {| m_cloud := d2; m_indices := jx2 |}).
    { apply functional_extensionality. intros i. rewrite !m_at_view, HH. auto. }
    assert (E2 : length jx1 = length jx2) by (rewrite <- (map_length (get d1)), HH, map_length; auto).
    assert (E3 : zlen jx1 = zlen jx2) by (unfold zlen; congruence).
    repeat split; auto. intros thr. unfold nb_xy, m_size. rewrite E1. cbn [m_indices]. rewrite E3. auto. }
  destruct (G _ _ _ _ H) as [E1 [E2 [E3 E4]]].
  assert (E5 : range_at A {| m_cloud := c1; m_indices := ix1 |} = range_at A {| m_cloud := c2; m_indices := ix2 |}).
  { apply functional_extensionality. intros i. unfold range_at. rewrite E1. auto. }
  assert (E6 : range_interval A {| m_cloud := c1; m_indices := ix1 |} = range_interval A {| m_cloud := c2; m_indices := ix2 |}).
  { apply functional_extensionality. intros i. apply functional_extensionality. intros j.
    unfold range_interval. rewrite E5. auto. }
  assert (E7 : forall p e s cv rad r,
     assign_block A srt p e s cv {| m_cloud := c1; m_indices := ix1 |} rad r =
     assign_block A srt p e s cv {| m_cloud := c2; m_indices := ix2 |} rad r).
  { intros. apply functional_extensionality. intros ls. apply functional_extensionality. intros j.
    unfold assign_block. destruct (ir_begin A r j) as [b| | | | |]; cbn [bind]; auto.
    destruct (ir_finish A r j) as [f| | | | |]; cbn [bind]; auto.
    destruct (vslice ls b f) as [lv| | | | |]; cbn [bind]; auto.
    destruct (vslice cv b f) as [cw| | | | |]; cbn [bind]; auto.
    unfold m_slice, vslice. cbn [m_indices m_cloud]. rewrite E3.
    destruct ((0 <=? b) && (b <=? f) && (f <=? zlen ix2)); cbn [bind]; auto.
    destruct (G c1 (firstn (Z.to_nat (f - b)) (skipn (Z.to_nat b) ix1))
                c2 (firstn (Z.to_nat (f - b)) (skipn (Z.to_nat b) ix2))) as [F1 [F2 [F3 F4]]].
    { rewrite <- !firstn_map, <- !skipn_map, H. auto. }
    unfold make_nb_xy, m_size. cbn [m_indices]. rewrite F3, F4. auto. }
  unfold ring_labels, assign_label, label_parallel_beam, m_size. cbn [m_indices].
  rewrite E2, E3, E4, E5, E6. cbv zeta.
  destruct (range_interval A _ 0 (zlen ix2)) as [rg| | | | |]; cbn [bind]; auto.
  destruct (calc_curvature A rg (p_padding A P)) as [cv| | | | |]; cbn [bind]; auto.
  destruct (padded_index_range (zlen ix2) (p_blocks A P) (p_padding A P)) as [r| | | | |]; cbn [bind]; auto.
  rewrite E7. auto.
Qed.

Lemma picked_view {T} (f : option (point A) -> list T) c1 c2 ls lab : forall ix1 ix2,
  map (get c1) ix1 = map (get c2) ix2 ->
  flat_map (fun k => f (get c1 k)) (picked ls ix1 lab) = flat_map (fun k => f (get c2 k)) (picked ls ix2 lab).
Proof.
  unfold picked. induction ls as [|l ls IH]; intros ix1 ix2 H; auto.
  destruct ix1 as [|i ix1], ix2 as [|j ix2]; try discriminate; auto.
  cbn [map] in H. inversion H. cbn [combine filter fst]. destruct (label_eqb l lab).
  - cbn [map flat_map snd]. f_equal; [congruence|auto].
  - auto.
Qed.

Lemma coords_view c1 c2 ls lab ix1 ix2 :
  map (get c1) ix1 = map (get c2) ix2 ->
  coords A c1 (picked ls ix1 lab) = coords A c2 (picked ls ix2 lab).
Proof. exact (picked_view (fun o => match o with Some p => [xyz A p] | None => [] end) c1 c2 ls lab ix1 ix2). Qed.

Lemma colored_view c1 c2 ls : forall ix1 ix2,
  map (get c1) ix1 = map (get c2) ix2 -> colored_of A c1 ls ix1 = colored_of A c2 ls ix2.
Proof.
  unfold colored_of. induction ls as [|l ls IH]; intros ix1 ix2 H; auto.
  destruct ix1 as [|i ix1], ix2 as [|j ix2]; try discriminate; auto.
  cbn [map] in H. injection H as H1 H2. cbn [combine flat_map fst snd]. rewrite H1. f_equal. auto.
Qed.
End View.

(** ** Sorting: no ties, so the result does not depend on the input order *)
Section Sort.
Variable T : Type.
Variable lt : T -> T -> bool.

Lemma swo_incl l l' : incl l' l -> strict_weak_order lt l -> strict_weak_order lt l'.
Proof.
  intros Hi [H1 [H2 H3]]. unfold incl in Hi.
  split; [intros a Ha; auto|]. split.
  - intros a b c Ha Hb Hc. apply H2; auto.
  - intros a b c Ha Hb Hc. apply H3; auto.
Qed.

Lemma strict_unique : forall l1 l2,
  (forall a b, In a l1 -> In b l1 -> lt a b = true -> lt b a = true -> False) ->
  StronglySorted (fun a b => lt a b = true) l1 -> StronglySorted (fun a b => lt a b = true) l2 ->
  Permutation l1 l2 -> l1 = l2.
Proof.
  induction l1 as [|x l1 IH]; intros l2 Ha S1 S2 HP.
  - apply Permutation_nil in HP. auto.
  - destruct l2 as [|y l2]; [apply Permutation_sym, Permutation_nil in HP; discriminate|].
    inversion S1 as [|? ? S1' F1]; subst. inversion S2 as [|? ? S2' F2]; subst.
    rewrite Forall_forall in F1, F2.
    assert (E : x = y).
    { assert (Hx : In x (y :: l2)) by (apply (Permutation_in _ HP); left; auto).
      assert (Hy : In y (x :: l1)) by (apply (Permutation_in _ (Permutation_sym HP)); left; auto).
      destruct Hx as [Hx|Hx]; auto. destruct Hy as [Hy|Hy]; auto. exfalso.
      apply (Ha x y); simpl; auto. }
    subst y. f_equal. apply IH; auto.
    + intros a b Ia Ib. apply Ha; simpl; auto.
    + eapply Permutation_cons_inv; eauto.
Qed.

Lemma pairs_perm (R : T -> T -> Prop) l l' : (forall a b, R a b -> R b a) ->
  Permutation l l' -> ForallOrdPairs R l -> ForallOrdPairs R l'.
Proof.
  intros Hs HP. induction HP; intros H; auto.
  - inversion H; subst. constructor; auto. apply (Permutation_Forall HP). auto.
  - inversion H as [|? ? F1 H']; subst. inversion H' as [|? ? F2 H'']; subst. inversion F1; subst.
    constructor; [constructor; auto|]. constructor; auto.
Qed.

Lemma sorted_strict l : ForallOrdPairs (fun a b => lt a b = true \/ lt b a = true) l ->
  StronglySorted (fun a b => lt b a = false) l -> StronglySorted (fun a b => lt a b = true) l.
Proof.
  intros H. induction H as [|a l F H IH]; intros S; constructor; inversion S as [|? ? S' F']; subst; auto.
  rewrite Forall_forall in *. intros b Hb. specialize (F b Hb). specialize (F' b Hb). cbv beta in F'.
  destruct F; congruence.
Qed.
End Sort.

Section Rings.
Variable A : arith.

(** the comparator of the rings on optional points *)
Definition pless (a b : option (point A)) : bool :=
  match a, b with Some p, Some q => polar_less A (px A p) (py A p) (px A q) (py A q) | _, _ => false end.

Lemma pless_ix c i j : 0 <= i -> 0 <= j -> polar_less_ix A c i j = pless (get c i) (get c j).
Proof.
  intros Hi Hj. unfold polar_less_ix, get. rewrite (proj2 (Z.ltb_ge i 0)), (proj2 (Z.ltb_ge j 0)) by lia. reflexivity.
Qed.

Lemma swo_map c ix : (forall i, In i ix -> 0 <= i) ->
  strict_weak_order (polar_less_ix A c) ix <-> strict_weak_order pless (map (get c) ix).
Proof.
  intros Hb. unfold strict_weak_order. split; intros [H1 [H2 H3]].
  - split; [|split].
    + intros a Ha. apply in_map_iff in Ha. destruct Ha as [i [<- Hi]]. rewrite <- pless_ix; auto.
    + intros a b d Ha Hb' Hd. apply in_map_iff in Ha, Hb', Hd.
      destruct Ha as [i [<- Hi]], Hb' as [j [<- Hj]], Hd as [k [<- Hk]]. rewrite <- !pless_ix by auto. eauto.
    + intros a b d Ha Hb' Hd. apply in_map_iff in Ha, Hb', Hd.
      destruct Ha as [i [<- Hi]], Hb' as [j [<- Hj]], Hd as [k [<- Hk]]. rewrite <- !pless_ix by auto. eauto.
  - split; [|split].
    + intros i Hi. rewrite pless_ix by auto. apply H1. apply in_map. auto.
    + intros i j k Hi Hj Hk. rewrite !pless_ix by auto. apply H2; apply in_map; auto.
    + intros i j k Hi Hj Hk. rewrite !pless_ix by auto. apply H3; apply in_map; auto.
Qed.

Lemma sorted_map c ix : (forall i, In i ix -> 0 <= i) ->
  StronglySorted (fun a b => polar_less_ix A c b a = false) ix ->
  StronglySorted (fun a b => pless b a = false) (map (get c) ix).
Proof.
  intros Hb H. induction H as [|i ix H IH F]; simpl; constructor.
  - apply IH. intros; apply Hb; simpl; auto.
  - rewrite Forall_forall in *. intros x Hx. apply in_map_iff in Hx. destruct Hx as [j [<- Hj]].
    rewrite <- pless_ix by (apply Hb; simpl; auto). auto.
Qed.

(** any two points of the same ring have different directions for the comparator *)
Definition apart (c : list (point A)) : Prop :=
  forall i j p q, i <> j -> get c i = Some p -> get c j = Some q -> pring A p = pring A q ->
    polar_less A (px A p) (py A p) (px A q) (py A q) = true \/
    polar_less A (px A q) (py A q) (px A p) (py A p) = true.

Lemma apart_pairs c k ix : apart c -> NoDup ix ->
  (forall i, In i ix -> exists p, get c i = Some p /\ pring A p = k) ->
  ForallOrdPairs (fun a b => pless a b = true \/ pless b a = true) (map (get c) ix).
Proof.
  intros Ha Hn Hr. induction Hn as [|i ix Hni Hn IH]; simpl; constructor.
  - apply Forall_forall. intros x Hx. apply in_map_iff in Hx. destruct Hx as [j [<- Hj]].
    destruct (Hr i (or_introl eq_refl)) as [p [Hp Kp]]. destruct (Hr j (or_intror Hj)) as [q [Hq Kq]].
    rewrite Hp, Hq. simpl. apply (Ha i j p q); auto; [|congruence]. intros ->. auto.
  - apply IH. intros; apply Hr; simpl; auto.
Qed.

Definition of_ring (c : list (point A)) (k : Z) : list (point A) := filter (fun p => pring A p =? k) c.

Lemma with_ring_points c k : map (get c) (with_ring A (combine (zrange (length c)) c) k) = map Some (of_ring c k).
Proof.
  unfold with_ring, of_ring.
  assert (G : forall l, (forall i p, In (i, p) l -> get c i = Some p) ->
    map (get c) (map fst (filter (fun ip => pring A (snd ip) =? k) l)) =
    map Some (filter (fun p => pring A p =? k) (map snd l))).
  { induction l as [|[i p] l IH]; intros H; auto. cbn [map filter fst snd].
    destruct (pring A p =? k); cbn [map fst]; rewrite ?IH by (intros; apply H; right; auto); auto.
    rewrite (H i p) by (left; auto). auto. }
  rewrite G.
  - f_equal. f_equal. assert (E : forall (l : list (point A)) s, map snd (combine (map Z.of_nat (seq s (length l))) l) = l).
    { clear. induction l as [|x l IH]; intros s; simpl; auto. rewrite IH. auto. }
    apply E.
  - intros i p. apply in_enumerate.
Qed.

Lemma of_ring_perm c1 c2 k : Permutation c1 c2 -> Permutation (of_ring c1 k) (of_ring c2 k).
Proof.
  intros H. unfold of_ring. induction H; simpl; auto.
  - destruct (pring A x =? k); auto.
  - destruct (pring A x =? k), (pring A y =? k); auto. constructor.
  - eapply Permutation_trans; eauto.
Qed.

Variable srt : sorter.
Hypothesis Hv : valid_sort srt.

(** the points of a finished ring *)
Lemma ring_points c rings k ix : extract_rings A srt c = Ok rings -> In (k, ix) rings ->
  Permutation (map (get c) ix) (map Some (of_ring c k)).
Proof.
  intros H Hi. unfold extract_rings in H. apply sort_each_ring_spec in H; auto. destruct H as [_ HF].
  destruct (Forall2_In_r _ _ _ _ HF Hi) as [[k' ix'] [H1 [H2 [H3 _]]]]. simpl in *. subst k'.
  rewrite <- H3. unfold make_point_indices in H1. fold (push_all A (combine (zrange (length c)) c)) in H1.
  apply push_all_spec in H1. destruct H1 as [_ ->]. rewrite with_ring_points. auto.
Qed.

Definition same_ring (c1 c2 : list (point A)) (r1 r2 : Z * list Z) : Prop :=
  fst r1 = fst r2 /\ map (get c1) (snd r1) = map (get c2) (snd r2).

Variable c1 c2 : list (point A).
Hypothesis HP : Permutation c1 c2.
Hypothesis Hap : apart c1.

Lemma rings_ok rings1 : extract_rings A srt c1 = Ok rings1 -> exists rings2, extract_rings A srt c2 = Ok rings2.
Proof.
  intros H1. pose proof (extract_rings_spec A srt c1 rings1 Hv H1) as [_ [S2 S3]].
  unfold extract_rings, sort_each_ring.
  apply OcclusionProofs.mapM_ok. intros [k ix] Hi. cbn [fst snd].
  unfold sort_by_atan2, std_sort. cut (swo_on (polar_less_ix A c2) ix = true).
  { intros ->. cbn [bind]. eauto. }
  apply swo_on_spec. destruct (make_point_indices_spec A c2) as [_ [_ M3]]. pose proof (M3 _ _ Hi) as [Hne [Hnd [_ Hin]]].
  assert (Hb : forall i, In i ix -> 0 <= i).
  { intros i Hx. apply Hin in Hx. destruct Hx as [p [Hg _]]. apply get_bounds in Hg. lia. }
  apply swo_map; auto.
  assert (Hw : map (get c2) ix = map Some (of_ring c2 k)).
  { unfold make_point_indices in Hi. fold (push_all A (combine (zrange (length c2)) c2)) in Hi.
    apply push_all_spec in Hi. destruct Hi as [_ ->]. apply with_ring_points. }
  destruct ix as [|i0 ix0]; [congruence|].
  destruct (proj1 (Hin i0) (or_introl eq_refl)) as [p0 [Hg0 Hk0]].
  assert (Hp0 : exists i, get c1 i = Some p0).
  { assert (Hp : In p0 c1).
    { apply (Permutation_in _ (Permutation_sym HP)). unfold get in Hg0. destruct (i0 <? 0); [discriminate|].
      eapply nth_error_In; eauto. }
    apply In_nth_error in Hp. destruct Hp as [n Hp]. exists (Z.of_nat n). unfold get.
    rewrite (proj2 (Z.ltb_ge (Z.of_nat n) 0)) by lia. rewrite Nat2Z.id. auto. }
  destruct Hp0 as [i1 Hg1]. destruct (S2 _ _ Hg1) as [jx Hj]. rewrite Hk0 in Hj.
  destruct (S3 _ _ Hj) as [_ [_ [Hin1 [Hs _]]]].
  apply swo_map in Hs.
  - revert Hs. apply swo_incl. intros x Hx. rewrite Hw in Hx.
    apply (Permutation_in _ (Permutation_sym (ring_points _ _ _ _ H1 Hj))).
    apply (Permutation_in _ (Permutation_map Some (Permutation_sym (of_ring_perm c1 c2 k HP)))). auto.
  - intros i Hx. apply Hin1 in Hx. destruct Hx as [p [Hg _]]. apply get_bounds in Hg. lia.
Qed.

Lemma ring_same rings1 rings2 k ix1 ix2 :
  extract_rings A srt c1 = Ok rings1 -> extract_rings A srt c2 = Ok rings2 ->
  In (k, ix1) rings1 -> In (k, ix2) rings2 -> map (get c1) ix1 = map (get c2) ix2.
Proof.
  intros H1 H2 I1 I2.
  pose proof (ring_points _ _ _ _ H1 I1) as P1. pose proof (ring_points _ _ _ _ H2 I2) as P2.
  destruct (extract_rings_spec A srt c1 rings1 Hv H1) as [_ [_ S1]]. destruct (S1 _ _ I1) as [_ [N1 [In1 [W1 O1]]]].
  destruct (extract_rings_spec A srt c2 rings2 Hv H2) as [_ [_ S2]]. destruct (S2 _ _ I2) as [_ [_ [In2 [_ O2]]]].
  assert (B1 : forall i, In i ix1 -> 0 <= i).
  { intros i Hx. apply In1 in Hx. destruct Hx as [p [Hg _]]. apply get_bounds in Hg. lia. }
  assert (B2 : forall i, In i ix2 -> 0 <= i).
  { intros i Hx. apply In2 in Hx. destruct Hx as [p [Hg _]]. apply get_bounds in Hg. lia. }
  assert (PP : Permutation (map (get c1) ix1) (map (get c2) ix2)).
  { rewrite P1, P2. apply Permutation_map, of_ring_perm, HP. }
  assert (Q1 : ForallOrdPairs (fun a b => pless a b = true \/ pless b a = true) (map (get c1) ix1)).
  { eapply apart_pairs; eauto. intros i Hi. apply In1. auto. }
  apply swo_map in W1; auto. destruct W1 as [Irr [Tr _]].
  apply (strict_unique _ pless); auto.
  - intros a b Ia Ib E1 E2. pose proof (Tr a b a Ia Ib Ia E1 E2) as E. rewrite Irr in E; auto. discriminate.
  - apply sorted_strict; auto. apply sorted_map; auto.
  - apply sorted_strict; [|apply sorted_map; auto].
    eapply pairs_perm; [|exact PP|exact Q1]. tauto.
Qed.

(** the two lists of rings, entry by entry *)
Lemma rings_match rings1 rings2 :
  extract_rings A srt c1 = Ok rings1 -> extract_rings A srt c2 = Ok rings2 ->
  exists rings', Permutation rings2 rings' /\ Forall2 (same_ring c1 c2) rings1 rings'.
Proof.
  intros H1 H2.
  destruct (extract_rings_spec A srt c1 rings1 Hv H1) as [K1 [E1 S1]].
  destruct (extract_rings_spec A srt c2 rings2 Hv H2) as [K2 [E2 S2]].
  assert (Hg : forall (ca cb : list (point A)) p i, Permutation ca cb -> get ca i = Some p -> exists j, get cb j = Some p).
  { intros ca cb p i HPP Hg. assert (Hp : In p cb).
    { apply (Permutation_in _ HPP). unfold get in Hg. destruct (i <? 0); [discriminate|]. eapply nth_error_In; eauto. }
    apply In_nth_error in Hp. destruct Hp as [n Hp]. exists (Z.of_nat n). unfold get.
    rewrite (proj2 (Z.ltb_ge (Z.of_nat n) 0)) by lia. rewrite Nat2Z.id. auto. }
  assert (Hk : Permutation (map fst rings1) (map fst rings2)).
  { apply NoDup_Permutation; auto. intros k. split; intros Hi; apply in_map_iff in Hi; destruct Hi as [[k' ix] [Ek Hi]];
      simpl in Ek; subst k'.
    - destruct (S1 _ _ Hi) as [Hne [_ [Hin _]]]. destruct ix as [|i ix]; [congruence|].
      destruct (proj1 (Hin i) (or_introl eq_refl)) as [p [Hp Hkp]].
      destruct (Hg _ _ _ _ HP Hp) as [j Hj]. destruct (E2 _ _ Hj) as [jx Hjx]. rewrite Hkp in Hjx.
      apply in_map_iff. exists (k, jx). auto.
    - destruct (S2 _ _ Hi) as [Hne [_ [Hin _]]]. destruct ix as [|i ix]; [congruence|].
      destruct (proj1 (Hin i) (or_introl eq_refl)) as [p [Hp Hkp]].
      destruct (Hg _ _ _ _ (Permutation_sym HP) Hp) as [j Hj]. destruct (E1 _ _ Hj) as [jx Hjx]. rewrite Hkp in Hjx.
      apply in_map_iff. exists (k, jx). auto. }
  apply Permutation_map_inv in Hk. destruct Hk as [rings' [Ek HPr]].
  exists rings'. split; [auto|].
  assert (Hr : forall r, In r rings' -> In r rings2) by (intros r; apply Permutation_in, Permutation_sym; auto).
  assert (G : forall l l', (forall r, In r l -> In r rings1) -> (forall r, In r l' -> In r rings2) ->
     map fst l = map fst l' -> Forall2 (same_ring c1 c2) l l').
  { induction l as [|[k ix] l IH]; intros [|[k' ix'] l'] Hl Hl' E; try discriminate; constructor.
    - cbn [map fst] in E. inversion E; subst. split; auto. cbn [snd].
      eapply ring_same; eauto; [apply Hl|apply Hl']; left; reflexivity.
    - cbn [map fst] in E. inversion E. apply IH; auto; intros; [apply Hl|apply Hl']; right; auto. }
  apply G; auto.
Qed.

Lemma kept_match n rings1 rings' :
  Forall2 (same_ring c1 c2) rings1 rings' ->
  Forall2 (same_ring c1 c2) (remove_sparse_rings rings1 n) (remove_sparse_rings rings' n).
Proof.
  intros H. unfold remove_sparse_rings. induction H as [|r r' l l' Hr H IH]; simpl; auto.
  assert (E : zlen (snd r) = zlen (snd r')).
  { unfold zlen. rewrite <- (map_length (get c1)), (proj2 Hr), map_length. auto. }
  rewrite E. destruct (negb (zlen (snd r') <? n)); auto.
Qed.

Lemma filter_perm {X} (f : X -> bool) l l' : Permutation l l' -> Permutation (filter f l) (filter f l').
Proof.
  intros H. induction H; simpl; auto.
  - destruct (f x); auto.
  - destruct (f x), (f y); auto. constructor.
  - eapply Permutation_trans; eauto.
Qed.

Variable P : params A.

(** what a ring contributes *)
Definition contributes (c : list (point A)) (ring : Z * list Z) (part : list (F A * F A * F A) * list (F A * F A * F A) * list (colored A)) : Prop :=
  let m := {| m_cloud := c; m_indices := snd ring |} in
  let processed := ring_labels A srt P m (nb_xy A m (p_rad A P)) in
  (processed = ThrowInvalid /\ part = ([], [], [])) \/
  (exists ls curv, processed = Ok (ls, curv) /\
     part = (coords A c (picked ls (snd ring) Edge), coords A c (picked ls (snd ring) Surface), colored_of A c ls (snd ring))).

Lemma contributes_same r1 r2 p1 p2 : same_ring c1 c2 r1 r2 -> contributes c1 r1 p1 -> contributes c2 r2 p2 -> p1 = p2.
Proof.
  intros [_ Hs] H1 H2. unfold contributes in *. cbv zeta in *.
  pose proof (ring_labels_view A srt P c1 c2 _ _ Hs) as E. cbv zeta in E. rewrite E in H1.
  destruct H1 as [[E1 ->]|[ls [cv [E1 ->]]]], H2 as [[E2 ->]|[ls2 [cv2 [E2 ->]]]]; auto; try congruence.
  rewrite E1 in E2. inversion E2; subst.
  rewrite (coords_view A c1 c2 ls2 Edge _ _ Hs), (coords_view A c1 c2 ls2 Surface _ _ Hs), (colored_view A c1 c2 ls2 _ _ Hs). auto.
Qed.

Lemma parts_same : forall l1 l2, Forall2 (same_ring c1 c2) l1 l2 -> forall p1 p2,
  Forall2 (contributes c1) l1 p1 -> Forall2 (contributes c2) l2 p2 -> p1 = p2.
Proof.
  intros l1 l2 H. induction H as [|r1 r2 l1 l2 Hr H IH]; intros p1 p2 F1 F2.
  - inversion F1; inversion F2; auto.
  - inversion F1; subst. inversion F2; subst. f_equal; [eapply contributes_same; eauto|auto].
Qed.

Lemma input_order_independent ord1 ord2 dense has_ring out1 :
  1 <= p_padding A P -> zlen c1 + p_padding A P + 2 < 2 ^ 31 ->
  valid_order ord1 -> valid_order ord2 ->
  callback A srt ord1 P dense has_ring c1 = Ok out1 ->
  exists out2, callback A srt ord2 P dense has_ring c2 = Ok out2 /\
    Permutation (o_edge A out1) (o_edge A out2) /\
    Permutation (o_surface A out1) (o_surface A out2) /\
    Permutation (o_colored A out1) (o_colored A out2) /\
    o_shutdown A out1 = o_shutdown A out2.
Proof.
  intros Hpad Hsz O1 O2 HC.
  destruct (isolation A srt P c1 ord1 dense has_ring out1 HC) as [rings1 [parts1 [R1 [F1 [Ee [Es Ec]]]]]].
  destruct (rings_ok rings1 R1) as [rings2 R2].
  destruct (rings_match rings1 rings2 R1 R2) as [rings' [HPr HF]].
  pose proof (kept_match (p_padding A P + 1) _ _ HF) as HK.
  set (n := p_padding A P + 1) in *.
  change (Forall2 (contributes c1) (ord1 (remove_sparse_rings rings1 n)) parts1) in F1.
  destruct (Forall2_perm _ _ _ _ F1 (Permutation_sym (O1 _))) as [q1 [G1 Q1]].
  assert (HK2 : forall r, In r rings2 -> n <= zlen (snd r) -> exists r1, In r1 (remove_sparse_rings rings1 n) /\ same_ring c1 c2 r1 r).
  { intros r Hr Hn. assert (Hr' : In r (remove_sparse_rings rings' n)).
    { apply remove_sparse_spec. split; auto. apply (Permutation_in _ HPr). auto. }
    destruct (Forall2_In_r _ _ _ _ HK Hr') as [r1 [H1 H2]]. eauto. }
  destruct (callback_total A srt P c2 ord2 dense has_ring rings2 O2 Hv Hpad R2) as [out2 H2].
  { intros k ix Hi Hn. cbv zeta. destruct (HK2 (k, ix) Hi Hn) as [[k1 ix1] [I1 [Ek Hs]]]. cbn [fst snd] in *.
    destruct (Forall2_In_l _ _ _ _ G1 I1) as [part [_ Hc]]. unfold contributes in Hc. cbv zeta in Hc. cbn [snd] in Hc.
    pose proof (ring_labels_view A srt P c1 c2 _ _ Hs) as E. cbv zeta in E. rewrite E in Hc.
    destruct Hc as [[E1 _]|[ls [cv [E1 _]]]]; [left; auto|right]. exists ls, cv. split; auto.
    assert (Hl : zlen ix <= zlen c2) by (eapply ring_size_le; eauto).
    assert (Hl2 : zlen c1 = zlen c2) by (unfold zlen; f_equal; apply Permutation_length; auto).
    apply ring_labels_spec in E1; unfold m_size; cbn [m_indices]; try lia.
    destruct E1 as [L1 [L2 _]]. auto. }
  exists out2. split; auto.
  destruct (isolation A srt P c2 ord2 dense has_ring out2 H2) as [rings2' [parts2 [R2' [F2 [Ee2 [Es2 Ec2]]]]]].
  assert (rings2' = rings2) by congruence. subst rings2'.
  change (Forall2 (contributes c2) (ord2 (remove_sparse_rings rings2 n)) parts2) in F2.
  assert (HP2 : Permutation (ord2 (remove_sparse_rings rings2 n)) (remove_sparse_rings rings' n)).
  { eapply Permutation_trans; [apply Permutation_sym, O2|]. apply filter_perm. auto. }
  destruct (Forall2_perm _ _ _ _ F2 HP2) as [q2 [G2 Q2]].
  assert (q1 = q2) by (eapply parts_same; eauto). subst q2.
  assert (HPP : Permutation parts1 parts2) by (eapply Permutation_trans; [exact Q1|apply Permutation_sym; auto]).
  rewrite Ee, Es, Ec, Ee2, Es2, Ec2.
  split; [apply concat_perm, Permutation_map; auto|]. split; [apply concat_perm, Permutation_map; auto|].
  split; [apply concat_perm, Permutation_map; auto|].
  apply callback_inv in HC. apply callback_inv in H2. destruct HC as [? [? [_ [_ [-> _]]]]].
  destruct H2 as [? [? [_ [_ [-> _]]]]]. auto.
Qed.
End Rings.
