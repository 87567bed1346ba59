(** A ring read from its other end. *)
From Coq Require Import List ZArith Bool Lia Permutation Sorting.Sorted Classical.
From Verif Require Import Base Arith ExtractModel Spec FillProofs LabelProofs NeighborProofs OcclusionProofs
  RingProofs RingMapProofs SoftProofs SeparationProofs OrderProofs.
Import ListNotations.
Open Scope Z_scope.

Lemma zlen_rev {T} (l : list T) : zlen (rev l) = zlen l.
Proof. unfold zlen. rewrite rev_length. auto. Qed.

Lemma get_rev {T} (l : list T) i : get (rev l) i = get l (zlen l - 1 - i).
Proof.
  destruct (Z_lt_le_dec i 0) as [H|H]; [rewrite !get_none; auto; unfold zlen; try rewrite rev_length; lia|].
  destruct (Z_lt_le_dec i (zlen l)) as [H2|H2]; [|rewrite !get_none; auto; unfold zlen in *; try rewrite rev_length; lia].
  unfold get. rewrite (proj2 (Z.ltb_ge i 0)), (proj2 (Z.ltb_ge (zlen l - 1 - i) 0)) by lia.
  unfold zlen in *.
  assert (L : (Z.to_nat i < length l)%nat) by lia.
  assert (E : Z.to_nat (Z.of_nat (length l) - 1 - i) = (length l - S (Z.to_nat i))%nat) by lia. rewrite E.
  clear - L. revert L. generalize (Z.to_nat i). clear i. intros n L. destruct l as [|d l]; [simpl in L; lia|].
  rewrite (nth_error_nth' (rev (d :: l)) d) by (rewrite rev_length; auto).
  rewrite (nth_error_nth' (d :: l) d) by lia. rewrite rev_nth by auto. auto.
Qed.

Lemma rev_repeat {T} (x : T) k : rev (repeat x k) = repeat x k.
Proof. induction k as [|k IH]; simpl; auto. rewrite IH. clear IH. induction k as [|k IH]; simpl; [auto|]. rewrite IH. auto. Qed.

Lemma vat_rev {T} (l : list T) i : vat (rev l) i = vat l (zlen l - 1 - i).
Proof. rewrite !vat_by_get, get_rev. auto. Qed.

Lemma vslice_get {T} (l l' : list T) b e : 0 <= b -> b <= e -> e <= zlen l -> zlen l' = e - b ->
  (forall k, 0 <= k < e - b -> get l' k = get l (b + k)) -> vslice l b e = Ok l'.
Proof.
  intros H1 H2 H3 H4 H5. destruct (vslice_total l b e H1 H2 H3) as [s [Hs _]]. rewrite Hs. f_equal.
  apply vslice_spec in Hs. destruct Hs as [_ [_ [_ [L G]]]]. apply get_ext. intros k.
  destruct (Z_lt_le_dec k 0); [rewrite !get_none by lia; auto|].
  destruct (Z_lt_le_dec k (e - b)); [rewrite G, H5 by lia; auto|rewrite !get_none by lia; auto].
Qed.

Lemma vslice_rev {T} (l s : list T) b e : vslice l b e = Ok s -> vslice (rev l) (zlen l - e) (zlen l - b) = Ok (rev s).
Proof.
  intros H. apply vslice_spec in H. destruct H as [H1 [H2 [H3 [H4 H5]]]].
  apply vslice_get; rewrite ?zlen_rev; try lia.
  intros k Hk. rewrite !get_rev. rewrite H5 by lia. f_equal. lia.
Qed.

(** ** One pass over a block *)
(** the neighbour checks of a list of points and of the list read from its other end *)
Definition flipped (n : Z) (c c' : nbcheck) : Prop :=
  nb_size c = n /\ nb_size c' = n /\ forall i j, 0 <= i < n -> 0 <= j < n -> nb c' i j = nb c (n - 1 - i) (n - 1 - j).

Lemma near_flip n c c' p i k : flipped n c c' -> 0 <= i < n -> 0 <= k < n ->
  near c' p i k <-> near c p (n - 1 - i) (n - 1 - k).
Proof.
  intros [_ [_ H]] Hi Hk. unfold near, run, run_left. split; intros [[H1 H2]|[H1 H2]]; [right|left|right|left]; (split; [lia|]).
  - intros t Ht. specialize (H2 (n - 1 - t) ltac:(lia)). rewrite H in H2 by lia. rewrite <- H2. f_equal; lia.
  - intros t Ht. specialize (H2 (n - 1 - t) ltac:(lia)). rewrite H in H2 by lia. rewrite <- H2. f_equal; lia.
  - intros t Ht. rewrite H by lia. specialize (H2 (n - 1 - t) ltac:(lia)). rewrite <- H2. f_equal; lia.
  - intros t Ht. rewrite H by lia. specialize (H2 (n - 1 - t) ltac:(lia)). rewrite <- H2. f_equal; lia.
Qed.

Lemma total_flip n c c' : flipped n c c' -> nb_total c n -> nb_total c' n.
Proof. intros [_ [_ H]] Ht i j Hi Hj Hij. rewrite H by auto. apply Ht; lia. Qed.

Section Pass.
Variable A : arith.
Variable srt : sorter.
Hypothesis Hsrt : valid_sort srt.
Variable p : Z.
Hypothesis Hp : 0 <= p.
Variables c c' : nbcheck.
Variable n : Z.
Hypothesis Hf : flipped n c c'.
Hypothesis Ht : nb_total c n.

Section Step.
Variable ok : D A -> bool.
Variables nlab lab : label.
Variable curv : list (D A).
Hypothesis Hc : zlen curv = n.

Lemma step_total cc cv ls i : nb_size cc = n -> nb_total cc n -> zlen cv = n -> zlen ls = n -> 0 <= i < n ->
  exists ls', label_step A cc p ok nlab lab cv ls i = Ok ls'.
Proof.
  intros H1 H2 H3 H4 H5. destruct (label_loop_total A cc p ok nlab lab cv Hp [i] ls) as [ls' H]; try congruence.
  - rewrite H4. auto.
  - intros j [<-|[]]. lia.
  - exists ls'. cbn [foldM] in H. destruct (label_step A cc p ok nlab lab cv ls i); try discriminate. auto.
Qed.

Lemma step_flip ls i ls' : zlen ls = n -> 0 <= i < n ->
  label_step A c p ok nlab lab curv ls i = Ok ls' ->
  label_step A c' p ok nlab lab (rev curv) (rev ls) (n - 1 - i) = Ok (rev ls').
Proof.
  intros Hl Hi H. destruct Hf as [F1 [F2 F3]].
  destruct (step_total c' (rev curv) (rev ls) (n - 1 - i)) as [ls2 H2]; rewrite ?zlen_rev; auto; try lia.
  { eapply total_flip; eauto. }
  rewrite H2. f_equal. apply label_step_spec in H; auto. apply label_step_spec in H2; auto.
  rewrite zlen_rev in H2. destruct H as [L1 [_ S1]], H2 as [L2 [_ S2]].
  apply get_ext. intros k.
  destruct (Z_lt_le_dec k 0); [rewrite !get_none; rewrite ?zlen_rev; auto; lia|].
  destruct (Z_lt_le_dec k n); [|rewrite !get_none; rewrite ?zlen_rev; auto; lia].
  rewrite get_rev, L1, Hl.
  assert (Q : (get (rev ls) (n - 1 - i) = Some Default /\ exists v, get (rev curv) (n - 1 - i) = Some v /\ ok v = true) <->
              (get ls i = Some Default /\ exists v, get curv i = Some v /\ ok v = true)).
  { rewrite !get_rev, Hl, Hc. replace (n - 1 - (n - 1 - i)) with i by lia. tauto. }
  destruct S1 as [[-> N1]|[D1 [V1 [G1 [G2 G3]]]]], S2 as [[-> N2]|[D2 [V2 [G4 [G5 G6]]]]].
  - rewrite get_rev, Hl. auto.
  - exfalso. apply N1, Q. auto.
  - exfalso. apply N2, Q. auto.
  - destruct (Z.eq_dec k (n - 1 - i)) as [->|Hk].
    + rewrite G4. replace (n - 1 - (n - 1 - i)) with i by lia. auto.
    + destruct (dec_near c' p (n - 1 - i) k) as [Hn|Hn].
      * rewrite G5 by (auto; lia). rewrite G2; auto; try lia.
        apply (near_flip n c c' p) in Hn; auto; try lia. replace (n - 1 - (n - 1 - i)) with i in Hn by lia. auto.
      * rewrite G6, get_rev, Hl by auto. rewrite G3; auto; try lia.
        intros Hm. apply Hn. apply (near_flip n c c' p); auto; try lia. replace (n - 1 - (n - 1 - i)) with i by lia. auto.
Qed.

Lemma loop_flip order : forall ls ls', zlen ls = n -> (forall i, In i order -> 0 <= i < n) ->
  foldM (label_step A c p ok nlab lab curv) ls order = Ok ls' ->
  foldM (label_step A c' p ok nlab lab (rev curv)) (rev ls) (map (fun i => n - 1 - i) order) = Ok (rev ls').
Proof.
  induction order as [|i order IH]; intros ls ls' Hl Ho H; cbn [foldM map] in *; [congruence|].
  destruct (label_step A c p ok nlab lab curv ls i) as [ls1| | | | |] eqn:E; try discriminate. cbn [bind] in H.
  rewrite (step_flip ls i ls1) by (auto; apply Ho; left; auto). cbn [bind]. apply IH; auto.
  - apply label_step_spec in E; auto. lia.
  - intros j Hj. apply Ho. right. auto.
Qed.
End Step.

(** the values in a block are comparable, and no two are alike *)
Definition distinct (curv : list (D A)) : Prop :=
  forall i j a b, i <> j -> get curv i = Some a -> get curv j = Some b -> d_ltb A a b = true \/ d_ltb A b a = true.

Lemma argsort_flip curv ix : distinct curv ->
  strict_weak_order (by_value A curv) (zrange (length curv)) ->
  strict_weak_order (by_value A (rev curv)) (zrange (length curv)) ->
  argsort A srt curv = Ok ix -> argsort A srt (rev curv) = Ok (map (fun i => zlen curv - 1 - i) ix).
Proof.
  intros Hd W1 W2 H. destruct (argsort_total A srt (rev curv)) as [ix' H']; [rewrite rev_length; auto|].
  rewrite H'. f_equal. apply argsort_ok in H; auto. apply argsort_ok in H'; auto. rewrite rev_length in H'.
  destruct H as [P1 S1], H' as [P2 S2]. set (f := fun i => zlen curv - 1 - i).
  assert (I1 : forall i, In i ix -> 0 <= i < zlen curv).
  { intros i Hi. apply (Permutation_in _ (Permutation_sym P1)) in Hi. apply zrange_In in Hi. auto. }
  assert (I2 : forall i, In i ix' -> 0 <= i < zlen curv).
  { intros i Hi. apply (Permutation_in _ (Permutation_sym P2)) in Hi. apply zrange_In in Hi. auto. }
  assert (V : forall i j, 0 <= i < zlen curv -> 0 <= j < zlen curv -> by_value A (rev curv) (f i) (f j) = by_value A curv i j).
  { intros i j Hi Hj. destruct (get_some curv i Hi) as [a Ha], (get_some curv j Hj) as [b Hb].
    rewrite (by_value_get A curv i j a b Ha Hb). apply by_value_get; rewrite get_rev; unfold f; [rewrite <- Ha|rewrite <- Hb]; f_equal; lia. }
  assert (N1 : NoDup ix) by (eapply Permutation_NoDup; [exact P1|apply zrange_NoDup]).
  assert (N2 : NoDup ix') by (eapply Permutation_NoDup; [exact P2|apply zrange_NoDup]).
  assert (Q : forall (cv : list (D A)) jx, (forall i j a b, i <> j -> get cv i = Some a -> get cv j = Some b -> d_ltb A a b = true \/ d_ltb A b a = true) ->
     NoDup jx -> (forall i, In i jx -> 0 <= i < zlen cv) ->
     ForallOrdPairs (fun a b => by_value A cv a b = true \/ by_value A cv b a = true) jx).
  { intros cv jx HD HN HI. induction HN as [|x jx Hx HN IH]; constructor.
    - apply Forall_forall. intros y Hy. destruct (get_some cv x) as [a Ha]; [apply HI; left; auto|].
      destruct (get_some cv y) as [b Hb]; [apply HI; right; auto|].
      rewrite (by_value_get A cv x y a b), (by_value_get A cv y x b a) by auto. apply (HD x y); auto. intros ->. auto.
    - apply IH. intros; apply HI; right; auto. }
  assert (Hd' : forall i j a b, i <> j -> get (rev curv) i = Some a -> get (rev curv) j = Some b -> d_ltb A a b = true \/ d_ltb A b a = true).
  { intros i j a b Hij. rewrite !get_rev. apply Hd. lia. }
  apply (strict_unique _ (by_value A (rev curv))).
  - intros a b Ha Hb L1 L2. destruct W2 as [Irr [Tr _]].
    assert (Z1 : In a (zrange (length curv))) by (apply zrange_In; apply I2; auto).
    assert (Z2 : In b (zrange (length curv))) by (apply zrange_In; apply I2; auto).
    pose proof (Tr a b a Z1 Z2 Z1 L1 L2) as L. rewrite Irr in L by auto. discriminate.
  - apply sorted_strict; auto. apply Q; auto. intros i Hi. rewrite zlen_rev. auto.
  - assert (S1' : StronglySorted (fun a b => by_value A curv a b = true) ix) by (apply sorted_strict; auto).
    clear - S1' V I1. induction S1' as [|x ix S IH F]; cbn [map]; constructor.
    + apply IH. intros; apply I1; right; auto.
    + rewrite Forall_forall in *. intros y Hy. apply in_map_iff in Hy. destruct Hy as [z [<- Hz]].
      rewrite V by (apply I1; simpl; auto). auto.
  - rewrite <- P2, <- P1. apply NoDup_Permutation.
    + apply zrange_NoDup.
    + apply FinFun.Injective_map_NoDup; [|apply zrange_NoDup]. intros x y. unfold f. lia.
    + intros x. rewrite zrange_In, in_map_iff. split.
      * intros Hx. exists (zlen curv - 1 - x). split; [unfold f; lia|]. apply zrange_In. unfold zlen. lia.
      * intros [y [<- Hy]]. apply zrange_In in Hy. unfold f, zlen. lia.
Qed.

Variable curv : list (D A).
Hypothesis Hc : zlen curv = n.
Hypothesis Hd : distinct curv.
Hypothesis W1 : strict_weak_order (by_value A curv) (zrange (length curv)).
Hypothesis W2 : strict_weak_order (by_value A (rev curv)) (zrange (length curv)).

Lemma edge_flip thr ls ls' : zlen ls = n ->
  edge_assign A srt p thr c curv ls = Ok ls' -> edge_assign A srt p thr c' (rev curv) (rev ls) = Ok (rev ls').
Proof.
  intros Hl H. destruct Hf as [F1 [F2 F3]]. unfold edge_assign in *. apply assert_ok in H. destruct H as [_ H].
  apply assert_ok in H. destruct H as [_ H]. rewrite !zlen_rev, Hc, F2, Hl, Z.eqb_refl. cbn [assert_].
  inv_bind H. pose proof (argsort_indices A srt curv v Hsrt E) as HI. rewrite (argsort_flip curv v) by auto. cbn [bind].
  rewrite <- map_rev, Hc. apply loop_flip; auto.
  intros i Hi. rewrite <- Hc. apply HI. apply in_rev. auto.
Qed.

Lemma surface_flip thr ls ls' : zlen ls = n ->
  surface_assign A srt p thr c curv ls = Ok ls' -> surface_assign A srt p thr c' (rev curv) (rev ls) = Ok (rev ls').
Proof.
  intros Hl H. destruct Hf as [F1 [F2 F3]]. unfold surface_assign in *. apply assert_ok in H. destruct H as [H0 H].
  rewrite F2, <- F1, H0. cbn [assert_].
  inv_bind H. pose proof (argsort_indices A srt curv v Hsrt E) as HI. rewrite (argsort_flip curv v) by auto. cbn [bind].
  rewrite Hc. apply loop_flip; auto. intros i Hi. rewrite <- Hc. apply HI. auto.
Qed.
End Pass.

(** ** One ring *)
Section Blocks.
Variable A : arith.
Variable srt : sorter.
Variable p : Z.
Variables eth sth rad : D A.
Hypothesis Hp : 0 <= p.
Variable r : index_range.
Variable n q : Z.
Hypothesis Hq : 1 <= q.
Hypothesis HN : 1 <= ir_n r.
Hypothesis Hn : n = 2 * p + ir_n r * q.
Hypothesis Hb : forall j, 0 <= j < ir_n r -> ir_begin A r j = Ok (p + j * q) /\ ir_finish A r j = Ok (p + (j + 1) * q).

(** blocks of one point are rejected *)
Lemma one_point_blocks (m : mapped A) curv : q = 1 -> m_size A m = n -> zlen curv = n ->
  assign_label A srt p eth sth curv m rad r (init_labels (length (m_indices A m))) = ThrowInvalid.
Proof.
  intros Q1 Hm Hc. unfold assign_label. rewrite init_labels_len. fold (zlen (m_indices A m)). fold (m_size A m).
  rewrite Hc, Hm, Z.eqb_refl. cbn [assert_].
  assert (E : exists k, Z.to_nat (ir_n r) = S k) by (exists (Z.to_nat (ir_n r - 1)); lia). destruct E as [k E].
  rewrite E. unfold zrange. cbn [seq map foldM]. change (Z.of_nat 0) with 0.
  unfold assign_block at 1. destruct (Hb 0) as [B1 B2]; [lia|]. rewrite B1, B2. cbn [bind].
  assert (L : zlen (init_labels (length (m_indices A m))) = n) by (rewrite init_labels_len; exact Hm).
  destruct (vslice_total (init_labels (length (m_indices A m))) (p + 0 * q) (p + (0 + 1) * q)) as [lv [-> _]]; [nia..|].
  destruct (vslice_total curv (p + 0 * q) (p + (0 + 1) * q)) as [cv [-> _]]; [nia..|].
  unfold m_slice. destruct (vslice_total (m_indices A m) (p + 0 * q) (p + (0 + 1) * q)) as [jx [Hj _]];
    [nia|nia|change (zlen (m_indices A m)) with (m_size A m); nia|].
  rewrite Hj. cbn [bind]. apply vslice_spec in Hj. destruct Hj as [_ [_ [_ [Lj _]]]].
  unfold make_nb_xy, m_size. cbn [m_indices]. rewrite Lj.
  rewrite (proj2 (Z.ltb_lt (p + (0 + 1) * q - (p + 0 * q)) 2)) by nia. auto.
Qed.

(** what the blocks leave behind *)
Definition block_result (m : mapped A) (curv : list (D A)) (j : Z) (lv2 : list label) : Prop :=
  exists cv jx lv1, vslice curv (p + j * q) (p + (j + 1) * q) = Ok cv /\
    vslice (m_indices A m) (p + j * q) (p + (j + 1) * q) = Ok jx /\
    let c := nb_xy A {| m_cloud := m_cloud A m; m_indices := jx |} rad in
    edge_assign A srt p eth c cv (repeat Default (Z.to_nat q)) = Ok lv1 /\
    surface_assign A srt p sth c cv lv1 = Ok lv2 /\ zlen lv2 = q.

Lemma blocks_left (m : mapped A) curv N : m_size A m = n -> zlen curv = n -> (N <= Z.to_nat (ir_n r))%nat -> forall ls,
  foldM (assign_block A srt p eth sth curv m rad r) (init_labels (length (m_indices A m))) (zrange N) = Ok ls ->
  zlen ls = n /\
  (forall j, 0 <= j < Z.of_nat N -> exists lv2, block_result m curv j lv2 /\
     forall t, 0 <= t < q -> get ls (p + j * q + t) = get lv2 t) /\
  forall i, 0 <= i < n -> i < p \/ p + Z.of_nat N * q <= i -> get ls i = Some Default.
Proof.
  intros Hm Hc. induction N as [|N IH]; intros HN' ls H.
  - cbn in H. assert (E : ls = init_labels (length (m_indices A m))) by congruence. subst ls.
    rewrite init_labels_len. split; [exact Hm|]. split; [intros; lia|]. intros i Hi _. rewrite init_labels_get.
    unfold m_size, zlen in Hm. rewrite (proj2 (Z.leb_le 0 i)), (proj2 (Z.ltb_lt i _)) by lia. auto.
  - rewrite zrange_S, foldM_app in H. inv_bind H. rename v into ls0.
    cbn [foldM] in K. inv_bind K. assert (Ev : v = ls) by congruence. subst v. clear K0.
    destruct (IH ltac:(lia) ls0 E) as [L0 [G0 D0]].
    apply assign_block_inv in E0; auto.
    destruct E0 as [b [e [lv [lv1 [lv2 [cv [sm [B1 [B2 [S1 [S2 [S3 [_ [_ [R1 [R2 [L2 [L3 G]]]]]]]]]]]]]]]]]].
    destruct (Hb (Z.of_nat N)) as [C1 C2]; [lia|]. assert (b = p + Z.of_nat N * q) by congruence.
    assert (e = p + (Z.of_nat N + 1) * q) by congruence. subst b e. clear B1 B2 C1 C2.
    assert (EB : p + Z.of_nat (S N) * q = p + (Z.of_nat N + 1) * q) by lia.
    split; [lia|]. split.
    + intros j Hj. destruct (Z.eq_dec j (Z.of_nat N)) as [->|Hjn].
      * exists lv2. split.
        -- unfold m_slice in S3. inv_bind S3. rename v into jx. assert (sm = {| m_cloud := m_cloud A m; m_indices := jx |}) by congruence. subst sm.
           assert (Hlv : lv = repeat Default (Z.to_nat q)).
           { apply vslice_spec in S1. destruct S1 as [_ [_ [H3 [H4 H5]]]]. apply get_ext. intros k.
             destruct (Z_lt_le_dec k 0); [rewrite !get_none; auto; lia|].
             destruct (Z_lt_le_dec k q).
             - rewrite H5 by lia. rewrite D0 by nia. symmetry.
               unfold get. rewrite (proj2 (Z.ltb_ge k 0)) by lia. apply nth_error_repeat. lia.
             - rewrite !get_none; auto; unfold zlen in *; try rewrite repeat_length; lia. }
           subst lv. exists cv, jx, lv1. cbv zeta. split; [auto|]. split; [auto|]. split; [auto|]. split; [auto|]. lia.
        -- intros t Ht. rewrite G. rewrite (proj2 (Z.leb_le _ _)), (proj2 (Z.ltb_lt _ _)) by lia. cbn [andb]. f_equal. lia.
      * destruct (G0 j) as [lv3 [R3 G3]]; [lia|]. exists lv3. split; auto. intros t Ht. rewrite G.
        rewrite (proj2 (Z.leb_gt _ _)) by nia. cbn [andb]. auto.
    + intros i Hi Ho. rewrite G. destruct ((p + Z.of_nat N * q <=? i) && (i <? p + (Z.of_nat N + 1) * q)) eqn:Ec.
      * apply andb_true_iff in Ec. destruct Ec as [Ec1 Ec2]. apply Z.leb_le in Ec1. apply Z.ltb_lt in Ec2. exfalso. nia.
      * apply D0; auto. apply andb_false_iff in Ec. destruct Ec as [Ec|Ec]; [apply Z.leb_gt in Ec|apply Z.ltb_ge in Ec]; nia.
Qed.
End Blocks.

Section Ring.
Variable A : arith.
Variable srt : sorter.
Hypothesis Hsrt : valid_sort srt.
Variable P : params A.
Variable cloud : list (point A).
Variable ix : list Z.
Notation on jx := {| m_cloud := cloud; m_indices := jx |}.
Notation n := (zlen ix).
Notation p := (p_padding A P).
Notation N := (p_blocks A P).

Lemma m_at_rev jx i : m_at A (on (rev jx)) i = m_at A (on jx) (zlen jx - 1 - i).
Proof. unfold m_at. cbn [m_indices m_cloud]. rewrite vat_rev. auto. Qed.

Lemma range_rev jx i : range_at A (on (rev jx)) i = range_at A (on jx) (zlen jx - 1 - i).
Proof. unfold range_at. rewrite m_at_rev. auto. Qed.

Lemma nb_rev jx thr : flipped (zlen jx) (nb_xy A (on jx) thr) (nb_xy A (on (rev jx)) thr).
Proof.
  split; [reflexivity|]. split; [apply zlen_rev|]. intros i j Hi Hj. cbn [nb_xy nb]. unfold m_size. cbn [m_indices].
  rewrite zlen_rev, !m_at_rev.
  assert (Hck : forall k, 0 <= k < zlen jx -> check_index (zlen jx) k = Ok tt).
  { intros k Hk. unfold check_index. rewrite (proj2 (Z.ltb_ge k 0)), (proj2 (Z.leb_gt (zlen jx) k)) by lia. auto. }
  rewrite !Hck by lia. auto.
Qed.

Hypothesis Hp : 1 <= p.
Hypothesis HN : 1 <= N.
Hypothesis Hvalid : forall i, 0 <= i < n -> exists pt, m_at A (on ix) i = Ok pt.
Hypothesis Hsize : p + 1 <= n.
Hypothesis Hb31 : n + p + 2 < 2 ^ 31.
Hypothesis Hnb : nb_total (nb_xy A (on ix) (p_rad A P)) n.
Variable q : Z.
Hypothesis Hdiv : N <= n - 2 * p -> n = 2 * p + N * q.
Hypothesis Hblk : forall j, 0 <= j <= N -> N <= n - 2 * p ->
  boundary A {| ir_start := p; ir_end := n - p; ir_n := N |} j = Ok (p + j * q).
Hypothesis Hcurv : forall ranges, range_interval A (on ix) 0 n = Ok ranges ->
  (calc_curvature A ranges p = ThrowInvalid /\ calc_curvature A (rev ranges) p = ThrowInvalid) \/
  exists curv, calc_curvature A ranges p = Ok curv /\ calc_curvature A (rev ranges) p = Ok (rev curv) /\
    zlen curv = n /\ orderable A curv /\
    (N <= n - 2 * p -> forall i j a b, p <= i < n - p -> p <= j < n - p -> i <> j -> get curv i = Some a -> get curv j = Some b ->
      d_ltb A a b = true \/ d_ltb A b a = true).

Lemma Hvalid' i : 0 <= i < n -> exists pt, m_at A (on (rev ix)) i = Ok pt.
Proof. intros Hi. rewrite m_at_rev. apply Hvalid. lia. Qed.

Lemma ranges_rev ranges : range_interval A (on ix) 0 n = Ok ranges ->
  range_interval A (on (rev ix)) 0 n = Ok (rev ranges) /\ zlen ranges = n.
Proof.
  intros H. destruct (range_interval_total A P (on ix) Hp Hvalid Hsize) as [rs [H1 [H2 H3]]].
  unfold m_size in *. cbn [m_indices] in *. assert (rs = ranges) by congruence. subst rs.
  destruct (range_interval_total A P (on (rev ix)) Hp) as [rs [H4 [H5 H6]]]; unfold m_size; cbn [m_indices]; rewrite ?zlen_rev; auto.
  { apply Hvalid'. }
  unfold m_size in *. cbn [m_indices] in *. rewrite zlen_rev in *. rewrite H4. split; auto. f_equal.
  apply get_ext. intros k. destruct (Z_lt_le_dec k 0); [rewrite !get_none; auto; rewrite ?zlen_rev; lia|].
  destruct (Z_lt_le_dec k n); [|rewrite !get_none; auto; rewrite ?zlen_rev; lia].
  rewrite get_rev, H2. destruct (H6 k) as [a [Ga Ra]]; [lia|]. destruct (H3 (n - 1 - k)) as [b [Gb Rb]]; [lia|].
  rewrite range_rev in Ra. rewrite Ga, Gb. congruence.
Qed.

Lemma shadow_rev thr k : 0 <= k < n ->
  shadowed A (nb_xy A (on (rev ix)) (p_rad A P)) (range_at A (on (rev ix))) p thr n k <->
  shadowed A (nb_xy A (on ix) (p_rad A P)) (range_at A (on ix)) p thr n (n - 1 - k).
Proof.
  intros Hk. destruct (nb_rev ix (p_rad A P)) as [_ [_ HF]].
  assert (J : forall i j, jump A (range_at A (on (rev ix))) thr i j <-> jump A (range_at A (on ix)) thr (n - 1 - i) (n - 1 - j)).
  { intros i j. unfold jump. rewrite !range_rev. tauto. }
  unfold shadowed, run, run_left. split; intros [[i [H1 [H2 [H3 [H4 [H5 H6]]]]]]|[i [H1 [H2 [H3 [H4 [H5 H6]]]]]]]; [right|left|right|left];
    exists (n - 1 - i); (split; [lia|]); (split; [lia|]).
  - rewrite HF in H3 by lia. apply J in H4. replace (n - 1 - (i + 1)) with (n - 1 - i - 1) in * by lia.
    split; [auto|]. split; [auto|]. split; [lia|]. intros t Ht. specialize (H6 (n - 1 - t) ltac:(lia)). rewrite HF in H6 by lia.
    rewrite <- H6. f_equal; lia.
  - rewrite HF in H3 by lia. apply J in H4. replace (n - 1 - (i - 1)) with (n - 1 - i + 1) in * by lia.
    split; [auto|]. split; [auto|]. split; [lia|]. intros t Ht. specialize (H6 (n - 1 - t) ltac:(lia)). rewrite HF in H6 by lia.
    rewrite <- H6. f_equal; lia.
  - rewrite HF by lia. split; [rewrite <- H3; f_equal; lia|]. split; [apply J; replace (n - 1 - (n - 1 - i)) with i by lia; replace (n - 1 - (n - 1 - i + -1)) with (i + 1) by lia; replace (n - 1 - (n - 1 - i - 1)) with (i + 1) by lia; auto|].
    split; [lia|]. intros t Ht. rewrite HF by lia. specialize (H6 (n - 1 - t) ltac:(lia)). rewrite <- H6. f_equal; lia.
  - rewrite HF by lia. split; [rewrite <- H3; f_equal; lia|]. split; [apply J; replace (n - 1 - (n - 1 - i)) with i by lia; replace (n - 1 - (n - 1 - i + 1)) with (i - 1) by lia; auto|].
    split; [lia|]. intros t Ht. rewrite HF by lia. specialize (H6 (n - 1 - t) ltac:(lia)). rewrite <- H6. f_equal; lia.
Qed.

Lemma pb_rev ranges k : zlen ranges = n ->
  pb_at A (p_ratio A P) (rev ranges) k <-> pb_at A (p_ratio A P) ranges (n - 1 - k).
Proof.
  intros Hl. unfold pb_at. rewrite !get_rev, Hl.
  replace (n - 1 - (k - 1)) with (n - 1 - k + 1) by lia. replace (n - 1 - (k + 1)) with (n - 1 - k - 1) by lia.
  split; intros [a [b [d [H1 [H2 [H3 [H4 H5]]]]]]]; exists d, b, a; auto 10.
Qed.

Lemma label_rev_assign curv ls1 ls1' :
  let r := {| ir_start := p; ir_end := n - p; ir_n := N |} in
  N <= n - 2 * p -> 2 <= q -> zlen curv = n -> orderable A curv ->
  (forall i j a b, p <= i < n - p -> p <= j < n - p -> i <> j -> get curv i = Some a -> get curv j = Some b ->
      d_ltb A a b = true \/ d_ltb A b a = true) ->
  assign_label A srt p (p_edge A P) (p_surface A P) curv (on ix) (p_rad A P) r (init_labels (length ix)) = Ok ls1 ->
  assign_label A srt p (p_edge A P) (p_surface A P) (rev curv) (on (rev ix)) (p_rad A P) r (init_labels (length (rev ix))) = Ok ls1' ->
  ls1' = rev ls1 /\ zlen ls1 = n.
Proof.
  intros r Hfit Hq Hc Ho Hd H H'. pose proof (Hdiv Hfit) as Hdv.
  assert (HB : forall j, 0 <= j < ir_n r -> ir_begin A r j = Ok (p + j * q) /\ ir_finish A r j = Ok (p + (j + 1) * q)).
  { intros j Hj. subst r. cbn [ir_n] in Hj. unfold ir_begin, ir_finish, check_block. cbn [ir_n].
    rewrite (proj2 (Z.leb_gt N j)), (proj2 (Z.ltb_ge j 0)) by lia. cbn [bind]. split; apply Hblk; nia. }
  assert (Hn' : n = 2 * p + ir_n r * q) by exact Hdv.
  unfold assign_label in H, H'.
  apply assert_ok in H. destruct H as [_ H]. apply assert_ok in H. destruct H as [_ H].
  apply assert_ok in H'. destruct H' as [_ H']. apply assert_ok in H'. destruct H' as [_ H'].
  apply (blocks_left A srt p (p_edge A P) (p_surface A P) (p_rad A P) ltac:(lia) r n q ltac:(lia) HN Hn' HB (on ix) curv) in H; auto.
  apply (blocks_left A srt p (p_edge A P) (p_surface A P) (p_rad A P) ltac:(lia) r n q ltac:(lia) HN Hn' HB (on (rev ix)) (rev curv)) in H';
    auto; [|apply zlen_rev|rewrite zlen_rev; auto].
  destruct H as [L [G Dd]], H' as [L' [G' Dd']]. split; [|auto]. subst r. cbn [ir_n] in *.
  assert (EN : Z.of_nat (Z.to_nat N) = N) by lia. rewrite EN in *.
  apply get_ext. intros k. destruct (Z_lt_le_dec k 0); [rewrite !get_none; auto; rewrite ?zlen_rev; lia|].
  destruct (Z_lt_le_dec k n); [|rewrite !get_none; auto; rewrite ?zlen_rev; lia].
  rewrite get_rev, L.
  destruct (Z_lt_le_dec k p); [rewrite Dd, Dd' by lia; auto|].
  destruct (Z_lt_le_dec k (p + N * q)); [|rewrite Dd, Dd' by lia; auto].
  set (j := (k - p) / q). set (t := (k - p) mod q).
  assert (Ek : k = p + j * q + t) by (pose proof (Z.div_mod (k - p) q ltac:(lia)); unfold j, t; lia).
  assert (Ht : 0 <= t < q) by (apply Z.mod_pos_bound; lia).
  assert (Hj : 0 <= j < N) by (split; [apply Z.div_pos; lia|apply Z.div_lt_upper_bound; lia]).
  clearbody j t. subst k.
  destruct (G' j Hj) as [lv' [R' GG']]. destruct (G (N - 1 - j)) as [lv [R GG]]; [lia|].
  rewrite GG' by auto. replace (n - 1 - (p + j * q + t)) with (p + (N - 1 - j) * q + (q - 1 - t)) by lia.
  rewrite GG by lia.
  destruct R as [cv [jx [lv1 [S1 [S2 [E1 [E2 E3]]]]]]]. destruct R' as [cv' [jx' [lv1' [S1' [S2' [E1' [E2' E3']]]]]]].
  cbn [m_indices m_cloud] in *.
  pose proof (vslice_rev _ _ _ _ S1) as T1. pose proof (vslice_rev _ _ _ _ S2) as T2. rewrite Hc in T1.
  replace (n - (p + (N - 1 - j + 1) * q)) with (p + j * q) in T1, T2 by lia.
  replace (n - (p + (N - 1 - j) * q)) with (p + (j + 1) * q) in T1, T2 by lia.
  assert (cv' = rev cv) by congruence. assert (jx' = rev jx) by congruence. subst cv' jx'. clear T1 T2 S1' S2'.
  pose proof (vslice_spec _ _ _ _ S1) as [B1 [B2 [B3 [B4 B5]]]]. pose proof (vslice_spec _ _ _ _ S2) as [_ [_ [_ [C4 C5]]]].
  assert (Lcv : zlen cv = q) by lia. assert (Ljx : zlen jx = q) by lia.
  pose proof (nb_rev jx (p_rad A P)) as Fl. rewrite Ljx in Fl.
  assert (Tn : nb_total (nb_xy A (on jx) (p_rad A P)) q).
  { intros i i' Hi Hi' Hii.
    rewrite (nb_xy_slice A (on ix) (on jx) (p_rad A P) (p + (N - 1 - j) * q) (p + (N - 1 - j + 1) * q)).
    - apply Hnb; lia.
    - unfold m_slice. cbn [m_indices m_cloud]. rewrite S2. auto.
    - lia.
    - lia. }
  assert (Hicv : incl cv curv).
  { intros x Hx. apply In_nth_error in Hx. destruct Hx as [i Hx].
    assert (Hi : (i < length cv)%nat) by (apply nth_error_Some; congruence).
    specialize (B5 (Z.of_nat i) ltac:(unfold zlen in Lcv; lia)). unfold get in B5 at 1. rewrite (proj2 (Z.ltb_ge (Z.of_nat i) 0)), Nat2Z.id, Hx in B5 by lia.
    unfold get in B5. destruct (_ <? 0); [discriminate|]. symmetry in B5. eapply nth_error_In; eauto. }
  assert (W1 : strict_weak_order (by_value A cv) (zrange (length cv))) by (apply Ho; auto).
  assert (W2 : strict_weak_order (by_value A (rev cv)) (zrange (length cv))).
  { rewrite <- (rev_length cv). apply Ho. intros x Hx. apply Hicv, in_rev. auto. }
  assert (Ds : distinct A cv).
  { intros i i' a b Hii Ha Hb'. pose proof (get_bounds _ _ _ Ha). pose proof (get_bounds _ _ _ Hb').
    rewrite B5 in Ha, Hb' by lia. eapply Hd; [| | |exact Ha|exact Hb']; nia. }
  assert (Lr : zlen (repeat Default (Z.to_nat q)) = q) by (unfold zlen; rewrite repeat_length; lia).
  pose proof (edge_flip A srt Hsrt p ltac:(lia) _ _ q Fl Tn cv Lcv Ds W1 W2 (p_edge A P) _ _ Lr E1) as X1.
  rewrite rev_repeat in X1.
  assert (Y1 : lv1' = rev lv1) by congruence.
  assert (L1 : zlen lv1 = q) by (rewrite (edge_assign_length A srt p (p_edge A P) _ cv _ lv1 ltac:(lia) E1); auto).
  pose proof (surface_flip A srt Hsrt p ltac:(lia) _ _ q Fl Tn cv Lcv Ds W1 W2 (p_surface A P) _ _ L1 E2) as X2.
  subst lv1'. assert (Y2 : lv' = rev lv) by congruence. subst lv'. rewrite get_rev. f_equal. lia.
Qed.

Theorem ring_rev :
  (ring_labels A srt P (on ix) (nb_xy A (on ix) (p_rad A P)) = ThrowInvalid /\
   ring_labels A srt P (on (rev ix)) (nb_xy A (on (rev ix)) (p_rad A P)) = ThrowInvalid) \/
  exists ls curv,
    ring_labels A srt P (on ix) (nb_xy A (on ix) (p_rad A P)) = Ok (ls, curv) /\
    ring_labels A srt P (on (rev ix)) (nb_xy A (on (rev ix)) (p_rad A P)) = Ok (rev ls, rev curv) /\
    zlen ls = n /\ zlen curv = n.
Proof.
  destruct (range_interval_total A P (on ix) Hp Hvalid Hsize) as [ranges [H1 [H2 H3]]].
  unfold m_size in *. cbn [m_indices] in *. destruct (ranges_rev ranges H1) as [H4 _].
  unfold ring_labels. cbv zeta. unfold m_size. cbn [m_indices]. rewrite zlen_rev, H1, H4. cbn [bind].
  destruct (Hcurv ranges H1) as [[C1 C2]|[curv [C1 [C2 [Lc [Oc Dc]]]]]].
  { left. rewrite C1, C2. auto. }
  rewrite C1, C2. cbn [bind]. unfold padded_index_range, make_index_range.
  destruct (n - p - p <? N) eqn:EN; [left; auto|]. apply Z.ltb_ge in EN. cbn [bind].
  pose proof (Hdiv ltac:(lia)) as Hdv. specialize (Dc ltac:(lia)).
  set (r := {| ir_start := p; ir_end := n - p; ir_n := N |}) in *.
  assert (HB : forall j, 0 <= j < ir_n r -> ir_begin A r j = Ok (p + j * q) /\ ir_finish A r j = Ok (p + (j + 1) * q)).
  { intros j Hj. subst r. cbn [ir_n] in Hj. unfold ir_begin, ir_finish, check_block. cbn [ir_n].
    rewrite (proj2 (Z.leb_gt N j)), (proj2 (Z.ltb_ge j 0)) by lia. cbn [bind]. split; apply Hblk; nia. }
  assert (Hn' : n = 2 * p + ir_n r * q) by exact Hdv.
  assert (Hq1 : 1 <= q) by nia.
  destruct (Z.eq_dec q 1) as [Q1|Q1].
  { left. split.
    - pose proof (one_point_blocks A srt p (p_edge A P) (p_surface A P) (p_rad A P) ltac:(lia) r n q Hq1 HN Hn' HB (on ix) curv Q1 eq_refl Lc) as X.
      cbn [m_indices] in X. rewrite X. auto.
    - pose proof (one_point_blocks A srt p (p_edge A P) (p_surface A P) (p_rad A P) ltac:(lia) r n q Hq1 HN Hn' HB (on (rev ix)) (rev curv) Q1
        (zlen_rev ix) (eq_trans (zlen_rev curv) Lc)) as X. cbn [m_indices] in X. rewrite X. auto. }
  right.
  assert (Hnb' : nb_total (nb_xy A (on (rev ix)) (p_rad A P)) n) by (eapply total_flip; [apply nb_rev|auto]).
  assert (SB : forall j, 0 <= j < N -> ir_begin A r j = Ok (p + j * q) /\ ir_finish A r j = Ok (p + (j + 1) * q) /\
     0 <= p + j * q /\ p + j * q <= p + (j + 1) * q /\ p + (j + 1) * q <= n).
  { intros j Hj. destruct (HB j Hj) as [X1 X2]. split; [auto|]. split; [auto|]. nia. }
  assert (Hv0 : forall i, 0 <= i < m_size A (on ix) -> exists pt, m_at A (on ix) i = Ok pt) by exact Hvalid.
  assert (Hv1 : forall i, 0 <= i < m_size A (on (rev ix)) -> exists pt, m_at A (on (rev ix)) i = Ok pt).
  { unfold m_size. cbn [m_indices]. rewrite zlen_rev. exact Hvalid'. }
  assert (S1 : exists ls1, assign_label A srt p (p_edge A P) (p_surface A P) curv (on ix) (p_rad A P) r (init_labels (length ix)) = Ok ls1).
  { destruct (soft_assign_label A srt Hsrt P (on ix) Hp Hv0 false curv r (fun j => p + j * q) N Lc Oc eq_refl ltac:(lia)) as [[X _]|[ls1 [X _]]];
      [intros j Hj; apply SB; auto|intros _; split; [exact Hnb|intros; nia]|discriminate|].
    exists ls1. exact X. }
  assert (Oc' : orderable A (rev curv)).
  { intros l Hl. apply Oc. intros x Hx. apply in_rev. auto. }
  assert (S2 : exists ls1, assign_label A srt p (p_edge A P) (p_surface A P) (rev curv) (on (rev ix)) (p_rad A P) r (init_labels (length (rev ix))) = Ok ls1).
  { assert (Lc' : zlen (rev curv) = m_size A (on (rev ix))) by (unfold m_size; cbn [m_indices]; rewrite !zlen_rev; exact Lc).
    assert (K1 : forall j, 0 <= j < N -> ir_begin A r j = Ok (p + j * q) /\ ir_finish A r j = Ok (p + (j + 1) * q) /\
      0 <= p + j * q /\ p + j * q <= p + (j + 1) * q /\ p + (j + 1) * q <= m_size A (on (rev ix))).
    { unfold m_size. cbn [m_indices]. rewrite zlen_rev. exact SB. }
    assert (K2 : false = false -> nb_total (nb_xy A (on (rev ix)) (p_rad A P)) (m_size A (on (rev ix))) /\
      forall j, 0 <= j < N -> p + j * q + 2 <= p + (j + 1) * q).
    { intros _. unfold m_size. cbn [m_indices]. rewrite zlen_rev. split; [exact Hnb'|intros; nia]. }
    destruct (soft_assign_label A srt Hsrt P (on (rev ix)) Hp Hv1 false (rev curv) r (fun j => p + j * q) N Lc' Oc' eq_refl ltac:(lia) K1 K2)
      as [[X _]|[ls1 [X _]]]; [discriminate|]. exists ls1. exact X. }
  destruct S1 as [ls1 S1], S2 as [ls1' S2].
  destruct (label_rev_assign curv ls1 ls1') as [E1 L1]; auto; try lia. subst ls1'.
  rewrite S1, S2. cbn [bind].
  assert (Hrng : forall i, 0 <= i < n -> exists x, range_at A (on ix) i = Ok x).
  { intros i Hi. destruct (H3 i Hi) as [x [_ X]]. eauto. }
  assert (Hrng' : forall i, 0 <= i < n -> exists x, range_at A (on (rev ix)) i = Ok x).
  { intros i Hi. rewrite range_rev. apply Hrng. lia. }
  (* occlusion *)
  destruct (label_occluded_total A (nb_xy A (on ix) (p_rad A P)) (range_at A (on ix)) p (p_distance A P) ltac:(lia) ls1) as [ls2 [O1 L2]];
    rewrite ?L1; auto; try lia.
  destruct (label_occluded_total A (nb_xy A (on (rev ix)) (p_rad A P)) (range_at A (on (rev ix))) p (p_distance A P) ltac:(lia) (rev ls1)) as [ls2' [O2 L2']];
    rewrite ?zlen_rev, ?L1; auto; try lia.
  { apply zlen_rev. }
  assert (E2 : ls2' = rev ls2).
  { apply label_occluded_spec in O1; rewrite ?L1; auto; try lia. apply label_occluded_spec in O2; rewrite ?zlen_rev, ?L1; auto; try lia.
    destruct O1 as [_ [M1 U1]], O2 as [_ [M2 U2]]. rewrite zlen_rev, L1 in *. apply get_ext. intros k.
    destruct (Z_lt_le_dec k 0); [rewrite !get_none; auto; rewrite ?zlen_rev; lia|].
    destruct (Z_lt_le_dec k n); [|rewrite !get_none; auto; rewrite ?zlen_rev; lia].
    rewrite get_rev, L2.
    destruct (classic (shadowed A (nb_xy A (on ix) (p_rad A P)) (range_at A (on ix)) p (p_distance A P) n (n - 1 - k))) as [Hs|Hs].
    - rewrite (M1 _ Hs). apply M2. apply shadow_rev; auto.
    - rewrite (U1 _ Hs). rewrite U2; [rewrite get_rev, L1; auto|]. intros Hs'. apply Hs. apply shadow_rev in Hs'; auto. }
  rewrite O1, O2. cbn [bind]. subst ls2'. rewrite L1 in L2.
  (* out of range *)
  destruct (label_oor_total A (range_at A (on ix)) (p_min A P) (p_max A P) n ls2) as [ls3 [R1 L3]]; auto.
  destruct (label_oor_total A (range_at A (on (rev ix))) (p_min A P) (p_max A P) n (rev ls2)) as [ls3' [R2 L3']]; rewrite ?zlen_rev; auto.
  assert (E3 : ls3' = rev ls3).
  { apply label_oor_spec in R1. apply label_oor_spec in R2. destruct R1 as [_ [M1 U1]], R2 as [_ [M2 U2]].
    rewrite zlen_rev, L2 in *. apply get_ext. intros k.
    destruct (Z_lt_le_dec k 0); [rewrite !get_none; auto; rewrite ?zlen_rev; lia|].
    destruct (Z_lt_le_dec k n); [|rewrite !get_none; auto; rewrite ?zlen_rev; lia].
    rewrite get_rev, L3.
    assert (EB : bad_range A (range_at A (on (rev ix))) (p_min A P) (p_max A P) k <-> bad_range A (range_at A (on ix)) (p_min A P) (p_max A P) (n - 1 - k)).
    { unfold bad_range. rewrite range_rev. tauto. }
    destruct (classic (bad_range A (range_at A (on ix)) (p_min A P) (p_max A P) (n - 1 - k))) as [Hs|Hs].
    - rewrite M1, M2 by (auto; try tauto; lia). auto.
    - rewrite U1, U2 by tauto. rewrite get_rev, L2. auto. }
  rewrite R1, R2. cbn [bind]. subst ls3'. rewrite L2 in L3.
  (* parallel beams *)
  assert (B63 : 1 <= n < 2 ^ 63) by (assert (2 ^ 31 < 2 ^ 63) by reflexivity; lia).
  destruct (label_pb_total A (p_ratio A P) (on ix) ls3) as [ls4 [P1 L4]]; rewrite ?L3; auto.
  destruct (label_pb_total A (p_ratio A P) (on (rev ix)) (rev ls3)) as [ls4' [P2 L4']]; rewrite ?zlen_rev, ?L3; auto.
  assert (E4 : ls4' = rev ls4).
  { apply label_pb_spec in P1; [|rewrite L3; auto]. apply label_pb_spec in P2; [|rewrite zlen_rev, L3; auto].
    destruct P1 as [rg [G1 [_ [M1 U1]]]], P2 as [rg' [G2 [_ [M2 U2]]]]. rewrite zlen_rev, L3 in *.
    assert (rg = ranges) by congruence. assert (rg' = rev ranges) by congruence. subst rg rg'. apply get_ext. intros k.
    destruct (Z_lt_le_dec k 0); [rewrite !get_none; auto; rewrite ?zlen_rev; lia|].
    destruct (Z_lt_le_dec k n); [|rewrite !get_none; auto; rewrite ?zlen_rev; lia].
    rewrite get_rev, L4.
    destruct (classic (1 <= k < n - 1 /\ pb_at A (p_ratio A P) ranges (n - 1 - k))) as [[Hk Hs]|Hs].
    - rewrite M1 by (auto; lia). apply M2; auto. apply pb_rev; auto.
    - rewrite U1 by (intros [X1 X2]; apply Hs; split; [lia|auto]).
      rewrite U2 by (intros [X1 X2]; apply Hs; split; [lia|apply pb_rev; auto]). rewrite get_rev, L3. auto. }
  rewrite P1, P2. cbn [bind]. subst ls4'. exists ls4, curv. split; [auto|]. split; [auto|]. split; [lia|auto].
Qed.
End Ring.
