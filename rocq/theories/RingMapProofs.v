(** Proofs about MakePointIndices, SortEachRingByAngle and RemoveSparseRings
    (x/ring.hpp:101-147, extraction/src/ring.cpp:46-59). *)
From Coq Require Import List ZArith Bool Lia Permutation Sorting.Sorted.
From Verif Require Import Base Arith ExtractModel Spec FillProofs LabelProofs OcclusionProofs
  NeighborProofs.
Import ListNotations.
Open Scope Z_scope.

Lemma ring_push_keys rings key i :
  map fst (ring_push rings key i) =
  if existsb (fun r => fst r =? key) rings then map fst rings else map fst rings ++ [key].
Proof.
  induction rings as [|[k ix] t IH]; simpl; auto.
  destruct (k =? key) eqn:E; simpl; auto.
  rewrite IH. destruct (existsb _ t); auto.
Qed.

Lemma existsb_key rings key : existsb (fun r : Z * list Z => fst r =? key) rings = true <->
  In key (map fst rings).
Proof.
  rewrite existsb_exists, in_map_iff. split.
  - intros [x [Hx He]]. apply Z.eqb_eq in He. eauto.
  - intros [x [He Hx]]. exists x. split; auto. apply Z.eqb_eq. auto.
Qed.

Lemma ring_push_NoDup rings key i :
  NoDup (map fst rings) -> NoDup (map fst (ring_push rings key i)).
Proof.
  intros H. rewrite ring_push_keys. destruct (existsb _ rings) eqn:E; auto.
  assert (Hn : ~ In key (map fst rings)).
  { intros Hi. apply existsb_key in Hi. congruence. }
  apply (Permutation_NoDup (l := key :: map fst rings)).
  - apply Permutation_cons_append.
  - constructor; auto.
Qed.

Lemma ring_push_In rings key i k ix' :
  NoDup (map fst rings) ->
  (In (k, ix') (ring_push rings key i) <->
   (k <> key /\ In (k, ix') rings) \/
   (k = key /\ ((exists ix, In (key, ix) rings /\ ix' = ix ++ [i]) \/
                (~ In key (map fst rings) /\ ix' = [i])))).
Proof.
  induction rings as [|[k0 ix0] t IH]; intros Hnd; simpl.
  - split.
    + intros [H|[]]. inversion H; subst. right. split; auto.
    + intros [[_ []]|[-> [[ix [[] _]]|[_ ->]]]]. auto.
  - inversion Hnd as [|? ? Hni Hnd']; subst. destruct (k0 =? key) eqn:E.
    + apply Z.eqb_eq in E. subst k0. simpl. split.
      * intros [H|H].
        -- inversion H; subst. right. split; auto. left. exists ix0. auto.
        -- left. split; auto. intros ->. apply Hni. apply in_map_iff. exists (key, ix'). auto.
      * intros [[Hn [H|H]]|[-> [[ix [[H|H] ->]]|[Hn _]]]].
        -- inversion H; subst. congruence.
        -- auto.
        -- inversion H; subst. auto.
        -- exfalso. apply Hni. apply in_map_iff. exists (key, ix). auto.
        -- exfalso. apply Hn. auto.
    + apply Z.eqb_neq in E. simpl. rewrite IH by auto. split.
      * intros [H|[[Hn H]|[-> [[ix [H ->]]|[Hn ->]]]]].
        -- inversion H; subst. left. auto.
        -- left. auto.
        -- right. split; auto. left. exists ix. auto.
        -- right. split; auto. right. split; auto. intros [H|H]; auto.
      * intros [[Hn [H|H]]|[-> [[ix [[H|H] ->]]|[Hn ->]]]].
        -- auto.
        -- auto.
        -- inversion H; subst. congruence.
        -- right. right. split; auto. left. eauto.
        -- right. right. split; auto. right. split; auto.
Qed.

Section RM.
Variable A : arith.

Definition push_all (l : list (Z * point A)) : list (Z * list Z) :=
  fold_left (fun rings ip => ring_push rings (pring A (snd ip)) (fst ip)) l [].

Definition with_ring (l : list (Z * point A)) (k : Z) : list Z :=
  map fst (filter (fun ip => pring A (snd ip) =? k) l).

Lemma push_all_spec l :
  NoDup (map fst (push_all l)) /\
  forall k ix, In (k, ix) (push_all l) <-> ix <> [] /\ ix = with_ring l k.
Proof.
  induction l as [|[i pt] l IH] using rev_ind.
  - simpl. split; [constructor|]. intros k ix. split; [intros []|intros [H1 H2]; auto].
  - unfold push_all. rewrite fold_left_app. fold (push_all l). cbn [fold_left fst snd].
    destruct IH as [I1 I2]. split; [apply ring_push_NoDup; auto|].
    intros k ix. rewrite ring_push_In by auto.
    assert (Hw : with_ring (l ++ [(i, pt)]) k =
                 with_ring l k ++ (if pring A pt =? k then [i] else [])).
    { unfold with_ring. rewrite filter_app, map_app. simpl. destruct (pring A pt =? k); auto. }
    rewrite Hw.
    assert (Hkey : In (pring A pt) (map fst (push_all l)) <-> with_ring l (pring A pt) <> []).
    { rewrite in_map_iff. split.
      - intros [[k0 ix0] [H1 H2]]. simpl in H1. subst. apply I2 in H2. destruct H2 as [H2 H3].
        congruence.
      - intros H. exists (pring A pt, with_ring l (pring A pt)). split; auto. apply I2. auto. }
    split.
    + intros [[Hn H]|[-> [[ix0 [H ->]]|[Hn ->]]]].
      * destruct (pring A pt =? k) eqn:E; [apply Z.eqb_eq in E; congruence|].
        rewrite app_nil_r. apply I2. auto.
      * rewrite Z.eqb_refl. apply I2 in H. destruct H as [H1 ->]. split; auto.
        intros Hx. apply app_eq_nil in Hx. destruct Hx. discriminate.
      * rewrite Z.eqb_refl. split; [discriminate|].
        rewrite Hkey in Hn. destruct (with_ring l (pring A pt)); auto. exfalso. apply Hn. discriminate.
    + intros [H1 H2]. destruct (pring A pt =? k) eqn:E.
      * apply Z.eqb_eq in E. subst k. right. split; auto.
        destruct (with_ring l (pring A pt)) eqn:Ew.
        -- right. split; auto. rewrite Hkey. auto.
        -- left. exists (with_ring l (pring A pt)). split; [|congruence].
           apply I2. split; auto. congruence.
      * apply Z.eqb_neq in E. rewrite app_nil_r in H2. left. split; auto. apply I2. auto.
Qed.

Lemma in_enumerate {T} (l : list T) i x :
  In (i, x) (combine (zrange (length l)) l) <-> get l i = Some x.
Proof.
  unfold zrange, get.
  assert (G : forall (l : list T) s, In (i, x) (combine (map Z.of_nat (seq s (length l))) l) <->
    (Z.of_nat s <= i /\ nth_error l (Z.to_nat i - s) = Some x)).
  { clear l. induction l as [|y l IH]; intros s; simpl.
    - split; [intros []|]. intros [_ H]. destruct (Z.to_nat i - s)%nat; discriminate.
    - rewrite IH. split.
      + intros [H|[H1 H2]].
        * inversion H; subst. split; [lia|]. rewrite Nat2Z.id, Nat.sub_diag. auto.
        * split; [lia|]. replace (Z.to_nat i - s)%nat with (S (Z.to_nat i - S s)) by lia. auto.
      + intros [H1 H2]. destruct (Z.eq_dec i (Z.of_nat s)) as [->|Hn].
        * left. rewrite Nat2Z.id, Nat.sub_diag in H2. simpl in H2. congruence.
        * right. split; [lia|]. replace (Z.to_nat i - s)%nat with (S (Z.to_nat i - S s)) in H2 by lia.
          auto. }
  rewrite G. rewrite Nat.sub_0_r. destruct (i <? 0) eqn:E.
  - apply Z.ltb_lt in E. split; [intros [H _]; simpl in H; lia|discriminate].
  - apply Z.ltb_ge in E. split; [tauto|]. intros H. split; auto.
Qed.

Lemma map_fst_enumerate {T} (l : list T) : map fst (combine (zrange (length l)) l) = zrange (length l).
Proof.
  unfold zrange. generalize 0%nat as s. induction l as [|x l IH]; intros s; simpl; auto.
  rewrite IH. auto.
Qed.

Lemma zrange_NoDup n : NoDup (zrange n).
Proof. unfold zrange. apply FinFun.Injective_map_NoDup; [intros a b; lia|apply seq_NoDup]. Qed.

Lemma NoDup_map_filter {X Y} (f : X -> Y) g l : NoDup (map f l) -> NoDup (map f (filter g l)).
Proof.
  induction l as [|x l IH]; simpl; auto. intros H. inversion H; subst.
  destruct (g x); simpl; auto. constructor; auto.
  intros Hi. apply H2. apply in_map_iff in Hi. destruct Hi as [y [Hy Hi]].
  apply filter_In in Hi. apply in_map_iff. exists y. tauto.
Qed.

Lemma make_point_indices_spec cloud :
  NoDup (map fst (make_point_indices A cloud)) /\
  (forall i p, get cloud i = Some p -> exists ix, In (pring A p, ix) (make_point_indices A cloud)) /\
  forall k ix, In (k, ix) (make_point_indices A cloud) ->
    ix <> [] /\ NoDup ix /\ StronglySorted Z.lt ix /\
    forall i, In i ix <-> exists p, get cloud i = Some p /\ pring A p = k.
Proof.
  unfold make_point_indices. fold (push_all (combine (zrange (length cloud)) cloud)).
  destruct (push_all_spec (combine (zrange (length cloud)) cloud)) as [H1 H2].
  assert (Hin : forall k i, In i (with_ring (combine (zrange (length cloud)) cloud) k) <->
     exists p, get cloud i = Some p /\ pring A p = k).
  { intros k i. unfold with_ring. rewrite in_map_iff. split.
    - intros [[i' p] [Hi Hf]]. simpl in Hi. subst. apply filter_In in Hf. destruct Hf as [Hf Hk].
      apply in_enumerate in Hf. exists p. split; auto. apply Z.eqb_eq. auto.
    - intros [p [Hg Hk]]. exists (i, p). split; auto. apply filter_In. split.
      + apply in_enumerate. auto.
      + apply Z.eqb_eq. auto. }
  split; auto. split.
  - intros i p Hg. exists (with_ring (combine (zrange (length cloud)) cloud) (pring A p)).
    apply H2. split; auto. intros He.
    assert (Hi : In i (with_ring (combine (zrange (length cloud)) cloud) (pring A p)))
      by (apply Hin; eauto).
    rewrite He in Hi. destruct Hi.
  - intros k ix Hi. apply H2 in Hi. destruct Hi as [Hne ->]. split; auto.
    assert (Hnd : NoDup (with_ring (combine (zrange (length cloud)) cloud) k)).
    { apply NoDup_map_filter. rewrite map_fst_enumerate. apply zrange_NoDup. }
    split; auto. split; [|intros; apply Hin].
    unfold with_ring.
    assert (Hs : StronglySorted Z.lt (map fst (combine (zrange (length cloud)) cloud))).
    { rewrite map_fst_enumerate. clear. unfold zrange. generalize 0%nat as s.
      induction (length cloud) as [|n IH]; intros s; simpl; constructor; auto.
      apply Forall_forall. intros x Hx. apply in_map_iff in Hx. destruct Hx as [y [<- Hy]].
      apply in_seq in Hy. lia. }
    revert Hs. generalize (combine (zrange (length cloud)) cloud) as l.
    induction l as [|[a b] l IH]; simpl; intros Hs; [constructor|].
    inversion Hs as [|? ? Hs' Hf]; subst. destruct (pring A b =? k); simpl; auto.
    constructor; auto. apply Forall_forall. intros x Hx. apply in_map_iff in Hx.
    destruct Hx as [y [<- Hy]]. apply filter_In in Hy. rewrite Forall_forall in Hf. apply Hf.
    apply in_map. tauto.
Qed.

Lemma sort_each_ring_spec srt cloud rings rings' :
  valid_sort srt -> sort_each_ring A srt cloud rings = Ok rings' ->
  map fst rings' = map fst rings /\
  Forall2 (fun r r' => fst r = fst r' /\ Permutation (snd r) (snd r') /\
     strict_weak_order (polar_less_ix A cloud) (snd r) /\
     StronglySorted (fun a b => polar_less_ix A cloud b a = false) (snd r')) rings rings'.
Proof.
  intros Hv. unfold sort_each_ring. revert rings'. induction rings as [|[k ix] t IH]; intros rings' H.
  - inversion H; subst. split; auto.
  - cbn [mapM fst snd] in H. apply bind_ok in H. destruct H as [y [Hy H]].
    apply bind_ok in H. destruct H as [ys [Hys H]]. inversion H; subst; clear H.
    apply bind_ok in Hy. destruct Hy as [ix' [Hs Hy]]. inversion Hy; subst; clear Hy.
    destruct (IH ys Hys) as [I1 I2]. simpl. split; [congruence|].
    constructor; auto. simpl.
    unfold sort_by_atan2, std_sort in Hs. destruct (swo_on _ ix) eqn:E; [|discriminate].
    inversion Hs; subst; clear Hs. apply swo_on_spec in E. destruct (Hv _ _ E) as [V1 V2]. auto.
Qed.

Lemma Forall2_In_r {X Y} (R : X -> Y -> Prop) l l' y :
  Forall2 R l l' -> In y l' -> exists x, In x l /\ R x y.
Proof.
  intros H. induction H; intros Hi; [destruct Hi|]. destruct Hi as [->|Hi].
  - exists x. simpl. auto.
  - destruct (IHForall2 Hi) as [x' [H1 H2]]. exists x'. simpl. auto.
Qed.

Lemma Forall2_In_l {X Y} (R : X -> Y -> Prop) l l' x :
  Forall2 R l l' -> In x l -> exists y, In y l' /\ R x y.
Proof.
  intros H. induction H; intros Hi; [destruct Hi|]. destruct Hi as [->|Hi].
  - exists y. simpl. auto.
  - destruct (IHForall2 Hi) as [y' [H1 H2]]. exists y'. simpl. auto.
Qed.

Lemma extract_rings_spec srt cloud rings :
  valid_sort srt -> extract_rings A srt cloud = Ok rings ->
  NoDup (map fst rings) /\
  (forall i p, get cloud i = Some p -> exists ix, In (pring A p, ix) rings) /\
  forall k ix, In (k, ix) rings ->
    ix <> [] /\ NoDup ix /\
    (forall i, In i ix <-> exists p, get cloud i = Some p /\ pring A p = k) /\
    strict_weak_order (polar_less_ix A cloud) ix /\
    StronglySorted (fun a b => polar_less_ix A cloud b a = false) ix.
Proof.
  intros Hv H. unfold extract_rings in H. apply sort_each_ring_spec in H; auto.
  destruct H as [Hk HF]. destruct (make_point_indices_spec cloud) as [M1 [M2 M3]].
  split; [rewrite Hk; auto|]. split.
  - intros i p Hg. destruct (M2 i p Hg) as [ix Hix].
    destruct (Forall2_In_l _ _ _ _ HF Hix) as [[k ix'] [H1 [H2 _]]]. simpl in H2. subst. eauto.
  - intros k ix Hi. destruct (Forall2_In_r _ _ _ _ HF Hi) as [[k' ix'] [H1 [H2 [H3 [H4 H5]]]]].
    simpl in *. subst k'. destruct (M3 _ _ H1) as [N1 [N2 [_ N4]]].
    split.
    { intros ->. apply Permutation_sym, Permutation_nil in H3. auto. }
    split; [eapply Permutation_NoDup; eauto|]. split.
    { intros i. rewrite <- N4. split; apply Permutation_in; auto. apply Permutation_sym; auto. }
    split; auto.
    destruct H4 as [S1 [S2 S3]].
    assert (HP : forall x, In x ix -> In x ix') by (intros x; apply Permutation_in, Permutation_sym; auto).
    split; [|split]; intros; eauto 8.
Qed.

(** the concatenation of all rings has no duplicates *)
Lemma rings_concat_NoDup cloud (rings : list (Z * list Z)) :
  NoDup (map fst rings) ->
  (forall k ix, In (k, ix) rings -> NoDup ix /\
    (forall i, In i ix -> exists p, get cloud i = Some p /\ pring A p = k)) ->
  NoDup (concat (map snd rings)).
Proof.
  induction rings as [|[k ix] t IH]; simpl; intros Hk H; [constructor|].
  inversion Hk as [|? ? Hni Hnd]; subst.
  destruct (H k ix) as [H1 H2]; [auto|].
  assert (IHt : NoDup (concat (map snd t))) by (apply IH; auto).
  assert (Hdis : forall x, In x ix -> ~ In x (concat (map snd t))).
  { intros x Hx Hc. apply in_concat in Hc. destruct Hc as [l [Hl Hxl]].
    apply in_map_iff in Hl. destruct Hl as [[k' ix'] [<- Hr]]. simpl in Hxl.
    destruct (H2 x Hx) as [p [P1 P2]]. destruct (H k' ix') as [_ H4]; [auto|].
    destruct (H4 x Hxl) as [p' [P1' P2']]. apply Hni. apply in_map_iff. exists (k', ix').
    split; auto. simpl. congruence. }
  clear - H1 IHt Hdis. induction ix as [|x ix IH]; simpl; auto.
  inversion H1; subst. constructor.
  - intros Hx. apply in_app_or in Hx. destruct Hx; auto. apply (Hdis x); simpl; auto.
  - apply IH; auto. intros y Hy. apply Hdis. simpl. auto.
Qed.

End RM.

Lemma remove_sparse_spec rings n r :
  In r (remove_sparse_rings rings n) <-> In r rings /\ n <= zlen (snd r).
Proof.
  unfold remove_sparse_rings. rewrite filter_In.
  destruct (zlen (snd r) <? n) eqn:E; simpl.
  - apply Z.ltb_lt in E. split; [intros []; discriminate|lia].
  - apply Z.ltb_ge in E. tauto.
Qed.
