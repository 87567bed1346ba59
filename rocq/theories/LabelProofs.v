(** Proofs about EdgeLabel::Assign and SurfaceLabel::Assign (x/label.hpp). *)
From Coq Require Import List ZArith Bool Lia Permutation Sorting.Sorted.
From Verif Require Import Base Arith ExtractModel Spec FillProofs.
Import ListNotations.
Open Scope Z_scope.

Lemma label_eqb_eq a b : label_eqb a b = true <-> a = b.
Proof. destruct a, b; simpl; split; intros H; auto; discriminate. Qed.

Lemma combine_maps {A B C} (f : A -> B) (g : A -> C) l :
  combine (map f l) (map g l) = map (fun x => (f x, g x)) l.
Proof. induction l; simpl; congruence. Qed.
Lemma forallb_maps {A B} (p : B -> bool) (g : A -> B) l :
  forallb p (map g l) = forallb (fun x => p (g x)) l.
Proof. induction l; simpl; congruence. Qed.
Lemma forallb_ext' {A} (p q : A -> bool) l : (forall x, p x = q x) -> forallb p l = forallb q l.
Proof. intros H. induction l; simpl; congruence. Qed.
Lemma forallb_both {A} (p q : A -> bool) l : forallb p l && forallb q l = forallb (fun x => p x && q x) l.
Proof.
  induction l as [|a l IH]; simpl; auto. rewrite <- IH.
  destruct (p a), (q a), (forallb p l), (forallb q l); auto.
Qed.

(** [swo_on] without the table *)
Lemma swo_on_plain {A} (cmp : A -> A -> bool) l : swo_on cmp l =
  forallb (fun a =>
    negb (cmp a a) &&
    forallb (fun b =>
      forallb (fun c =>
        (negb (cmp a b && cmp b c) || cmp a c) &&
        (negb (negb (cmp a b) && negb (cmp b a) && negb (cmp b c) && negb (cmp c b))
         || (negb (cmp a c) && negb (cmp c a)))) l) l) l.
Proof.
  unfold swo_on. rewrite forallb_maps, forallb_both. apply forallb_ext'. intros a.
  f_equal. rewrite combine_maps, forallb_maps. apply forallb_ext'. intros b.
  rewrite combine_maps, forallb_maps. apply forallb_ext'. intros c. reflexivity.
Qed.

Lemma swo_on_spec {A} (lt : A -> A -> bool) l : swo_on lt l = true <-> strict_weak_order lt l.
Proof.
  rewrite swo_on_plain. unfold strict_weak_order. rewrite forallb_forall. split.
  - intros H. repeat split.
    + intros a Ha. specialize (H a Ha). apply andb_true_iff in H. destruct H as [H _].
      now apply negb_true_iff in H.
    + intros a b c Ha Hb Hc H1 H2. specialize (H a Ha). apply andb_true_iff in H.
      destruct H as [_ H]. rewrite forallb_forall in H. specialize (H b Hb).
      rewrite forallb_forall in H. specialize (H c Hc). rewrite H1, H2 in H. simpl in H.
      apply andb_true_iff in H. tauto.
    + specialize (H a H0). apply andb_true_iff in H.
      destruct H as [_ H]. rewrite forallb_forall in H. specialize (H b H1).
      rewrite forallb_forall in H. specialize (H c H2). rewrite H3, H4, H5, H6 in H. simpl in H.
      apply andb_true_iff in H. destruct H as [H _]. now apply negb_true_iff in H.
    + specialize (H a H0). apply andb_true_iff in H.
      destruct H as [_ H]. rewrite forallb_forall in H. specialize (H b H1).
      rewrite forallb_forall in H. specialize (H c H2). rewrite H3, H4, H5, H6 in H. simpl in H.
      apply andb_true_iff in H. destruct H as [_ H]. now apply negb_true_iff in H.
  - intros [H1 [H2 H3]] a Ha. apply andb_true_iff. split; [apply negb_true_iff; auto|].
    apply forallb_forall. intros b Hb. apply forallb_forall. intros c Hc.
    apply andb_true_iff. split.
    + destruct (lt a b) eqn:E1, (lt b c) eqn:E2; simpl; auto. eauto.
    + destruct (lt a b) eqn:E1, (lt b a) eqn:E2, (lt b c) eqn:E3, (lt c b) eqn:E4; simpl; auto.
      destruct (H3 a b c) as [-> ->]; auto.
Qed.

Lemma std_sort_ok srt cmp l l' :
  std_sort srt cmp l = Ok l' -> strict_weak_order cmp l /\ l' = srt cmp l.
Proof.
  unfold std_sort. destruct (swo_on cmp l) eqn:E; [|discriminate].
  intros H; inversion H; subst. apply swo_on_spec in E. auto.
Qed.

Section Loop.
Variable A : arith.
Variable c : nbcheck.
Variable p : Z.
Variable ok : D A -> bool.
Variables nlab lab : label.
Variable curv : list (D A).
Hypothesis Hp : 0 <= p.
Hypothesis Hnl : nlab <> Default.
Hypothesis Hll : lab <> Default.
Hypothesis Hne : nlab <> lab.

Notation step := (label_step A c p ok nlab lab curv).

(** effect of one loop iteration *)
Lemma label_step_spec ls i ls' :
  step ls i = Ok ls' ->
  zlen ls' = zlen ls /\ 0 <= i < zlen ls /\
  ((ls' = ls /\ ~ (get ls i = Some Default /\ exists v, get curv i = Some v /\ ok v = true)) \/
   (get ls i = Some Default /\ (exists v, get curv i = Some v /\ ok v = true) /\
    get ls' i = Some lab /\
    (forall k, k <> i -> near c p i k -> 0 <= k < zlen ls -> get ls' k = Some nlab) /\
    (forall k, k <> i -> ~ near c p i k -> get ls' k = get ls k))).
Proof.
  intros H. unfold label_step in H. inv_bind H. apply vat_get in E.
  pose proof (get_bounds _ _ _ E) as Hi.
  destruct (label_eqb v Default) eqn:El.
  2: { inversion K; subst. split; auto. split; auto. left. split; auto. intros [Hd _].
       rewrite Hd in E; inversion E; subst; discriminate. }
  apply label_eqb_eq in El; subst v.
  inv_bind K. apply vat_get in E0. destruct (ok v) eqn:Eo.
  2: { inversion K0; subst. split; auto. split; auto. left. split; auto.
       intros [_ [w [Hw Hw2]]]. congruence. }
  inv_bind K0. apply fill_neighbors_spec in E1; auto. destruct E1 as [Hl [Hf1 Hf2]].
  apply vset_spec in K. destruct K as [_ [Hl2 Hg]].
  split; [lia|]. split; [auto|]. right. split; auto. split; [eauto|].
  split; [rewrite Hg, Z.eqb_refl; auto|].
  split; intros k Hk; rewrite Hg; destruct (k =? i) eqn:E1; try (apply Z.eqb_eq in E1; lia); auto.
Qed.

(** a property preserved by every iteration is preserved by the loop *)
Lemma foldM_inv {S X} (f : S -> X -> outcome S) (I : S -> Prop) :
  (forall s x s', I s -> f s x = Ok s' -> I s') ->
  forall l s s', I s -> foldM f s l = Ok s' -> I s'.
Proof.
  intros Hf l; induction l as [|x l IH]; intros s s' Hs H; cbn [foldM] in H.
  - inversion H; subst; auto.
  - inv_bind H. eauto.
Qed.

Ltac use_inv H I :=
  match type of H with foldM ?f ?s ?l = Ok ?s' =>
    let HI := fresh "HI" in
    assert (HI : I s'); [refine (foldM_inv f I _ l s s' _ H) | ]; cbv beta in * |- end.

Lemma label_loop_length order ls ls' : foldM step ls order = Ok ls' -> zlen ls' = zlen ls.
Proof.
  intros H. use_inv H (fun l : list label => zlen l = zlen ls); auto.
  intros s x s' Hs Hx. apply label_step_spec in Hx. lia.
Qed.

(** C02: labels come only from qualifying Default points *)
Lemma label_loop_sound order ls ls' :
  foldM step ls order = Ok ls' ->
  forall i, get ls' i = Some lab ->
    get ls i = Some lab \/
    (get ls i = Some Default /\ exists v, get curv i = Some v /\ ok v = true).
Proof.
  intros H.
  use_inv H (fun l => forall i,
     (get l i = Some lab -> get ls i = Some lab \/
        (get ls i = Some Default /\ exists v, get curv i = Some v /\ ok v = true)) /\
     (get l i = Some Default -> get ls i = Some Default)).
  - intros s x s' Hs Hx i. apply label_step_spec in Hx.
    destruct Hx as [Hl [Hb [[-> _]|[Hd [Hv [Hn [Hf1 Hf2]]]]]]]; [apply Hs|].
    destruct (Z.eq_dec i x).
    + subst i. split; intros Hi; [|congruence]. right. split; auto. apply (proj2 (Hs x)); auto.
    + destruct (dec_near c p x i) as [Hnr|Hnr].
      * destruct (Z_le_gt_dec 0 i), (Z_lt_le_dec i (zlen s)).
        1: rewrite (Hf1 i) by (auto; lia); split; intros Hi; inversion Hi; congruence.
        all: rewrite get_none by lia; split; discriminate.
      * rewrite Hf2 by auto. apply Hs.
  - intros i; split; auto.
  - intros i Hi. apply HI; auto.
Qed.

(** Defaults are only ever removed *)
Lemma label_loop_default order ls ls' :
  foldM step ls order = Ok ls' -> forall i, get ls' i = Some Default -> get ls i = Some Default.
Proof.
  intros H.
  use_inv H (fun l => forall i, get l i = Some Default -> get ls i = Some Default); auto.
  intros s x s' Hs Hx i Hi. apply label_step_spec in Hx.
  destruct Hx as [Hl [Hb [[-> _]|[Hd [Hv [Hn [Hf1 Hf2]]]]]]]; [auto|].
  destruct (Z.eq_dec i x); [subst; congruence|].
  destruct (dec_near c p x i) as [Hnr|Hnr].
  - pose proof (get_bounds _ _ _ Hi). rewrite (Hf1 i) in Hi by (auto; lia).
    inversion Hi; congruence.
  - rewrite Hf2 in Hi by auto. auto.
Qed.

(** labels outside {Default, lab, nlab} are never created *)
Lemma label_loop_other order ls ls' l :
  l <> lab -> l <> nlab ->
  foldM step ls order = Ok ls' -> forall i, get ls' i = Some l -> get ls i = Some l.
Proof.
  intros H1 H2 H.
  use_inv H (fun t => forall i, get t i = Some l -> get ls i = Some l); auto.
  intros s x s' Hs Hx i Hi. apply label_step_spec in Hx.
  destruct Hx as [Hl [Hb [[-> _]|[Hd [Hv [Hn [Hf1 Hf2]]]]]]]; [auto|].
  destruct (Z.eq_dec i x); [subst; congruence|].
  destruct (dec_near c p x i) as [Hnr|Hnr].
  - pose proof (get_bounds _ _ _ Hi). rewrite (Hf1 i) in Hi by (auto; lia).
    inversion Hi; congruence.
  - rewrite Hf2 in Hi by auto. auto.
Qed.

Hypothesis Hsym : nb_symmetric c.

(** positions carrying one of the "hard" labels [hard] are never within the padding
    of a Default position: they are protected from later fills *)
Definition protected (hard : label -> Prop) (ls : list label) : Prop :=
  forall i k l, get ls i = Some l -> hard l -> get ls k = Some Default -> ~ within c p i k.

(** no two hard positions within padding of each other *)
Definition separated (l : label) (ls : list label) : Prop :=
  forall i k, get ls i = Some l -> get ls k = Some l -> i <> k -> ~ within c p i k.

(** protection of hard labels (including [lab]) is an invariant *)
Lemma label_loop_protected (hard : label -> Prop) order ls ls' :
  ~ hard nlab -> hard lab ->
  protected hard ls -> foldM step ls order = Ok ls' -> protected hard ls'.
Proof.
  intros Hh Hlab. intros HI H. revert HI H. apply (foldM_inv step).
  intros s x s' Hs Hx. apply label_step_spec in Hx.
  destruct Hx as [Hl [Hb [[-> _]|[Hd [Hv [Hn [Hf1 Hf2]]]]]]]; [auto|].
  intros i k l Hi Hlh Hk Hw.
  assert (k <> x). { intros ->. rewrite Hn in Hk. inversion Hk; congruence. }
  assert (Hnk : ~ within c p x k).
  { intros Hx. apply near_within in Hx; auto. pose proof (get_bounds _ _ _ Hk).
    rewrite (Hf1 k) in Hk by (auto; lia). inversion Hk; congruence. }
  destruct (Z.eq_dec i x); [subst; auto|].
  destruct (dec_near c p x i) as [Hnr|Hnr].
  - pose proof (get_bounds _ _ _ Hi). rewrite (Hf1 i) in Hi by (auto; lia).
    inversion Hi; subst; auto.
  - rewrite Hf2 in Hi by auto. rewrite Hf2 in Hk by (auto; rewrite near_within; auto).
    exact (Hs i k l Hi Hlh Hk Hw).
Qed.

(** protected labels survive the loop *)
Lemma label_loop_keeps (hard : label -> Prop) order ls ls' :
  ~ hard nlab -> hard lab -> ~ hard Default ->
  protected hard ls -> foldM step ls order = Ok ls' ->
  forall i l, get ls i = Some l -> hard l -> get ls' i = Some l.
Proof.
  intros Hh Hlab Hdef Hprot H.
  assert (HI : protected hard ls' /\ forall i l, get ls i = Some l -> hard l -> get ls' i = Some l).
  { revert H. apply (foldM_inv step (fun t => protected hard t /\
       forall i l, get ls i = Some l -> hard l -> get t i = Some l)); [|auto].
    intros s x s' [Hs1 Hs2] Hx. split.
    - apply (label_loop_protected hard [x] s s'); auto. cbn [foldM]. rewrite Hx. reflexivity.
    - intros i l Hi Hl. specialize (Hs2 i l Hi Hl). apply label_step_spec in Hx.
      destruct Hx as [Hlen [Hb [[-> _]|[Hd [Hv [Hn [Hf1 Hf2]]]]]]]; [auto|].
      assert (i <> x). { intros ->. rewrite Hd in Hs2. inversion Hs2; subst; auto. }
      rewrite Hf2; auto. rewrite near_within by auto. rewrite within_sym.
      apply (Hs1 i x l); auto. }
  tauto.
Qed.

(** separation of [lab] positions *)
Lemma label_loop_separated order ls ls' :
  (forall i, get ls i <> Some lab) -> foldM step ls order = Ok ls' ->
  protected (fun l => l = lab) ls' /\ separated lab ls'.
Proof.
  intros H0 H.
  use_inv H (fun t => protected (fun l => l = lab) t /\ separated lab t); [| |exact HI].
  - intros s x s' [Hs1 Hs2] Hx. split.
    + apply (label_loop_protected (fun l => l = lab) [x] s s'); auto.
      cbn [foldM]. rewrite Hx. reflexivity.
    + apply label_step_spec in Hx.
      destruct Hx as [Hlen [Hb [[-> _]|[Hd [Hv [Hn [Hf1 Hf2]]]]]]]; [auto|].
      assert (Hold : forall i, i <> x -> get s' i = Some lab -> get s i = Some lab).
      { intros i Hi Hg. destruct (dec_near c p x i) as [Hnr|Hnr].
        - pose proof (get_bounds _ _ _ Hg). rewrite (Hf1 i) in Hg by (auto; lia).
          inversion Hg; congruence.
        - rewrite Hf2 in Hg by auto. auto. }
      intros i k Hi Hk Hik.
      destruct (Z.eq_dec i x), (Z.eq_dec k x); subst; try lia.
      * rewrite within_sym. apply (Hs1 k x lab); auto.
      * apply (Hs1 i x lab); auto.
      * apply Hs2; auto.
  - split.
    + intros i k l Hi -> _ _. apply (H0 i); auto.
    + intros i k Hi. exfalso. apply (H0 i); auto.
Qed.

(** maximality: every candidate among the visited positions ends up within padding of a
    [lab] position that was visited no later *)
Lemma label_loop_cover order : forall ls ls',
  protected (fun l => l = lab) ls ->
  foldM step ls order = Ok ls' ->
  forall i v, In i order -> get ls i = Some Default -> get curv i = Some v -> ok v = true ->
  exists k pre post, order = pre ++ k :: post /\ In i (k :: post) /\
    get ls' k = Some lab /\ within c p k i.
Proof.
  induction order as [|x order IH]; intros ls ls' Hprot H i v Hin Hd Hv Hok; [destruct Hin|].
  cbn [foldM] in H. inv_bind H. rename v0 into ls1.
  assert (Hprot1 : protected (fun l => l = lab) ls1).
  { apply (label_loop_protected (fun l => l = lab) [x] ls ls1); auto.
    cbn [foldM]. rewrite E. reflexivity. }
  pose proof E as Es. apply label_step_spec in Es. destruct Es as [Hl [Hx Hcase]].
  destruct (Z.eq_dec i x) as [->|Hix].
  - destruct Hcase as [[-> Hno]|[_ [_ [Hlab [_ _]]]]].
    { exfalso. apply Hno. split; auto. eauto. }
    exists x, [], order. repeat split; simpl; auto.
    + apply (label_loop_keeps (fun l => l = lab) order ls1 ls'); auto.
    + lia.
    + intros k Hk. lia.
  - destruct Hin as [->|Hin]; [tauto|].
    assert (Hcont : get ls1 i = Some Default ->
      exists k pre post, x :: order = pre ++ k :: post /\ In i (k :: post) /\
        get ls' k = Some lab /\ within c p k i).
    { intros Hd1. destruct (IH ls1 ls' Hprot1 K i v Hin Hd1 Hv Hok) as [k [pre [post [H1 [H2 [H3 H4]]]]]].
      exists k, (x :: pre), post. rewrite H1. auto. }
    destruct Hcase as [[-> _]|[Hdx [Hvx [Hlab [Hf1 Hf2]]]]]; [auto|].
    destruct (dec_near c p x i) as [Hnr|Hnr].
    + exists x, [], order. repeat split; simpl; auto.
      * apply (label_loop_keeps (fun l => l = lab) order ls1 ls'); auto.
      * apply near_within in Hnr; auto. apply Hnr.
      * apply near_within in Hnr; auto. apply Hnr.
    + apply Hcont. rewrite Hf2; auto.
Qed.

(** totality of the loop *)
Lemma label_loop_total order : forall ls,
  nb_size c = zlen ls -> zlen curv = zlen ls -> nb_total c (zlen ls) ->
  (forall i, In i order -> 0 <= i < zlen ls) ->
  exists ls', foldM step ls order = Ok ls'.
Proof.
  induction order as [|x order IH]; intros ls Hs Hc Ht Hin; cbn [foldM]; [eauto|].
  assert (Hx : 0 <= x < zlen ls) by (apply Hin; simpl; auto).
  assert (He : exists ls1, step ls x = Ok ls1).
  { unfold label_step. destruct (vat_total ls x Hx) as [l [-> _]]. simpl.
    destruct (label_eqb l Default); [|eauto].
    destruct (vat_total curv x) as [v [-> _]]; [lia|]. simpl. destruct (ok v); [|eauto].
    destruct (fill_neighbors_total c x p nlab ls) as [l1 H1]; auto. rewrite H1. simpl.
    apply vset_total. apply fill_neighbors_spec in H1; auto. lia. }
  destruct He as [ls1 He]. rewrite He. simpl. apply label_step_spec in He.
  apply IH; intros; try (rewrite (proj1 He)); auto; try lia. apply Hin; simpl; auto.
Qed.

End Loop.

(** ** The two Assign functions *)

Lemma zrange_In n i : In i (zrange n) <-> 0 <= i < Z.of_nat n.
Proof.
  unfold zrange. rewrite in_map_iff. split.
  - intros [k [<- Hk]]. apply in_seq in Hk. lia.
  - intros H. exists (Z.to_nat i). split; [lia|]. apply in_seq. lia.
Qed.

Lemma argsort_ok A srt vals ix :
  valid_sort srt -> argsort A srt vals = Ok ix ->
  Permutation (zrange (length vals)) ix /\
  StronglySorted (fun a b => by_value A vals b a = false) ix.
Proof.
  intros Hs H. unfold argsort in H. apply std_sort_ok in H. destruct H as [Hw ->].
  apply Hs in Hw. auto.
Qed.

Lemma by_value_get A (vals : list (D A)) i j a b :
  get vals i = Some a -> get vals j = Some b -> by_value A vals i j = d_ltb A a b.
Proof.
  intros Hi Hj. unfold by_value. unfold get in Hi, Hj.
  destruct (i <? 0); [discriminate|]. destruct (j <? 0); [discriminate|].
  rewrite Hi, Hj. auto.
Qed.

(** C01 *)
Lemma edge_assign_separated A srt p thr c curv ls ls' :
  nb_symmetric c -> (forall i, get ls i <> Some Edge) ->
  edge_assign A srt p thr c curv ls = Ok ls' ->
  forall i j, get ls' i = Some Edge -> get ls' j = Some Edge -> i < j -> run c i j -> p < j - i.
Proof.
  intros Hs H0 H i j Hi Hj Hij Hr.
  destruct (Z_lt_le_dec p 0); [lia|].
  unfold edge_assign in H. apply assert_ok in H. destruct H as [_ H].
  apply assert_ok in H. destruct H as [_ H]. inv_bind H.
  apply label_loop_separated in K; auto; try discriminate.
  destruct K as [_ Hsep]. specialize (Hsep i j Hi Hj).
  destruct (Z_le_gt_dec (j - i) p); [|lia]. exfalso. apply Hsep; [lia|].
  split; [lia|]. rewrite Z.min_l, Z.max_r by lia. auto.
Qed.

Lemma surface_assign_separated A srt p thr c curv ls ls' :
  nb_symmetric c -> (forall i, get ls i <> Some Surface) ->
  surface_assign A srt p thr c curv ls = Ok ls' ->
  forall i j, get ls' i = Some Surface -> get ls' j = Some Surface -> i < j -> run c i j -> p < j - i.
Proof.
  intros Hs H0 H i j Hi Hj Hij Hr.
  destruct (Z_lt_le_dec p 0); [lia|].
  unfold surface_assign in H. apply assert_ok in H. destruct H as [_ H]. inv_bind H.
  apply label_loop_separated in K; auto; try discriminate.
  destruct K as [_ Hsep]. specialize (Hsep i j Hi Hj).
  destruct (Z_le_gt_dec (j - i) p); [|lia]. exfalso. apply Hsep; [lia|].
  split; [lia|]. rewrite Z.min_l, Z.max_r by lia. auto.
Qed.

(** C02 *)
Lemma edge_assign_sound A srt p thr c curv ls ls' :
  0 <= p -> edge_assign A srt p thr c curv ls = Ok ls' ->
  forall i, get ls' i = Some Edge ->
    get ls i = Some Edge \/
    (get ls i = Some Default /\ exists v, get curv i = Some v /\ d_leb A thr v = true).
Proof.
  intros Hp H. unfold edge_assign in H. apply assert_ok in H. destruct H as [_ H].
  apply assert_ok in H. destruct H as [_ H]. inv_bind H.
  intros i; eapply label_loop_sound; eauto; discriminate.
Qed.

Lemma surface_assign_sound A srt p thr c curv ls ls' :
  0 <= p -> surface_assign A srt p thr c curv ls = Ok ls' ->
  forall i, get ls' i = Some Surface ->
    get ls i = Some Surface \/
    (get ls i = Some Default /\ exists v, get curv i = Some v /\ d_leb A v thr = true).
Proof.
  intros Hp H. unfold surface_assign in H. apply assert_ok in H. destruct H as [_ H].
  inv_bind H. intros i; eapply label_loop_sound; eauto; discriminate.
Qed.

(** surfaces never come out as edges *)
Lemma surface_assign_edge A srt p thr c curv ls ls' :
  0 <= p -> surface_assign A srt p thr c curv ls = Ok ls' ->
  forall i, get ls' i = Some Edge -> get ls i = Some Edge.
Proof.
  intros Hp H. unfold surface_assign in H. apply assert_ok in H. destruct H as [_ H].
  inv_bind H. intros i; eapply label_loop_other; try exact K; eauto; discriminate.
Qed.

Lemma edge_assign_default A srt p thr c curv ls ls' :
  0 <= p -> edge_assign A srt p thr c curv ls = Ok ls' ->
  forall i, get ls' i = Some Default -> get ls i = Some Default.
Proof.
  intros Hp H. unfold edge_assign in H. apply assert_ok in H. destruct H as [_ H].
  apply assert_ok in H. destruct H as [_ H]. inv_bind H.
  intros i; eapply label_loop_default; eauto; discriminate.
Qed.

Lemma edge_assign_surface A srt p thr c curv ls ls' :
  0 <= p -> edge_assign A srt p thr c curv ls = Ok ls' ->
  forall i, get ls' i = Some Surface -> get ls i = Some Surface.
Proof.
  intros Hp H. unfold edge_assign in H. apply assert_ok in H. destruct H as [_ H].
  apply assert_ok in H. destruct H as [_ H]. inv_bind H.
  intros i; eapply label_loop_other; try exact K; eauto; discriminate.
Qed.

Lemma edge_assign_length A srt p thr c curv ls ls' :
  0 <= p -> edge_assign A srt p thr c curv ls = Ok ls' -> zlen ls' = zlen ls.
Proof.
  intros Hp H. unfold edge_assign in H. apply assert_ok in H. destruct H as [_ H].
  apply assert_ok in H. destruct H as [_ H]. inv_bind H.
  apply label_loop_length in K; auto.
Qed.

Lemma surface_assign_length A srt p thr c curv ls ls' :
  0 <= p -> surface_assign A srt p thr c curv ls = Ok ls' -> zlen ls' = zlen ls.
Proof.
  intros Hp H. unfold surface_assign in H. apply assert_ok in H. destruct H as [_ H].
  inv_bind H. apply label_loop_length in K; auto.
Qed.

(** C03 *)
Lemma SSorted_split {T} (R : T -> T -> Prop) l1 x l2 y :
  StronglySorted R (l1 ++ x :: l2) -> In y l1 -> R y x.
Proof.
  induction l1 as [|z l1 IH]; intros H Hin; [destruct Hin|].
  simpl in H. inversion H; subst. destruct Hin as [->|Hin]; auto.
  rewrite Forall_forall in H3. apply H3. apply in_or_app. simpl; auto.
Qed.

Lemma rev_split {T} (l : list T) pre k post :
  rev l = pre ++ k :: post -> l = rev post ++ k :: rev pre.
Proof.
  intros H. rewrite <- (rev_involutive l), H, rev_app_distr. simpl. rewrite <- app_assoc. auto.
Qed.

Lemma edge_assign_cover A srt p thr c curv ls ls' :
  valid_sort srt -> 0 <= p -> nb_symmetric c -> (forall i, get ls i <> Some Edge) ->
  edge_assign A srt p thr c curv ls = Ok ls' ->
  forall i v, get ls i = Some Default -> get curv i = Some v -> d_leb A thr v = true ->
  exists k w, get ls' k = Some Edge /\ within c p k i /\
              get curv k = Some w /\ d_ltb A w v = false.
Proof.
  intros Hvs Hp Hs H0 H i v Hd Hv Hok.
  unfold edge_assign in H. apply assert_ok in H. destruct H as [Hlen H].
  apply assert_ok in H. destruct H as [_ H]. inv_bind H.
  rename v0 into ix. pose proof E as Eix. apply argsort_ok in E; auto. destruct E as [Hperm Hsort].
  apply Z.eqb_eq in Hlen.
  assert (Hin : In i (rev ix)).
  { apply -> in_rev. apply (Permutation_in i Hperm). apply zrange_In.
    apply get_bounds in Hv. unfold zlen in Hv. auto. }
  pose proof K as K2.
  eapply label_loop_cover in K2; eauto; try discriminate.
  2: { intros a b l Ha -> _ _. apply (H0 a); auto. }
  destruct K2 as [k [pre [post [Hsplit [Hink [Hk Hw]]]]]].
  assert (Hkb : 0 <= k < zlen curv).
  { rewrite Hlen. apply get_bounds in Hk.
    erewrite <- label_loop_length; eauto. }
  destruct (get_some curv k Hkb) as [w Hwk].
  exists k, w. repeat split; auto; try apply Hw.
  rewrite <- (by_value_get A curv k i w v Hwk Hv).
  destruct Hink as [->|Hink].
  - unfold argsort in Eix. apply std_sort_ok in Eix. destruct Eix as [[Hirr _] _].
    apply Hirr. apply zrange_In. unfold zlen in Hkb; auto.
  - apply rev_split in Hsplit. rewrite Hsplit in Hsort.
    apply (SSorted_split _ _ _ _ i) in Hsort; auto. rewrite <- in_rev; auto.
Qed.

(** C04 *)
Lemma surface_keeps_edges A srt1 srt2 p eth sth c curv ls ls1 ls2 :
  0 <= p -> nb_symmetric c -> (forall i, get ls i <> Some Edge) ->
  edge_assign A srt1 p eth c curv ls = Ok ls1 ->
  surface_assign A srt2 p sth c curv ls1 = Ok ls2 ->
  forall i, get ls2 i = Some Edge <-> get ls1 i = Some Edge.
Proof.
  intros Hp Hs H0 H1 H2 i. split.
  - intros H. eapply surface_assign_edge; eauto.
  - intros Hi. unfold edge_assign in H1. apply assert_ok in H1. destruct H1 as [_ H1].
    apply assert_ok in H1. destruct H1 as [_ H1]. inv_bind H1.
    apply label_loop_separated in K; auto; try discriminate. destruct K as [Hprot _].
    unfold surface_assign in H2. apply assert_ok in H2. destruct H2 as [_ H2]. inv_bind H2.
    assert (HP : forall i l, get ls1 i = Some l -> l = Edge -> get ls2 i = Some l).
    { clear Hi i. intros i l Hi ->.
      assert (HI : protected c p (fun l => l = Edge) ls2 /\ get ls2 i = Some Edge).
      { revert K. apply (foldM_inv
          (label_step A c p (fun v => d_leb A v sth) SurfaceNeighbor Surface curv)
          (fun t => protected c p (fun l => l = Edge) t /\ get t i = Some Edge)); [|auto].
        intros s x s' [Hs1 Hs2] Hx.
        apply label_step_spec in Hx; auto.
        destruct Hx as [Hlen [Hb [[-> _]|[Hd [Hv [Hn [Hf1 Hf2]]]]]]]; [auto|].
        assert (Hold : forall j l, l <> SurfaceNeighbor -> l <> Surface -> get s' j = Some l -> get s j = Some l).
        { intros j l Hl1 Hl2 Hj. destruct (Z.eq_dec j x); [subst; congruence|].
          destruct (dec_near c p x j) as [Hnr|Hnr].
          - pose proof (get_bounds _ _ _ Hj). rewrite (Hf1 j) in Hj by (auto; lia). congruence.
          - rewrite Hf2 in Hj by auto. auto. }
        split.
        - intros a b l Ha -> Hb2. apply Hs1 with (l := Edge); auto.
          + apply Hold; auto; discriminate.
          + apply Hold; auto; discriminate.
        - assert (i <> x) by congruence.
          rewrite Hf2; auto. rewrite near_within by auto. rewrite within_sym.
          apply (Hs1 i x Edge); auto. }
      apply HI. }
    eapply HP; eauto.
Qed.

(** totality of the two passes *)
Lemma argsort_indices A srt vals ix :
  valid_sort srt -> argsort A srt vals = Ok ix -> forall i, In i ix -> 0 <= i < zlen vals.
Proof.
  intros Hs H i Hi. apply argsort_ok in H; auto. destruct H as [Hp _].
  apply Permutation_sym in Hp. apply (Permutation_in i Hp) in Hi.
  apply zrange_In in Hi. auto.
Qed.

Lemma argsort_total A srt (vals : list (D A)) :
  strict_weak_order (by_value A vals) (zrange (length vals)) ->
  exists ix, argsort A srt vals = Ok ix.
Proof.
  intros H. apply swo_on_spec in H. unfold argsort, std_sort. rewrite H. eauto.
Qed.

Lemma edge_assign_total A srt p thr c curv ls :
  valid_sort srt -> 0 <= p ->
  zlen curv = zlen ls -> nb_size c = zlen ls -> nb_total c (zlen ls) ->
  strict_weak_order (by_value A curv) (zrange (length curv)) ->
  exists ls', edge_assign A srt p thr c curv ls = Ok ls' /\ zlen ls' = zlen ls.
Proof.
  intros Hs Hp Hc Hn Ht Hw.
  destruct (argsort_total A srt curv Hw) as [ix Hix].
  destruct (label_loop_total A c p (fun v => d_leb A thr v) EdgeNeighbor Edge curv Hp
              (rev ix) ls) as [ls' Hls']; auto.
  { intros i Hi. rewrite <- Hc. eapply argsort_indices; eauto. rewrite in_rev; auto. }
  exists ls'. split.
  - unfold edge_assign. rewrite Hc, Hn, Z.eqb_refl. simpl. rewrite Hix. simpl. auto.
  - eapply label_loop_length; eauto.
Qed.

Lemma surface_assign_total A srt p thr c curv ls :
  valid_sort srt -> 0 <= p -> ls <> [] ->
  zlen curv = zlen ls -> nb_size c = zlen ls -> nb_total c (zlen ls) ->
  strict_weak_order (by_value A curv) (zrange (length curv)) ->
  exists ls', surface_assign A srt p thr c curv ls = Ok ls' /\ zlen ls' = zlen ls.
Proof.
  intros Hs Hp Hne Hc Hn Ht Hw.
  destruct (argsort_total A srt curv Hw) as [ix Hix].
  destruct (label_loop_total A c p (fun v => d_leb A v thr) SurfaceNeighbor Surface curv Hp
              ix ls) as [ls' Hls']; auto.
  { intros i Hi. rewrite <- Hc. eapply argsort_indices; eauto. }
  exists ls'. split.
  - unfold surface_assign. rewrite Hn.
    destruct ls; [congruence|]. unfold zlen at 1. simpl length. rewrite Nat2Z.inj_succ.
    destruct (Z.succ (Z.of_nat (length ls)) =? 0) eqn:E; [apply Z.eqb_eq in E; lia|]. simpl.
    rewrite Hix. simpl. auto.
  - eapply label_loop_length; eauto.
Qed.
