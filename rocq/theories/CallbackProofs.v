(** Proofs about one ring's contribution and the callback
    (feature_extraction.cpp:92-171). *)
From Coq Require Import List ZArith Bool Lia Permutation.
From Verif Require Import Base Arith ExtractModel Spec FillProofs LabelProofs OcclusionProofs
  NeighborProofs RingProofs RingMapProofs SeparationProofs.
Import ListNotations.
Open Scope Z_scope.

(** ** mapM *)
Lemma mapM_Forall2 {X Y} (f : X -> outcome Y) l ys :
  mapM f l = Ok ys <-> Forall2 (fun x y => f x = Ok y) l ys.
Proof.
  split.
  - revert ys. induction l as [|x l IH]; intros ys H; cbn [mapM] in H.
    + inversion H. constructor.
    + apply bind_ok in H. destruct H as [y [Hy H]]. apply bind_ok in H. destruct H as [t [Ht H]].
      inversion H; subst. constructor; auto.
  - intros H. induction H; simpl; auto. rewrite H, IHForall2. auto.
Qed.

Lemma Forall2_perm {X Y} (R : X -> Y -> Prop) l l' ys :
  Forall2 R l ys -> Permutation l l' -> exists ys', Forall2 R l' ys' /\ Permutation ys ys'.
Proof.
  intros H HP. revert ys H. induction HP; intros ys H.
  - inversion H; subst. exists []. split; constructor.
  - inversion H; subst. destruct (IHHP _ H4) as [ys' [H5 H6]]. exists (y :: ys'). auto.
  - inversion H; subst. inversion H4; subst. exists (y1 :: y0 :: l'0). split; auto. constructor.
  - destruct (IHHP1 _ H) as [y1 [H1 H2]]. destruct (IHHP2 _ H1) as [y2 [H3 H4]].
    exists y2. split; auto. eapply Permutation_trans; eauto.
Qed.

Lemma mapM_vat_cases {X Y} (f : X -> outcome Y) l :
  (forall x, (exists y, f x = Ok y) \/ f x = ThrowRange) ->
  (exists ys, mapM f l = Ok ys) \/ mapM f l = ThrowRange.
Proof.
  intros H. induction l as [|x l IH]; simpl; eauto.
  destruct (H x) as [[y ->]| ->]; simpl; auto. destruct IH as [[ys ->]| ->]; simpl; eauto.
Qed.

Section CB.
Variable A : arith.
Variable srt : sorter.
Variable P : params A.

Definition append_clouds (a b : clouds A) : clouds A :=
  {| c_edge := c_edge A a ++ c_edge A b; c_surface := c_surface A a ++ c_surface A b;
     c_colored := c_colored A a ++ c_colored A b |}.
Definition no_clouds : clouds A := {| c_edge := []; c_surface := []; c_colored := [] |}.

Lemma try_ring_append m c st :
  try_ring A srt P m c st =
  (append_clouds st (fst (try_ring A srt P m c no_clouds)), snd (try_ring A srt P m c no_clouds)).
Proof.
  unfold try_ring. match goal with |- match ?pre with _ => _ end = _ => destruct pre as [[[ls ea] sa]| | | | |] end;
    simpl; try (unfold append_clouds; simpl; rewrite !app_nil_r; destruct st; auto; fail).
  destruct (color_points_by_label A m ls); simpl; unfold append_clouds; simpl; rewrite ?app_nil_r; auto.
Qed.

Lemma ring_step_append cloud st ring :
  ring_step A srt P cloud st ring =
  (d <- ring_step A srt P cloud no_clouds ring ;; Ok (append_clouds st d)).
Proof.
  unfold ring_step. destruct (make_nb_xy A _ (p_rad A P)); simpl; auto.
  rewrite try_ring_append. destruct (try_ring A srt P _ _ no_clouds) as [d o]. simpl.
  destruct o; simpl; auto.
Qed.

Fixpoint sum_clouds (ds : list (clouds A)) : clouds A :=
  match ds with [] => no_clouds | d :: t => append_clouds d (sum_clouds t) end.

Lemma append_assoc a b d : append_clouds (append_clouds a b) d = append_clouds a (append_clouds b d).
Proof. unfold append_clouds; simpl. rewrite !app_assoc. auto. Qed.

Lemma append_no st : append_clouds st no_clouds = st.
Proof. unfold append_clouds; simpl. rewrite !app_nil_r. destruct st; auto. Qed.

Lemma fold_rings cloud rings : forall st,
  foldM (ring_step A srt P cloud) st rings =
  (ds <- mapM (ring_step A srt P cloud no_clouds) rings ;; Ok (append_clouds st (sum_clouds ds))).
Proof.
  induction rings as [|r t IH]; intros st; cbn [foldM mapM].
  - simpl. rewrite append_no. auto.
  - rewrite ring_step_append. destruct (ring_step A srt P cloud no_clouds r); simpl; auto.
    rewrite IH. destruct (mapM _ t); simpl; auto. rewrite append_assoc. auto.
Qed.

Lemma sum_clouds_eq ds :
  c_edge A (sum_clouds ds) = concat (map (c_edge A) ds) /\
  c_surface A (sum_clouds ds) = concat (map (c_surface A) ds) /\
  c_colored A (sum_clouds ds) = concat (map (c_colored A) ds).
Proof. induction ds as [|d t [I1 [I2 I3]]]; simpl; auto. rewrite I1, I2, I3. auto. Qed.

(** ** One ring *)
Notation mring cloud ring := {| m_cloud := cloud; m_indices := snd ring |}.

Notation coords := (coords A).
Notation colored_of := (colored_of A).

Lemma picked_In ls ix lab k :
  In k (picked ls ix lab) <-> exists i, get ls i = Some lab /\ get ix i = Some k.
Proof.
  unfold picked. rewrite in_map_iff. split.
  - intros [[l k'] [Hk Hf]]. simpl in Hk. subst. apply filter_In in Hf. destruct Hf as [Hf Hl].
    simpl in Hl. apply label_eqb_eq in Hl. subst.
    apply In_nth_error in Hf. destruct Hf as [n Hn]. exists (Z.of_nat n).
    unfold get. destruct (Z.of_nat n <? 0) eqn:E; [apply Z.ltb_lt in E; lia|]. rewrite Nat2Z.id.
    clear E. revert ls ix Hn. induction n as [|n IH]; intros [|a ls] [|b ix]; simpl; try discriminate.
    + intros H; inversion H; subst; auto.
    + apply IH.
  - intros [i [H1 H2]]. exists (lab, k). split; auto. apply filter_In. split.
    2:{ simpl. apply label_eqb_eq. auto. }
    unfold get in *. destruct (i <? 0); [discriminate|].
    revert ls ix H1 H2. generalize (Z.to_nat i) as n. induction n as [|n IH];
      intros [|a ls] [|b ix]; simpl; try discriminate.
    + intros Ha Hb. inversion Ha; inversion Hb; subst. auto.
    + intros Ha Hb. right. eapply IH; eauto.
Qed.

Lemma NoDup_app_intro {T} (l1 l2 : list T) : NoDup l1 -> NoDup l2 ->
  (forall x, In x l1 -> ~ In x l2) -> NoDup (l1 ++ l2).
Proof.
  induction l1 as [|a l1 IH]; simpl; auto. intros H1 H2 H3. inversion H1; subst. constructor.
  - intros Hx. apply in_app_or in Hx. destruct Hx; auto. eapply H3; eauto.
  - apply IH; auto.
Qed.

Lemma picked_NoDup ls : forall ix, NoDup ix ->
  NoDup (picked ls ix Edge ++ picked ls ix Surface).
Proof.
  intros ix Hnd.
  assert (H1 : forall lab, NoDup (picked ls ix lab)).
  { intros lab. unfold picked. revert ix Hnd. induction ls as [|l ls IH]; intros [|k ix] Hnd; simpl;
      try constructor. inversion Hnd; subst. destruct (label_eqb l lab); simpl; auto.
    constructor; auto. intros Hi. apply H1. apply in_map_iff in Hi. destruct Hi as [[a b] [Hb Hf]].
    simpl in Hb. subst. apply filter_In in Hf. destruct Hf as [Hf _]. eapply in_combine_r; eauto. }
  apply NoDup_app_intro; auto.
  intros k He Hs. apply picked_In in He, Hs. destruct He as [i [E1 E2]], Hs as [j [S1 S2]].
  assert (Hij : i = j).
  { assert (Hi := get_bounds _ _ _ E2). assert (Hj := get_bounds _ _ _ S2).
    unfold get in E2, S2. destruct (i <? 0) eqn:Ei; [discriminate|].
    destruct (j <? 0) eqn:Ej; [discriminate|]. apply Z.ltb_ge in Ei, Ej.
    rewrite NoDup_nth_error in Hnd. specialize (Hnd (Z.to_nat i) (Z.to_nat j)).
    assert (Hn : Z.to_nat i = Z.to_nat j); [|lia]. apply Hnd; [unfold zlen in Hi; lia|congruence]. }
  congruence.
Qed.

Lemma picked_incl ls ix lab k : In k (picked ls ix lab) -> In k ix.
Proof.
  intros H. apply picked_In in H. destruct H as [i [_ H]]. unfold get in H.
  destruct (i <? 0); [discriminate|]. eapply nth_error_In; eauto.
Qed.

Lemma mapM_get_spec {T} (l : list T) idx ys :
  mapM (vat l) idx = Ok ys -> Forall2 (fun i y => get l i = Some y) idx ys.
Proof.
  intros H. apply mapM_Forall2 in H. induction H; constructor; auto. apply vat_get. auto.
Qed.

(** indices_of_label followed by the lookups equals [picked] *)
Lemma select_eq (cloud : list (point A)) ix ls lab pts :
  zlen ls = zlen ix ->
  mapM (m_at A {| m_cloud := cloud; m_indices := ix |}) (indices_of_label ls lab) = Ok pts ->
  map (xyz A) pts = coords cloud (picked ls ix lab).
Proof.
  intros HL H. apply mapM_Forall2 in H.
  assert (G : forall ls ix s pre, length ls = length ix -> length pre = s ->
    Forall2 (fun x y => m_at A {| m_cloud := cloud; m_indices := pre ++ ix |} x = Ok y)
      (map fst (filter (fun il => label_eqb (snd il) lab)
                       (combine (map Z.of_nat (seq s (length ls))) ls))) pts ->
    map (xyz A) pts = coords cloud (picked ls ix lab)).
  { clear. intros ls. revert pts. induction ls as [|l ls IH]; intros pts [|k ix] s pre HL Hs H;
      simpl in *; try discriminate.
    - inversion H; subst. auto.
    - unfold picked. simpl. destruct (label_eqb l lab) eqn:El; simpl in *.
      + inversion H as [|? p ? ps Hp Hps]; subst.
        unfold m_at in Hp. simpl in Hp. apply bind_ok in Hp. destruct Hp as [k' [Hk' Hp]].
        apply vat_get in Hk', Hp. unfold get in Hk'. destruct (Z.of_nat (length pre) <? 0) eqn:E; [discriminate|].
        rewrite Nat2Z.id in Hk'. rewrite nth_error_app2 in Hk' by lia. rewrite Nat.sub_diag in Hk'.
        simpl in Hk'. inversion Hk'; subst k'. rewrite Hp. simpl. f_equal.
        apply (IH ps ix (S (length pre)) (pre ++ [k])); auto.
        * rewrite app_length. simpl. lia.
        * rewrite <- app_assoc. simpl. auto.
      + apply (IH pts ix (S (length pre)) (pre ++ [k])); auto.
        * rewrite app_length. simpl. lia.
        * rewrite <- app_assoc. simpl. subst. auto. }
  apply (G ls ix 0%nat []); auto. unfold zlen in HL. lia.
Qed.

Lemma append_xyzir_xyz pts curv out :
  append_xyzir A pts curv = Ok out -> map (xyz A) out = map (xyz A) pts.
Proof.
  unfold append_xyzir. intros H. apply assert_ok in H. destruct H as [H1 H]. apply Z.eqb_eq in H1.
  inversion H; subst; clear H. unfold zlen in H1. assert (HL : length pts = length curv) by lia.
  clear H1. revert curv HL. induction pts as [|p pts IH]; intros [|v curv] HL; simpl in *; try discriminate; auto.
  rewrite IH by lia. auto.
Qed.

Lemma color_eq cloud ls ix out :
  color_points_by_label A {| m_cloud := cloud; m_indices := ix |} ls = Ok out ->
  out = colored_of cloud ls ix.
Proof.
  unfold color_points_by_label. intros H. apply assert_ok in H. destruct H as [H1 H].
  apply Z.eqb_eq in H1. unfold m_size in H1. simpl in H1. apply mapM_Forall2 in H.
  assert (G : forall ls ix s pre out, length ls = length ix -> length pre = s ->
    Forall2 (fun il y => (p <- m_at A {| m_cloud := cloud; m_indices := pre ++ ix |} (fst il) ;;
                  Ok {| cx := px A p; cy := py A p; cz := pz A p; crgb := label_to_color (snd il) |}) = Ok y)
       (combine (map Z.of_nat (seq s (length ls))) ls) out -> out = colored_of cloud ls ix).
  { clear. induction ls as [|l ls IH]; intros [|k ix] s pre out HL Hs H; simpl in *; try discriminate.
    - inversion H. auto.
    - inversion H as [|? y ? ys Hy Hys]; subst. simpl in Hy. apply bind_ok in Hy. destruct Hy as [p [Hp Hy]].
      unfold m_at in Hp. simpl in Hp. apply bind_ok in Hp. destruct Hp as [k' [Hk' Hp]].
      apply vat_get in Hk', Hp. unfold get in Hk'. destruct (Z.of_nat (length pre) <? 0) eqn:E; [discriminate|].
      rewrite Nat2Z.id in Hk'. rewrite nth_error_app2 in Hk' by lia. rewrite Nat.sub_diag in Hk'.
      simpl in Hk'. inversion Hk'; subst k'. unfold Spec.colored_of. simpl. rewrite Hp. simpl.
      inversion Hy; subst. f_equal. apply (IH ix (S (length pre)) (pre ++ [k])); auto.
      + rewrite app_length. simpl. lia.
      + rewrite <- app_assoc. simpl. auto. }
  apply (G ls ix 0%nat []); auto. unfold zlen in H1. lia.
Qed.

(** what a ring contributes to the three clouds *)
Definition ring_part (cloud : list (point A)) (ring : Z * list Z) (d : clouds A) : Prop :=
  let m := mring cloud ring in
  (ring_labels A srt P m (nb_xy A m (p_rad A P)) = ThrowInvalid /\ d = no_clouds) \/
  (exists ls curv, ring_labels A srt P m (nb_xy A m (p_rad A P)) = Ok (ls, curv) /\
     zlen ls = zlen (snd ring) /\
     map (xyz A) (c_edge A d) = coords cloud (picked ls (snd ring) Edge) /\
     map (xyz A) (c_surface A d) = coords cloud (picked ls (snd ring) Surface) /\
     c_colored A d = colored_of cloud ls (snd ring)).

Lemma ring_step_part cloud ring d :
  ring_step A srt P cloud no_clouds ring = Ok d -> 2 <= zlen (snd ring) /\ ring_part cloud ring d.
Proof.
  unfold ring_step, ring_part. cbv zeta. set (m := mring cloud ring).
  intros H. apply bind_ok in H. destruct H as [c [Hc H]].
  unfold make_nb_xy in Hc. destruct (m_size A m <? 2) eqn:Es; [discriminate|].
  inversion Hc; subst c; clear Hc. apply Z.ltb_ge in Es. split; [exact Es|].
  unfold try_ring in H. destruct (ring_labels A srt P m _) as [[ls curv]| | | | |]; simpl in H;
    try discriminate.
  2:{ left. inversion H. auto. }
  right. exists ls, curv. split; auto.
  destruct (zlen curv =? m_size A m); simpl in H; [|discriminate].
  destruct (mapM_vat_cases (m_at A m) (indices_of_label ls Edge) (m_at_cases A m)) as [[ep E1]|E1];
    rewrite E1 in H; simpl in H; [|discriminate].
  destruct (mapM_vat_cases (vat curv) (indices_of_label ls Edge) (vat_cases curv)) as [[ec E2]|E2];
    rewrite E2 in H; simpl in H; [|discriminate].
  destruct (mapM_vat_cases (m_at A m) (indices_of_label ls Surface) (m_at_cases A m)) as [[sp E3]|E3];
    rewrite E3 in H; simpl in H; [|discriminate].
  destruct (mapM_vat_cases (vat curv) (indices_of_label ls Surface) (vat_cases curv)) as [[sc E4]|E4];
    rewrite E4 in H; simpl in H; [|discriminate].
  destruct (append_xyzir A ep ec) as [ea| | | | |] eqn:E5; simpl in H; try discriminate.
  2:{ unfold append_xyzir, assert_ in E5. destruct (_ =? _) in E5; discriminate. }
  destruct (append_xyzir A sp sc) as [sa| | | | |] eqn:E6; simpl in H; try discriminate.
  2:{ unfold append_xyzir, assert_ in E6. destruct (_ =? _) in E6; discriminate. }
  destruct (color_points_by_label A m ls) as [cl| | | | |] eqn:E7; simpl in H; try discriminate.
  - inversion H; subst d; clear H. simpl.
    pose proof E7 as E7'. unfold color_points_by_label in E7'. apply assert_ok in E7'. destruct E7' as [E7' _].
    apply Z.eqb_eq in E7'. unfold m_size in E7'. simpl in E7'. split; [auto|].
    split; [|split].
    + erewrite append_xyzir_xyz by eauto. eapply select_eq; eauto.
    + erewrite append_xyzir_xyz by eauto. eapply select_eq; eauto.
    + eapply color_eq; eauto.
  - exfalso. unfold color_points_by_label, assert_ in E7. destruct (_ =? _) in E7; [|discriminate].
    destruct (mapM_vat_cases (fun il => p <- m_at A m (fst il) ;;
                  Ok {| cx := px A p; cy := py A p; cz := pz A p; crgb := label_to_color (snd il) |})
       (combine (zrange (length ls)) ls)) as [[ys E]|E]; try (rewrite E in E7; discriminate).
    intros x. destruct (m_at_cases A m (fst x)) as [[y ->]| ->]; simpl; eauto.
Qed.

(** a ring that is labelled, or rejected with invalid_argument, never fails *)
Lemma ring_step_total cloud ring :
  2 <= zlen (snd ring) -> (forall k, In k (snd ring) -> 0 <= k < zlen cloud) ->
  let m := mring cloud ring in
  ring_labels A srt P m (nb_xy A m (p_rad A P)) = ThrowInvalid \/
  (exists ls curv, ring_labels A srt P m (nb_xy A m (p_rad A P)) = Ok (ls, curv) /\
    zlen ls = zlen (snd ring) /\ zlen curv = zlen (snd ring)) ->
  exists d, ring_step A srt P cloud no_clouds ring = Ok d.
Proof.
  intros H2 Hk m H. unfold ring_step. fold m. unfold make_nb_xy.
  assert (Hms : m_size A m = zlen (snd ring)) by auto.
  destruct (m_size A m <? 2) eqn:Es; [apply Z.ltb_lt in Es; lia|]. simpl. unfold try_ring.
  destruct H as [-> | [ls [curv [-> [L1 L2]]]]]; simpl; [eauto|].
  rewrite Hms, L2, Z.eqb_refl. simpl.
  assert (Hat : forall i, 0 <= i < zlen (snd ring) -> exists p, m_at A m i = Ok p).
  { intros i Hi. unfold m_at. simpl. destruct (get_some (snd ring) i Hi) as [k Hg].
    pose proof Hg as Hg2. apply vat_get in Hg. rewrite Hg. simpl.
    assert (Hkk : 0 <= k < zlen cloud).
    { apply Hk. unfold get in Hg2. destruct (i <? 0); [discriminate|]. eapply nth_error_In; eauto. }
    destruct (get_some cloud k Hkk) as [p Hp]. apply vat_get in Hp. eauto. }
  assert (Hix : forall lab i, In i (indices_of_label ls lab) -> 0 <= i < zlen ls).
  { intros lab i Hi. unfold indices_of_label in Hi. apply in_map_iff in Hi.
    destruct Hi as [[i' l] [<- Hf]]. apply filter_In in Hf. destruct Hf as [Hf _].
    apply in_combine_l in Hf. apply zrange_In in Hf. unfold zlen. simpl. lia. }
  assert (Hmt : forall lab, exists ps, mapM (m_at A m) (indices_of_label ls lab) = Ok ps).
  { intros lab. apply mapM_ok. intros x Hx. apply Hat. apply Hix in Hx. lia. }
  assert (Hct : forall lab, exists ps, mapM (vat curv) (indices_of_label ls lab) = Ok ps).
  { intros lab. apply mapM_ok. intros x Hx. apply Hix in Hx.
    destruct (get_some curv x) as [v Hv]; [lia|]. apply vat_get in Hv. eauto. }
  assert (Hlen : forall X Y (f : X -> outcome Y) l ys, mapM f l = Ok ys -> zlen ys = zlen l).
  { intros X Y f l ys Hm. apply mapM_Forall2 in Hm. unfold zlen. f_equal. induction Hm; simpl; auto. }
  destruct (Hmt Edge) as [ep E1], (Hct Edge) as [ec E2], (Hmt Surface) as [sp E3],
    (Hct Surface) as [sc E4].
  rewrite E1; simpl. rewrite E2; simpl. rewrite E3; simpl. rewrite E4; simpl.
  apply Hlen in E1, E2, E3, E4.
  unfold append_xyzir. rewrite E1, E2, E3, E4, !Z.eqb_refl. simpl.
  unfold color_points_by_label. rewrite Hms, L1, Z.eqb_refl. simpl.
  destruct (mapM_ok (fun il => p <- m_at A m (fst il) ;;
                  Ok {| cx := px A p; cy := py A p; cz := pz A p; crgb := label_to_color (snd il) |})
       (combine (zrange (length ls)) ls)) as [cl Hcl].
  { intros [i l] Hi. apply in_combine_l in Hi. apply zrange_In in Hi.
    destruct (Hat i) as [p Hp]; [unfold zlen in *; lia|]. simpl. rewrite Hp. simpl. eauto. }
  rewrite Hcl. simpl. eauto.
Qed.

(** ** The callback *)
Lemma callback_inv ord dense has_ring cloud out :
  callback A srt ord P dense has_ring cloud = Ok out ->
  exists rings ds, extract_rings A srt cloud = Ok rings /\
    let kept := ord (remove_sparse_rings rings (p_padding A P + 1)) in
    mapM (ring_step A srt P cloud no_clouds) kept = Ok ds /\
    o_shutdown A out = negb (dense && has_ring) /\
    o_edge A out = map (xyz A) (concat (map (c_edge A) ds)) /\
    o_surface A out = map (xyz A) (concat (map (c_surface A) ds)) /\
    o_colored A out = concat (map (c_colored A) ds).
Proof.
  unfold callback. intros H. apply bind_ok in H. destruct H as [rings [Hr H]].
  apply bind_ok in H. destruct H as [st [Hst H]]. inversion H; subst; clear H.
  fold no_clouds in Hst. rewrite fold_rings in Hst. apply bind_ok in Hst. destruct Hst as [ds [Hds Hst]].
  inversion Hst; subst; clear Hst. exists rings, ds. split; auto. cbv zeta. split; auto. simpl.
  destruct (sum_clouds_eq ds) as [-> [-> ->]].
  split; auto. rewrite negb_andb. auto.
Qed.

Lemma callback_intro ord dense has_ring cloud rings ds :
  extract_rings A srt cloud = Ok rings ->
  mapM (ring_step A srt P cloud no_clouds) (ord (remove_sparse_rings rings (p_padding A P + 1))) = Ok ds ->
  exists out, callback A srt ord P dense has_ring cloud = Ok out /\
    o_shutdown A out = negb (dense && has_ring) /\
    o_edge A out = map (xyz A) (concat (map (c_edge A) ds)) /\
    o_surface A out = map (xyz A) (concat (map (c_surface A) ds)) /\
    o_colored A out = concat (map (c_colored A) ds).
Proof.
  intros H1 H2. unfold callback. rewrite H1. cbn [bind]. fold no_clouds. rewrite fold_rings, H2. cbn [bind].
  eexists. split; [reflexivity|]. simpl. destruct (sum_clouds_eq ds) as [-> [-> ->]].
  rewrite negb_andb. auto.
Qed.

End CB.

Lemma coords_app A cloud a b : coords A cloud (a ++ b) = coords A cloud a ++ coords A cloud b.
Proof. apply flat_map_app. Qed.
