(** Facts about the whole callback: provenance, cleanliness, isolation of rings,
    independence of the ring order. *)
From Coq Require Import List ZArith Bool Lia Permutation.
From Verif Require Import Base Arith ExtractModel Spec FillProofs LabelProofs OcclusionProofs
  NeighborProofs RingProofs RingMapProofs SeparationProofs CallbackProofs.
Import ListNotations.
Open Scope Z_scope.

Section Pipe.
Variable A : arith.
Variable srt : sorter.
Variable P : params A.
Variable cloud : list (point A).

Notation mring ring := {| m_cloud := cloud; m_indices := snd ring |}.
Notation part := (ring_part A srt P cloud).

Lemma concat_perm {T} (l l' : list (list T)) : Permutation l l' -> Permutation (concat l) (concat l').
Proof.
  intros H. induction H; simpl; auto.
  - apply Permutation_app_head. auto.
  - rewrite !app_assoc. apply Permutation_app_tail. apply Permutation_app_comm.
  - eapply Permutation_trans; eauto.
Qed.

Lemma concat_map_map {X Y Z'} (f : Y -> Z') (g : X -> list Y) l :
  map f (concat (map g l)) = concat (map (fun x => map f (g x)) l).
Proof. rewrite concat_map, map_map. auto. Qed.

Lemma parts_of kept ds :
  mapM (ring_step A srt P cloud (no_clouds A)) kept = Ok ds -> Forall2 part kept ds.
Proof.
  intros H. apply mapM_Forall2 in H. induction H; constructor; auto.
  apply ring_step_part in H. tauto.
Qed.

Lemma ring_size_le rings k ix :
  extract_rings A srt cloud = Ok rings -> valid_sort srt -> In (k, ix) rings ->
  zlen ix <= zlen cloud /\ forall i, In i ix -> 0 <= i < zlen cloud.
Proof.
  intros H Hv Hi. apply extract_rings_spec in H; auto. destruct H as [_ [_ H]].
  destruct (H k ix Hi) as [_ [Hnd [Hin _]]].
  assert (Hb : forall i, In i ix -> 0 <= i < zlen cloud).
  { intros i Hx. apply Hin in Hx. destruct Hx as [p [Hg _]]. apply get_bounds in Hg. auto. }
  split; auto. unfold zlen.
  assert (Hl : (length ix <= length (zrange (length cloud)))%nat).
  { apply NoDup_incl_length; auto. intros i Hx. apply Hb in Hx. apply zrange_In.
    unfold zlen in Hx. lia. }
  unfold zrange in Hl. rewrite map_length, seq_length in Hl. lia.
Qed.

(** a published feature comes from a labelled position of a kept ring *)
Lemma feature_origin ord dense has_ring out :
  valid_order ord ->
  callback A srt ord P dense has_ring cloud = Ok out ->
  exists rings, extract_rings A srt cloud = Ok rings /\
  forall lab q, (lab = Edge /\ In q (o_edge A out)) \/ (lab = Surface /\ In q (o_surface A out)) ->
  exists k ix ls curv i j pt,
    In (k, ix) rings /\ p_padding A P + 1 <= zlen ix /\
    (let m := {| m_cloud := cloud; m_indices := ix |} in
     ring_labels A srt P m (nb_xy A m (p_rad A P)) = Ok (ls, curv)) /\
    zlen ls = zlen ix /\
    get ls i = Some lab /\ get ix i = Some j /\ get cloud j = Some pt /\ q = xyz A pt.
Proof.
  intros Ho H. apply callback_inv in H. destruct H as [rings [ds [Hr [Hm [_ [He [Hs _]]]]]]].
  exists rings. split; auto. intros lab q Hq.
  assert (Hd : exists d, In d ds /\
     In q (map (xyz A) (if label_eqb lab Edge then c_edge A d else c_surface A d))).
  { destruct Hq as [[-> Hq]|[-> Hq]]; simpl.
    - rewrite He, concat_map_map in Hq. apply in_concat in Hq. destruct Hq as [l [Hl Hq]].
      apply in_map_iff in Hl. destruct Hl as [d [<- Hd]]. eauto.
    - rewrite Hs, concat_map_map in Hq. apply in_concat in Hq. destruct Hq as [l [Hl Hq]].
      apply in_map_iff in Hl. destruct Hl as [d [<- Hd]]. eauto. }
  destruct Hd as [d [Hd Hqd]].
  destruct (Forall2_In_r _ _ _ _ (parts_of _ _ Hm) Hd) as [[k ix] [Hk Hpart]].
  assert (Hk' : In (k, ix) (remove_sparse_rings rings (p_padding A P + 1))).
  { eapply Permutation_in; [apply Permutation_sym, Ho|exact Hk]. }
  apply remove_sparse_spec in Hk'. destruct Hk' as [Hk1 Hk2]. simpl in Hk2.
  destruct Hpart as [[_ ->]|[ls [curv [Hl [HL [Pe [Ps Pc]]]]]]].
  { destruct (label_eqb lab Edge) in Hqd; destruct Hqd. }
  simpl snd in *.
  assert (Hc : In q (coords A cloud (picked ls ix lab))).
  { destruct Hq as [[-> _]|[-> _]]; simpl in Hqd; congruence. }
  unfold coords in Hc. apply in_flat_map in Hc. destruct Hc as [j [Hj Hq']].
  apply picked_In in Hj. destruct Hj as [i [Hi1 Hi2]].
  destruct (get cloud j) as [pt|] eqn:Eg; [|destruct Hq'].
  destruct Hq' as [Hq'|[]].
  exists k, ix, ls, curv, i, j, pt.
  repeat (split; [solve [auto]|]). auto.
Qed.

(** ** subset without duplicates *)
Lemma NoDup_app_inv {T} (l1 l2 : list T) : NoDup (l1 ++ l2) ->
  NoDup l1 /\ NoDup l2 /\ forall x, In x l1 -> ~ In x l2.
Proof.
  induction l1 as [|a l1 IH]; simpl; intros H.
  - repeat split; auto. constructor.
  - inversion H as [|? ? Hn Hd]; subst. destruct (IH Hd) as [I1 [I2 I3]].
    repeat split; auto.
    + constructor; auto. intros Hx. apply Hn. apply in_or_app. auto.
    + intros x [->|Hx]; auto. intros Hy. apply Hn. apply in_or_app. auto.
Qed.

Lemma parts_indices kept ds :
  Forall2 part kept ds -> NoDup (concat (map snd kept)) ->
  exists e s,
    map (xyz A) (concat (map (c_edge A) ds)) = coords A cloud e /\
    map (xyz A) (concat (map (c_surface A) ds)) = coords A cloud s /\
    NoDup (e ++ s) /\ incl (e ++ s) (concat (map snd kept)).
Proof.
  intros H. induction H as [|ring d kept ds Hp _ IH]; intros Hnd.
  - exists [], []. repeat split; auto. intros x [].
  - simpl in Hnd.
    destruct (NoDup_app_inv _ _ Hnd) as [Hnd1 [Hnd2 Hdis]].
    destruct (IH Hnd2) as [e [s [He [Hs [Hn Hi]]]]].
    assert (Hone : exists e1 s1, map (xyz A) (c_edge A d) = coords A cloud e1 /\
       map (xyz A) (c_surface A d) = coords A cloud s1 /\ NoDup (e1 ++ s1) /\
       incl (e1 ++ s1) (snd ring)).
    { destruct Hp as [[_ ->]|[ls [curv [_ [_ [Pe [Ps _]]]]]]].
      - exists [], []. repeat split; auto; [constructor|intros x []].
      - exists (picked ls (snd ring) Edge), (picked ls (snd ring) Surface).
        repeat split; auto; [apply picked_NoDup; auto|].
        intros x Hx. apply in_app_or in Hx. destruct Hx as [Hx|Hx]; eapply picked_incl; eauto. }
    destruct Hone as [e1 [s1 [He1 [Hs1 [Hn1 Hi1]]]]].
    exists (e1 ++ e), (s1 ++ s). simpl. rewrite !map_app, !coords_app, He1, Hs1, He, Hs.
    split; auto. split; auto.
    assert (HP : Permutation ((e1 ++ s1) ++ (e ++ s)) ((e1 ++ e) ++ s1 ++ s)).
    { rewrite <- !app_assoc. apply Permutation_app_head. rewrite !app_assoc.
      apply Permutation_app_tail. apply Permutation_app_comm. }
    split.
    + eapply Permutation_NoDup; [exact HP|]. apply NoDup_app_intro; auto.
      intros x Hx Hy. apply Hi1 in Hx. apply Hi in Hy. eapply Hdis; eauto.
    + intros x Hx. apply Permutation_sym in HP. apply (Permutation_in _ HP) in Hx.
      apply in_or_app. apply in_app_or in Hx. destruct Hx as [Hx|Hx]; [left; apply Hi1; auto|right; apply Hi; auto].
Qed.

Lemma kept_NoDup ord rings :
  valid_order ord -> valid_sort srt -> extract_rings A srt cloud = Ok rings ->
  NoDup (concat (map snd (ord (remove_sparse_rings rings (p_padding A P + 1))))).
Proof.
  intros Ho Hv Hr. pose proof (extract_rings_spec A srt cloud rings Hv Hr) as [R1 [_ R3]].
  apply (rings_concat_NoDup A cloud).
  - eapply Permutation_NoDup; [apply Permutation_map, Ho|].
    unfold remove_sparse_rings. apply NoDup_map_filter. auto.
  - intros k ix Hi. apply (Permutation_in _ (Permutation_sym (Ho _))) in Hi.
    apply remove_sparse_spec in Hi. destruct Hi as [Hi _].
    destruct (R3 k ix Hi) as [_ [H1 [H2 _]]]. split; auto. intros i. apply H2.
Qed.

Lemma subset_no_duplicates ord dense has_ring out :
  valid_order ord -> valid_sort srt ->
  callback A srt ord P dense has_ring cloud = Ok out ->
  exists e s, o_edge A out = coords A cloud e /\ o_surface A out = coords A cloud s /\
    NoDup (e ++ s) /\ forall k, In k (e ++ s) -> 0 <= k < zlen cloud.
Proof.
  intros Ho Hv H. apply callback_inv in H. destruct H as [rings [ds [Hr [Hm [_ [He [Hs _]]]]]]].
  destruct (parts_indices _ _ (parts_of _ _ Hm) (kept_NoDup ord rings Ho Hv Hr))
    as [e [s [H1 [H2 [H3 H4]]]]].
  exists e, s. rewrite He, Hs. repeat (split; [solve [auto]|]).
  intros k Hk. apply H4 in Hk. apply in_concat in Hk. destruct Hk as [ix [Hix Hk]].
  apply in_map_iff in Hix. destruct Hix as [[key ix'] [<- Hin]]. simpl in Hk.
  apply (Permutation_in _ (Permutation_sym (Ho _))) in Hin. apply remove_sparse_spec in Hin.
  destruct Hin as [Hin _]. eapply ring_size_le; eauto.
Qed.

(** ** isolation of rings *)
Lemma isolation ord dense has_ring out :
  callback A srt ord P dense has_ring cloud = Ok out ->
  exists rings parts, extract_rings A srt cloud = Ok rings /\
    Forall2 (fun ring part =>
        let m := mring ring in
        let processed := ring_labels A srt P m (nb_xy A m (p_rad A P)) in
        (processed = ThrowInvalid /\ part = ([], [], [])) \/
        (exists ls curv, processed = Ok (ls, curv) /\
           part = (coords A cloud (picked ls (snd ring) Edge),
                   coords A cloud (picked ls (snd ring) Surface),
                   colored_of A cloud ls (snd ring))))
      (ord (remove_sparse_rings rings (p_padding A P + 1))) parts /\
    o_edge A out = concat (map (fun t => fst (fst t)) parts) /\
    o_surface A out = concat (map (fun t => snd (fst t)) parts) /\
    o_colored A out = concat (map snd parts).
Proof.
  intros H. apply callback_inv in H. destruct H as [rings [ds [Hr [Hm [_ [He [Hs Hc]]]]]]].
  exists rings, (map (fun d => (map (xyz A) (c_edge A d), map (xyz A) (c_surface A d), c_colored A d)) ds).
  split; auto. split.
  - apply parts_of in Hm. clear He Hs Hc. induction Hm as [|ring d kept ds' Hp _ IH]; simpl; constructor; auto.
    destruct Hp as [[H1 ->]|[ls [curv [H1 [_ [H2 [H3 H4]]]]]]]; [left; auto|right].
    exists ls, curv. split; auto. rewrite H2, H3, H4. auto.
  - rewrite He, Hs, Hc, !map_map, !concat_map_map. simpl. auto.
Qed.

(** the callback succeeds as soon as every kept ring is labelled or rejected *)
Lemma callback_total ord dense has_ring rings :
  valid_order ord -> valid_sort srt -> 1 <= p_padding A P ->
  extract_rings A srt cloud = Ok rings ->
  (forall k ix, In (k, ix) rings -> p_padding A P + 1 <= zlen ix ->
     let m := {| m_cloud := cloud; m_indices := ix |} in
     ring_labels A srt P m (nb_xy A m (p_rad A P)) = ThrowInvalid \/
     exists ls curv, ring_labels A srt P m (nb_xy A m (p_rad A P)) = Ok (ls, curv) /\
       zlen ls = zlen ix /\ zlen curv = zlen ix) ->
  exists out, callback A srt ord P dense has_ring cloud = Ok out.
Proof.
  intros Ho Hv Hp Hr H.
  assert (Hds : exists ds, mapM (ring_step A srt P cloud (no_clouds A))
     (ord (remove_sparse_rings rings (p_padding A P + 1))) = Ok ds).
  { apply mapM_ok. intros [k ix] Hi.
    apply (Permutation_in _ (Permutation_sym (Ho _))) in Hi. apply remove_sparse_spec in Hi.
    destruct Hi as [Hi Hsz]. simpl in Hsz. apply ring_step_total; simpl.
    - lia.
    - eapply ring_size_le; eauto.
    - eapply H; eauto. }
  destruct Hds as [ds Hds].
  destruct (callback_intro A srt P ord dense has_ring cloud rings ds Hr Hds) as [out [Hout _]]. eauto.
Qed.

(** ** independence of the ring order *)
Lemma order_independent ord1 ord2 dense has_ring out1 :
  valid_order ord1 -> valid_order ord2 ->
  callback A srt ord1 P dense has_ring cloud = Ok out1 ->
  exists out2, callback A srt ord2 P dense has_ring cloud = Ok out2 /\
    Permutation (o_edge A out1) (o_edge A out2) /\
    Permutation (o_surface A out1) (o_surface A out2) /\
    Permutation (o_colored A out1) (o_colored A out2) /\
    o_shutdown A out1 = o_shutdown A out2.
Proof.
  intros H1 H2 H. apply callback_inv in H. destruct H as [rings [ds [Hr [Hm [Hsd [He [Hs Hc]]]]]]].
  assert (HP : Permutation (ord1 (remove_sparse_rings rings (p_padding A P + 1)))
                           (ord2 (remove_sparse_rings rings (p_padding A P + 1)))).
  { eapply Permutation_trans; [apply Permutation_sym, H1|apply H2]. }
  apply mapM_Forall2 in Hm. destruct (Forall2_perm _ _ _ _ Hm HP) as [ds2 [Hm2 HPd]].
  apply mapM_Forall2 in Hm2.
  destruct (callback_intro A srt P ord2 dense has_ring cloud rings ds2 Hr Hm2)
    as [out2 [Hout [Hsd2 [He2 [Hs2 Hc2]]]]].
  exists out2. split; auto. rewrite He, He2, Hs, Hs2, Hc, Hc2, Hsd, Hsd2.
  repeat split; try apply Permutation_map; apply concat_perm; apply Permutation_map; auto.
Qed.

End Pipe.

(** ** published features are clean *)
Lemma features_clean A srt (P : params A) cloud ord dense has_ring out :
  valid_sort srt -> valid_order ord -> valid_params A P ->
  zlen cloud + p_padding A P + 2 < 2 ^ 31 ->
  callback A srt ord P dense has_ring cloud = Ok out ->
  forall lab q,
    (lab = Edge /\ In q (o_edge A out)) \/ (lab = Surface /\ In q (o_surface A out)) ->
    exists rings k ix i j pt curv v ranges,
      extract_rings A srt cloud = Ok rings /\ In (k, ix) rings /\
      get ix i = Some j /\ get cloud j = Some pt /\ q = xyz A pt /\
      let m := {| m_cloud := cloud; m_indices := ix |} in
      (let r := xy_norm A (f2d A (px A pt)) (f2d A (py A pt)) in
       d_leb A (p_min A P) r = true /\ d_leb A r (p_max A P) = true) /\
      ~ shadowed A (nb_xy A m (p_rad A P)) (range_at A m) (p_padding A P) (p_distance A P) (zlen ix) i /\
      range_interval A m 0 (zlen ix) = Ok ranges /\
      (1 <= i < zlen ix - 1 -> ~ pb_at A (p_ratio A P) ranges i) /\
      calc_curvature A ranges (p_padding A P) = Ok curv /\ get curv i = Some v /\
      (if label_eqb lab Edge then d_leb A (p_edge A P) v = true else d_leb A v (p_surface A P) = true).
Proof.
  intros Hv Ho Hval Hb H lab q Hq.
  assert (Hpad : 0 < p_padding A P) by apply Hval.
  destruct (feature_origin A srt P cloud ord dense has_ring out Ho H) as [rings [Hr Hf]].
  destruct (Hf lab q Hq) as [k [ix [ls [curv [i [j [pt [Hin [Hsz [Hrl [Hlen [Gl [Gi [Gc Eq]]]]]]]]]]]]]].
  destruct (ring_size_le A srt cloud rings k ix Hr Hv Hin) as [Hle _].
  cbv zeta in Hrl.
  set (m := {| m_cloud := cloud; m_indices := ix |}) in *.
  assert (Hms : m_size A m = zlen ix) by reflexivity.
  apply ring_labels_spec in Hrl; try lia.
  destruct Hrl as [_ [_ [[ranges [R1 R2]] [_ [He Hs]]]]].
  rewrite Hms in *.
  assert (Hcl : clean_at A P m i /\ exists v, get curv i = Some v /\
     (if label_eqb lab Edge then d_leb A (p_edge A P) v = true else d_leb A v (p_surface A P) = true)).
  { destruct Hq as [[-> _]|[-> _]]; simpl; [apply (He i Gl)|apply (Hs i Gl)]. }
  destruct Hcl as [[[rr [C1 C2]] [C3 C4]] [v [Hv1 Hv2]]].
  exists rings, k, ix, i, j, pt, curv, v, ranges.
  repeat (split; [solve [auto]|]).
  split.
  { assert (Hm : m_at A m i = Ok pt).
    { unfold m_at. apply vat_get in Gi. cbn [m_indices m]. rewrite Gi. cbn [bind].
      apply vat_get. exact Gc. }
    unfold range_at in C1. rewrite Hm in C1. cbn [bind] in C1. inversion C1 as [C1e]. cbv zeta. rewrite C1e. exact C2. }
  repeat (split; [solve [auto]|]). auto.
Qed.
