(** The extraction callback on two clouds whose points correspond: same rings, same horizontal
    distances, same angles between points, same order around the sensor. *)
From Coq Require Import List ZArith Bool Lia Permutation Sorting.Sorted FunctionalExtensionality.
From Verif Require Import Base Arith ExtractModel Spec SpecMount FillProofs LabelProofs RingMapProofs CallbackProofs OrderProofs.
Import ListNotations.
Open Scope Z_scope.

Lemma alike_refl_bind {X Y Z'} (R : Y -> Z' -> Prop) (m : outcome X) f g :
  (forall x, alike R (f x) (g x)) -> alike R (bind m f) (bind m g).
Proof. destruct m; cbn [bind alike]; auto. Qed.

Lemma alike_bind {X X' Y Z'} (R : X -> X' -> Prop) (R' : Y -> Z' -> Prop) m m' f g :
  alike R m m' -> (forall x y, R x y -> alike R' (f x) (g y)) -> alike R' (bind m f) (bind m' g).
Proof. destruct m, m'; cbn [bind alike]; intros; try contradiction; auto. Qed.

Lemma alike_mapM {I X Y} (R : X -> Y -> Prop) (f : I -> outcome X) (g : I -> outcome Y) l :
  (forall i, alike R (f i) (g i)) -> alike (Forall2 R) (mapM f l) (mapM g l).
Proof.
  intros H. induction l as [|i l IH]; cbn [mapM]; [constructor|].
  eapply alike_bind; [apply H|]. intros x y Hxy. eapply alike_bind; [apply IH|]. intros; constructor; auto.
Qed.

Lemma alike_assert {X Y} (R : X -> Y -> Prop) b m m' : alike R m m' -> alike R (assert_ b m) (assert_ b m').
Proof. destruct b; cbn [assert_ alike]; auto. Qed.

Lemma alike_eq {X} (a b : outcome X) : alike eq a b -> a = b.
Proof. destruct a, b; cbn [alike]; intros; try contradiction; congruence. Qed.

Lemma get_Forall2 {X Y} (R : X -> Y -> Prop) l l' i : Forall2 R l l' ->
  match get l i, get l' i with Some x, Some y => R x y | None, None => True | _, _ => False end.
Proof.
  intros H. unfold get. destruct (i <? 0); auto. generalize (Z.to_nat i). clear i.
  induction H; intros [|n]; cbn [nth_error]; auto. apply IHForall2.
Qed.

Section Related.
Variable A : arith.
Variable R : point A -> point A -> Prop.
Hypothesis Rring : forall p q, R p q -> pring A p = pring A q.
Hypothesis Rnorm : forall p q, R p q ->
  xy_norm A (f2d A (px A p)) (f2d A (py A p)) = xy_norm A (f2d A (px A q)) (f2d A (py A q)).
Hypothesis Rangle : forall p q p' q', R p q -> R p' q' ->
  calc_radian A (f2d A (px A p)) (f2d A (py A p)) (f2d A (px A p')) (f2d A (py A p')) =
  calc_radian A (f2d A (px A q)) (f2d A (py A q)) (f2d A (px A q')) (f2d A (py A q')).
Variable Rc : F A * F A * F A -> F A * F A * F A -> Prop.
Hypothesis Rxyz : forall p q, R p q -> Rc (xyz A p) (xyz A q).

Variable c1 c2 : list (point A).
Hypothesis HR : Forall2 R c1 c2.

Lemma vat_related i : alike R (vat c1 i) (vat c2 i).
Proof.
  rewrite !vat_by_get. pose proof (get_Forall2 R c1 c2 i HR) as H.
  destruct (get c1 i), (get c2 i); try contradiction; exact H.
Qed.

Notation on1 ix := {| m_cloud := c1; m_indices := ix |}.
Notation on2 ix := {| m_cloud := c2; m_indices := ix |}.

Lemma m_at_related ix i : alike R (m_at A (on1 ix) i) (m_at A (on2 ix) i).
Proof. unfold m_at. cbn [m_indices m_cloud]. apply alike_refl_bind. intros k. apply vat_related. Qed.

Lemma range_related ix : range_at A (on1 ix) = range_at A (on2 ix).
Proof.
  apply functional_extensionality. intros i. apply alike_eq. unfold range_at.
  eapply alike_bind; [apply m_at_related|]. intros p q H. cbn [alike]. apply Rnorm. auto.
Qed.

Lemma nb_related ix thr : nb_xy A (on1 ix) thr = nb_xy A (on2 ix) thr.
Proof.
  unfold nb_xy, m_size. cbn [m_indices]. f_equal.
  apply functional_extensionality. intros i. apply functional_extensionality. intros j.
  destruct (check_index (zlen ix) i); cbn [bind]; auto. destruct (check_index (zlen ix) j); cbn [bind]; auto.
  apply alike_eq. eapply alike_bind; [apply m_at_related|]. intros p q H.
  eapply alike_bind; [apply m_at_related|]. intros p' q' H'. unfold is_neighbor_xy. rewrite (Rangle p q p' q') by auto.
  destruct (calc_radian _ _ _ _ _); cbn [bind alike]; auto.
Qed.

Lemma labels_related srt (P : params A) ix c :
  ring_labels A srt P (on1 ix) c = ring_labels A srt P (on2 ix) c.
Proof.
  assert (E6 : range_interval A (on1 ix) = range_interval A (on2 ix)).
  { apply functional_extensionality. intros i. apply functional_extensionality. intros j.
    unfold range_interval. rewrite range_related. auto. }
  assert (E7 : forall p e s cv rad r, assign_block A srt p e s cv (on1 ix) rad r = assign_block A srt p e s cv (on2 ix) rad r).
  { intros. apply functional_extensionality. intros ls. apply functional_extensionality. intros j.
    unfold assign_block. destruct (ir_begin A r j) as [b| | | | |]; cbn [bind]; auto.
    destruct (ir_finish A r j) as [f| | | | |]; cbn [bind]; auto.
    destruct (vslice ls b f) as [lv| | | | |]; cbn [bind]; auto.
    destruct (vslice cv b f) as [cw| | | | |]; cbn [bind]; auto.
    unfold m_slice. cbn [m_indices m_cloud].
    destruct (vslice ix b f) as [jx| | | | |]; cbn [bind]; auto.
    unfold make_nb_xy, m_size. cbn [m_indices]. rewrite nb_related. auto. }
  unfold ring_labels, assign_label, label_parallel_beam, m_size. cbn [m_indices].
  rewrite E6, range_related. cbv zeta.
  destruct (range_interval A _ 0 (zlen ix)) as [rg| | | | |]; cbn [bind]; auto.
  destruct (calc_curvature A rg (p_padding A P)) as [cv| | | | |]; cbn [bind]; auto.
  destruct (padded_index_range (zlen ix) (p_blocks A P) (p_padding A P)) as [r| | | | |]; cbn [bind]; auto.
  rewrite E7. auto.
Qed.

(** the clouds under construction *)
Definition Rp (p q : point A) : Prop := Rc (xyz A p) (xyz A q).
Definition Rcol (a b : colored A) : Prop := Rc (cx A a, cy A a, cz A a) (cx A b, cy A b, cz A b) /\ crgb A a = crgb A b.
Definition Rst (s t : clouds A) : Prop :=
  Forall2 Rp (c_edge A s) (c_edge A t) /\ Forall2 Rp (c_surface A s) (c_surface A t) /\
  Forall2 Rcol (c_colored A s) (c_colored A t).

Lemma len2 {X Y} (S : X -> Y -> Prop) l l' : Forall2 S l l' -> zlen l = zlen l'.
Proof. unfold zlen. induction 1; cbn [length]; lia. Qed.

Lemma append_related ps qs cs : Forall2 R ps qs -> alike (Forall2 Rp) (append_xyzir A ps cs) (append_xyzir A qs cs).
Proof.
  intros H. unfold append_xyzir. rewrite (len2 _ _ _ H). apply alike_assert. cbn [alike].
  revert cs. induction H as [|p q ps qs Hpq H IH]; intros [|c cs]; cbn [combine map]; constructor; auto.
  exact (Rxyz p q Hpq).
Qed.

Lemma color_related ix ls : alike (Forall2 Rcol) (color_points_by_label A (on1 ix) ls) (color_points_by_label A (on2 ix) ls).
Proof.
  unfold color_points_by_label, m_size. cbn [m_indices]. apply alike_assert. apply alike_mapM. intros il.
  eapply alike_bind; [apply m_at_related|]. intros p q H. cbn [alike]. split; [exact (Rxyz p q H)|reflexivity].
Qed.

Lemma try_related srt P ix c st1 st2 : Rst st1 st2 ->
  Rst (fst (try_ring A srt P (on1 ix) c st1)) (fst (try_ring A srt P (on2 ix) c st2)) /\
  snd (try_ring A srt P (on1 ix) c st1) = snd (try_ring A srt P (on2 ix) c st2).
Proof.
  intros [S1 [S2 S3]]. unfold try_ring. rewrite labels_related.
  set (pre1 := bind (ring_labels A srt P (on2 ix) c) _). set (pre2 := bind (ring_labels A srt P (on2 ix) c) _).
  assert (HP : alike (fun a b => fst (fst a) = fst (fst b) /\ Forall2 Rp (snd (fst a)) (snd (fst b)) /\ Forall2 Rp (snd a) (snd b)) pre1 pre2).
  { subst pre1 pre2. apply alike_refl_bind. intros [ls cv]. unfold m_size. cbn [m_indices]. apply alike_assert.
    eapply alike_bind; [apply alike_mapM; intros; apply m_at_related|]. intros e1 e2 He.
    apply alike_refl_bind. intros ec.
    eapply alike_bind; [apply alike_mapM; intros; apply m_at_related|]. intros s1 s2 Hs.
    apply alike_refl_bind. intros sc.
    eapply alike_bind; [apply append_related; eauto|]. intros a1 a2 Ha.
    eapply alike_bind; [apply append_related; eauto|]. intros b1 b2 Hb.
    cbn [alike fst snd]. auto. }
  destruct pre1 as [[[l1 a1] b1]| | | | |], pre2 as [[[l2 a2] b2]| | | | |]; cbn [alike] in HP; try contradiction;
    try (cbn [fst snd bind]; repeat split; auto; fail).
  cbn [fst snd] in HP. destruct HP as [-> [Ha Hb]].
  pose proof (color_related ix l2) as HC.
  destruct (color_points_by_label A (on1 ix) l2) as [k1| | | | |], (color_points_by_label A (on2 ix) l2) as [k2| | | | |];
    cbn [alike] in HC; try contradiction; cbn [fst snd bind]; (split; [|reflexivity]);
    unfold Rst; cbn [c_edge c_surface c_colored]; repeat split; auto; apply Forall2_app; auto.
Qed.

Lemma step_related srt P st1 st2 ring : Rst st1 st2 ->
  alike Rst (ring_step A srt P c1 st1 ring) (ring_step A srt P c2 st2 ring).
Proof.
  intros HS. unfold ring_step. unfold make_nb_xy, m_size. cbn [m_indices]. rewrite nb_related.
  apply alike_refl_bind. intros c. destruct (try_related srt P (snd ring) c st1 st2 HS) as [H1 H2].
  destruct (try_ring A srt P (on1 (snd ring)) c st1) as [s1 r1], (try_ring A srt P (on2 (snd ring)) c st2) as [s2 r2].
  cbn [fst snd] in *. subst r2. destruct r1; cbn [alike bind]; auto.
Qed.

Lemma fold_related srt P rings : forall st1 st2, Rst st1 st2 ->
  alike Rst (foldM (ring_step A srt P c1) st1 rings) (foldM (ring_step A srt P c2) st2 rings).
Proof.
  induction rings as [|r rings IH]; intros st1 st2 HS; cbn [foldM]; [exact HS|].
  eapply alike_bind; [apply step_related; eauto|]. intros; apply IH; auto.
Qed.

(** ** Rings *)
Lemma points_related : make_point_indices A c1 = make_point_indices A c2.
Proof.
  unfold make_point_indices. assert (HL : length c1 = length c2) by (clear - HR; induction HR; cbn; auto).
  rewrite HL. generalize (@nil (Z * list Z)). generalize (zrange (length c2)). clear HL.
  induction HR as [|p q l l' Hpq H IH]; intros zs acc; destruct zs as [|z zs]; cbn [combine fold_left fst snd]; auto.
  rewrite (Rring p q Hpq). apply IH. auto.
Qed.

Variable srt : sorter.
Hypothesis Hv : valid_sort srt.

(** a sort without ties does not depend on anything but the comparisons made *)
Lemma sort_unique lt1 lt2 l : NoDup l ->
  (forall a b, In a l -> In b l -> lt1 a b = lt2 a b) ->
  (forall a b, In a l -> In b l -> a <> b -> lt1 a b = true \/ lt1 b a = true) ->
  std_sort srt lt1 l = std_sort srt lt2 l.
Proof.
  intros Hn He Ht.
  assert (SW : strict_weak_order lt1 l <-> strict_weak_order lt2 l).
  { unfold strict_weak_order. split; intros [H1 [H2 H3]]; (split; [|split]).
    - intros a Ha. rewrite <- He; auto.
    - intros a b d Ha Hb Hd. rewrite <- !He; auto. apply H2; auto.
    - intros a b d Ha Hb Hd. rewrite <- !He; auto. apply H3; auto.
    - intros a Ha. rewrite He; auto.
    - intros a b d Ha Hb Hd. rewrite !He; auto. apply H2; auto.
    - intros a b d Ha Hb Hd. rewrite !He; auto. apply H3; auto. }
  unfold std_sort. destruct (swo_on lt1 l) eqn:E1.
  - apply swo_on_spec in E1. pose proof (proj1 SW E1) as E2. rewrite (proj2 (swo_on_spec lt2 l) E2). f_equal.
    destruct (Hv lt1 l E1) as [P1 S1], (Hv lt2 l E2) as [P2 S2].
    assert (I1 : forall x, In x (srt lt1 l) -> In x l) by (intros x; apply Permutation_in, Permutation_sym; auto).
    assert (I2 : forall x, In x (srt lt2 l) -> In x l) by (intros x; apply Permutation_in, Permutation_sym; auto).
    assert (Q : forall m, NoDup m -> (forall x, In x m -> In x l) ->
                ForallOrdPairs (fun a b => lt1 a b = true \/ lt1 b a = true) m).
    { intros m Hm Hi. induction Hm as [|x m Hx Hm IH]; constructor.
      - apply Forall_forall. intros y Hy. apply Ht; [apply Hi; simpl; auto|apply Hi; simpl; auto|]. intros ->. auto.
      - apply IH. intros; apply Hi; simpl; auto. }
    apply (strict_unique _ lt1).
    + intros a b Ha Hb L1 L2. destruct E1 as [Irr [Tr _]].
      pose proof (Tr a b a (I1 _ Ha) (I1 _ Hb) (I1 _ Ha) L1 L2) as L. rewrite Irr in L by auto. discriminate.
    + apply sorted_strict; auto. apply Q; auto. eapply Permutation_NoDup; eauto.
    + apply sorted_strict; [apply Q; auto; eapply Permutation_NoDup; eauto|].
      clear - S2 He I2. induction S2 as [|x m S IH F]; constructor.
      * apply IH. intros; apply I2; simpl; auto.
      * rewrite Forall_forall in *. intros y Hy. rewrite He by (apply I2; simpl; auto). auto.
    + eapply Permutation_trans; [apply Permutation_sym; eauto|auto].
  - destruct (swo_on lt2 l) eqn:E2; auto. apply swo_on_spec in E2. apply SW in E2. apply swo_on_spec in E2. congruence.
Qed.

Lemma mapM_ext {X Y} (f g : X -> outcome Y) l : (forall x, In x l -> f x = g x) -> mapM f l = mapM g l.
Proof.
  induction l as [|x l IH]; intros H; cbn [mapM]; auto. rewrite (H x) by (left; auto).
  rewrite IH by (intros; apply H; right; auto). auto.
Qed.

(** the same order around the sensor, ring by ring, and no two returns of a ring in one
    direction *)
Hypothesis Horder : forall i j p q p' q',
  get c1 i = Some p -> get c2 i = Some q -> get c1 j = Some p' -> get c2 j = Some q' ->
  pring A p = pring A p' ->
  polar_less A (px A p) (py A p) (px A p') (py A p') = polar_less A (px A q) (py A q) (px A q') (py A q').
Hypothesis Hapart : forall i j p q, i <> j -> get c1 i = Some p -> get c1 j = Some q -> pring A p = pring A q ->
    polar_less A (px A p) (py A p) (px A q) (py A q) = true \/
    polar_less A (px A q) (py A q) (px A p) (py A p) = true.

Lemma rings_related : extract_rings A srt c1 = extract_rings A srt c2.
Proof.
  unfold extract_rings, sort_each_ring. rewrite <- points_related. apply mapM_ext. intros [k ix] Hi. cbn [fst snd].
  destruct (make_point_indices_spec A c1) as [_ [_ M3]]. destruct (M3 k ix Hi) as [_ [Hn [_ Hin]]].
  unfold sort_by_atan2. rewrite (sort_unique (polar_less_ix A c1) (polar_less_ix A c2) ix); auto.
  - intros i j Ii Ij. apply Hin in Ii, Ij. destruct Ii as [p [Gp Kp]], Ij as [p' [Gp' Kp']].
    pose proof (get_bounds _ _ _ Gp). pose proof (get_bounds _ _ _ Gp').
    rewrite !pless_ix by lia.
    pose proof (get_Forall2 R c1 c2 i HR) as F1. pose proof (get_Forall2 R c1 c2 j HR) as F2. rewrite Gp in *. rewrite Gp' in *.
    destruct (get c2 i) as [q|] eqn:Gq; [|contradiction]. destruct (get c2 j) as [q'|] eqn:Gq'; [|contradiction].
    cbn [pless]. apply (Horder i j); auto. congruence.
  - intros i j Ii Ij Hne. apply Hin in Ii, Ij. destruct Ii as [p [Gp Kp]], Ij as [p' [Gp' Kp']].
    pose proof (get_bounds _ _ _ Gp). pose proof (get_bounds _ _ _ Gp').
    rewrite !pless_ix by lia. rewrite Gp, Gp'. cbn [pless]. apply (Hapart i j); auto. congruence.
Qed.

Theorem callback_of_rings ord P dense has_ring :
  extract_rings A srt c1 = extract_rings A srt c2 ->
  alike (clouds_correspond A Rc) (callback A srt ord P dense has_ring c1) (callback A srt ord P dense has_ring c2).
Proof.
  intros E. unfold callback. rewrite E. apply alike_refl_bind. intros rings.
  eapply alike_bind; [apply fold_related|].
  - repeat split; constructor.
  - intros s1 s2 [H1 [H2 H3]]. cbn [alike]. unfold clouds_correspond. cbn [o_edge o_surface o_colored o_shutdown].
    assert (G : forall l l', Forall2 Rp l l' -> Forall2 Rc (map (xyz A) l) (map (xyz A) l')).
    { induction 1; cbn [map]; constructor; auto. }
    repeat split; auto.
Qed.

Theorem callback_related ord P dense has_ring :
  alike (clouds_correspond A Rc) (callback A srt ord P dense has_ring c1) (callback A srt ord P dense has_ring c2).
Proof. apply callback_of_rings. apply rings_related. Qed.
End Related.
