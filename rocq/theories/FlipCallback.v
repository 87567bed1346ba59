(** The callback on a scan and on its mirror image. *)
From Coq Require Import List ZArith Reals Bool Lia Lra Psatz Permutation Sorting.Sorted.
From Verif Require Import Base Arith ExtractModel Spec SpecReal SpecMount SpecFlip FillProofs LabelProofs NeighborProofs
  RingProofs RingMapProofs ConvProofs CurvatureProofs CallbackProofs PipelineProofs SoftProofs OrderProofs AngleProofs
  LibProofs MiscProofs EkfProofs RelatedProofs MountProofs FlipProofs.
Import ListNotations.
Open Scope Z_scope.

(** ** Sorting backwards *)
Lemma sort_backwards srt lt1 lt2 (l : list Z) s : valid_sort srt -> NoDup l ->
  (forall a b, In a l -> In b l -> lt2 a b = lt1 b a) ->
  (forall a b, In a l -> In b l -> a <> b -> lt1 a b = true \/ lt1 b a = true) ->
  strict_weak_order lt1 l -> std_sort srt lt1 l = Ok s -> std_sort srt lt2 l = Ok (rev s).
Proof.
  intros Hv Hn He Ht W1 H.
  assert (W2 : strict_weak_order lt2 l).
  { destruct W1 as [H1 [H2 H3]]. split; [|split].
    - intros a Ha. rewrite He; auto.
    - intros a b d Ha Hb Hd. rewrite !He; auto. intros L1 L2. apply (H2 d b a); auto.
    - intros a b d Ha Hb Hd. rewrite !He; auto. intros L1 L2 L3 L4.
      destruct (H3 a b d Ha Hb Hd L2 L1 L4 L3). auto. }
  apply std_sort_ok in H. destruct H as [_ ->]. unfold std_sort. rewrite (proj2 (swo_on_spec lt2 l) W2). f_equal.
  destruct (Hv lt1 l W1) as [P1 S1], (Hv lt2 l W2) as [P2 S2].
  assert (I1 : forall x, In x (srt lt1 l) -> In x l) by (intros x; apply Permutation_in, Permutation_sym; auto).
  assert (I2 : forall x, In x (srt lt2 l) -> In x l) by (intros x; apply Permutation_in, Permutation_sym; auto).
  assert (Q : forall lt m, (forall a b, In a l -> In b l -> a <> b -> lt a b = true \/ lt b a = true) ->
     NoDup m -> (forall x, In x m -> In x l) -> ForallOrdPairs (fun a b => lt a b = true \/ lt b a = true) m).
  { intros lt m Hlt Hm Hi. induction Hm as [|x m Hx Hm IH]; constructor.
    - apply Forall_forall. intros y Hy. apply Hlt; [apply Hi; simpl; auto|apply Hi; simpl; auto|]. intros ->. auto.
    - apply IH. intros; apply Hi; simpl; auto. }
  assert (Ht2 : forall a b, In a l -> In b l -> a <> b -> lt2 a b = true \/ lt2 b a = true).
  { intros a b Ha Hb Hab. rewrite !He by auto. destruct (Ht a b Ha Hb Hab); auto. }
  apply (strict_unique _ lt2).
  - intros a b Ha Hb L1 L2. destruct W2 as [Irr [Tr _]].
    pose proof (Tr a b a (I2 _ Ha) (I2 _ Hb) (I2 _ Ha) L1 L2) as L. rewrite Irr in L by auto. discriminate.
  - apply sorted_strict; auto. apply Q; auto. eapply Permutation_NoDup; eauto.
  - assert (S1' : StronglySorted (fun a b => lt1 a b = true) (srt lt1 l)).
    { apply sorted_strict; auto. apply Q; auto. eapply Permutation_NoDup; eauto. }
    clear - S1' He I1. revert S1' I1. generalize (srt lt1 l). intros m S I.
    assert (G : forall m1 m2, StronglySorted (fun a b => lt2 a b = true) m1 -> StronglySorted (fun a b => lt2 a b = true) m2 ->
      (forall a b, In a m1 -> In b m2 -> lt2 a b = true) -> StronglySorted (fun a b => lt2 a b = true) (m1 ++ m2)).
    { induction m1 as [|x m1 IH]; intros m2 A1 A2 A3; cbn [app]; auto. inversion A1; subst. constructor.
      - apply IH; auto. intros; apply A3; simpl; auto.
      - apply Forall_app. split; auto. apply Forall_forall. intros y Hy. apply A3; simpl; auto. }
    induction S as [|x m S IH F]; cbn [rev]; [constructor|]. apply G.
    + apply IH. intros; apply I; simpl; auto.
    + repeat constructor.
    + intros a b Ha [<-|[]]. apply in_rev in Ha. rewrite He; [|apply I; simpl; auto|apply I; simpl; auto].
      rewrite Forall_forall in F. auto.
  - rewrite <- Permutation_rev, <- P2. auto.
Qed.

(** ** The mirror *)
Section Mirror.
Open Scope R_scope.
Definition is_mirror (p q : point exact) : Prop := q = mirrored_return p.

Lemma mirror_norm p q : is_mirror p q ->
  xy_norm exact (f2d exact (px exact p)) (f2d exact (py exact p)) = xy_norm exact (f2d exact (px exact q)) (f2d exact (py exact q)).
Proof. intros ->. unfold xy_norm, mirrored_return. cbn. f_equal. ring. Qed.

Lemma mirror_angle p q p' q' : is_mirror p q -> is_mirror p' q' ->
  calc_radian exact (f2d exact (px exact p)) (f2d exact (py exact p)) (f2d exact (px exact p')) (f2d exact (py exact p')) =
  calc_radian exact (f2d exact (px exact q)) (f2d exact (py exact q)) (f2d exact (px exact q')) (f2d exact (py exact q')).
Proof.
  intros H H'. unfold calc_radian. rewrite <- (mirror_norm p q H), <- (mirror_norm p' q' H').
  destruct (d_eqb exact _ _ && d_eqb exact _ _); auto. f_equal. f_equal. f_equal.
  rewrite H, H'. unfold mirrored_return. cbn. ring.
Qed.

Lemma mirror_rel cloud : Forall2 is_mirror cloud (map mirrored_return cloud).
Proof. induction cloud; cbn [map]; constructor; auto. reflexivity. Qed.

Lemma azimuth_mirrored p phi : azimuth p phi -> phi < PI -> azimuth (mirrored_return p) (- phi).
Proof.
  intros [Hr [d [Hd [Hx Hy]]]] Hb. split; [lra|]. exists d. split; auto. unfold mirrored_return. cbn [px py].
  rewrite cos_neg, sin_neg. cbn in *. split; [auto|]. rewrite Hy. ring.
Qed.
End Mirror.

Section Cloud.
Variable srt : sorter.
Hypothesis Hsrt : valid_sort srt.
Variable cloud : list (point exact).
Hypothesis Haz : forall p, In p cloud -> exists phi, azimuth p phi /\ (phi < PI)%R.
Hypothesis Hapart : forall i j p q phi psi, i <> j -> get cloud i = Some p -> get cloud j = Some q ->
  pring exact p = pring exact q -> azimuth p phi -> azimuth q psi -> phi <> psi.
Notation cloud' := (map mirrored_return cloud).

(** the azimuth of the return with index [i] *)
Definition az (i : Z) : R := match get cloud i with Some p => atan2 (py exact p) (px exact p) | None => 0%R end.

Lemma az_at i p : get cloud i = Some p -> azimuth p (az i) /\ (az i < PI)%R.
Proof.
  intros H. unfold az. rewrite H. destruct (Haz p (get_In _ _ _ H)) as [phi [A1 A2]]. rewrite (azimuth_atan2 p phi A1). auto.
Qed.

Lemma less_az i j p q : get cloud i = Some p -> get cloud j = Some q -> pring exact p = pring exact q ->
  polar_less_ix exact cloud i j = Rltb (az i) (az j) /\ polar_less_ix exact cloud' i j = Rltb (az j) (az i).
Proof.
  intros Hi Hj Hk. pose proof (get_bounds _ _ _ Hi) as Bi. pose proof (get_bounds _ _ _ Hj) as Bj.
  rewrite !pless_ix by lia. rewrite !get_map, Hi, Hj. cbn [option_map pless].
  destruct (az_at i p Hi) as [A1 A2], (az_at j q Hj) as [B1 B2].
  destruct (Z.eq_dec i j) as [<-|Hij].
  - assert (q = p) by congruence. subst q.
    assert (E : Rltb (az i) (az i) = false) by (unfold Rltb; destruct (Rlt_dec _ _); [exfalso; lra|auto]).
    rewrite E. split; apply less_self; apply Reqb_spec; auto.
  - assert (Hne : az i <> az j) by (apply (Hapart i j p q); auto). split.
    + apply less_azimuth; auto.
    + rewrite (less_azimuth (mirrored_return p) (mirrored_return q) (- az i) (- az j));
        [|apply azimuth_mirrored; auto|apply azimuth_mirrored; auto|lra].
      unfold Rltb. destruct (Rlt_dec (- az i) (- az j)), (Rlt_dec (az j) (az i)); auto; exfalso; lra.
Qed.

Lemma rings_mirrored : exists rings, extract_rings exact srt cloud = Ok rings /\
  extract_rings exact srt cloud' = Ok (map (fun r => (fst r, rev (snd r))) rings).
Proof.
  unfold extract_rings.
  assert (E : make_point_indices exact cloud' = make_point_indices exact cloud).
  { symmetry. apply (points_related exact is_mirror); [intros p q ->; reflexivity|apply mirror_rel]. }
  rewrite E. destruct (make_point_indices_spec exact cloud) as [_ [_ M]].
  revert M. generalize (make_point_indices exact cloud). intros l M.
  assert (G : forall l', (forall r, In r l' -> In r l) -> exists rings, sort_each_ring exact srt cloud l' = Ok rings /\
     sort_each_ring exact srt cloud' l' = Ok (map (fun r => (fst r, rev (snd r))) rings)).
  { induction l' as [|[k ix] l' IH]; intros Hi; [exists []; split; reflexivity|].
    destruct IH as [rings [R1 R2]]; [intros; apply Hi; right; auto|].
    destruct (M k ix) as [_ [Hn [_ Hin]]]; [apply Hi; left; auto|].
    assert (L : forall a b, In a ix -> In b ix -> polar_less_ix exact cloud a b = Rltb (az a) (az b) /\ polar_less_ix exact cloud' a b = Rltb (az b) (az a)).
    { intros a b Ha Hb. apply Hin in Ha, Hb. destruct Ha as [p [Ga Ka]], Hb as [q [Gb Kb]]. apply (less_az a b p q); auto. congruence. }
    assert (W : strict_weak_order (polar_less_ix exact cloud) ix).
    { destruct (swo_R (map az ix)) as [H1 [H2 H3]]. split; [|split].
      - intros a Ha. rewrite (proj1 (L a a Ha Ha)). apply H1. apply in_map; auto.
      - intros a b d Ha Hb Hd. rewrite (proj1 (L a b Ha Hb)), (proj1 (L b d Hb Hd)), (proj1 (L a d Ha Hd)). apply H2; apply in_map; auto.
      - intros a b d Ha Hb Hd. rewrite (proj1 (L a b Ha Hb)), (proj1 (L b d Hb Hd)), (proj1 (L a d Ha Hd)), (proj1 (L b a Hb Ha)), (proj1 (L d b Hd Hb)), (proj1 (L d a Hd Ha)).
        apply H3; apply in_map; auto. }
    assert (S : std_sort srt (polar_less_ix exact cloud) ix = Ok (srt (polar_less_ix exact cloud) ix)).
    { unfold std_sort. rewrite (proj2 (swo_on_spec _ ix) W). auto. }
    assert (S' : std_sort srt (polar_less_ix exact cloud') ix = Ok (rev (srt (polar_less_ix exact cloud) ix))).
    { apply (sort_backwards srt (polar_less_ix exact cloud)); auto.
      - intros a b Ha Hb. rewrite (proj1 (L b a Hb Ha)), (proj2 (L a b Ha Hb)). auto.
      - intros a b Ha Hb Hab. rewrite (proj1 (L b a Hb Ha)), (proj1 (L a b Ha Hb)).
        apply Hin in Ha, Hb. destruct Ha as [p [Ga Ka]], Hb as [q [Gb Kb]].
        destruct (az_at a p Ga) as [A1 _], (az_at b q Gb) as [B1 _].
        assert (Hne : az a <> az b) by (apply (Hapart a b p q); auto; congruence).
        unfold Rltb. destruct (Rlt_dec (az a) (az b)); auto. destruct (Rlt_dec (az b) (az a)); auto. exfalso. lra. }
    exists ((k, srt (polar_less_ix exact cloud) ix) :: rings). unfold sort_each_ring in *. cbn [mapM fst snd map].
    unfold sort_by_atan2 in *. rewrite S, S'. cbn [bind]. rewrite R1, R2. cbn [bind]. auto. }
  apply G. auto.
Qed.

(** ** One ring *)
Variable P : params exact.
Notation p := (p_padding exact P).
Notation N := (p_blocks exact P).
Hypothesis Hp : 1 <= p.
Hypothesis HN : 1 <= N.
Hypothesis Hsize : zlen cloud + p + 2 < 2 ^ 31.
Hypothesis Heven : forall k l, Permutation l (returns_of cloud k) -> around l -> 2 * p + N <= zlen l ->
  (N | zlen l - 2 * p) /\ bends_differ (Z.to_nat p) l.

Lemma boundary_exact n q j : 0 <= j <= N -> n = 2 * p + N * q -> 0 <= q -> n < 2 ^ 31 ->
  boundary exact {| ir_start := p; ir_end := n - p; ir_n := N |} j = Ok (p + j * q).
Proof.
  intros Hj Hn Hq Hs. unfold boundary. cbn [ir_start ir_end ir_n exact d_of_Z d_add d_mul d_sub d_div d_trunc].
  assert (E : (IZR p * (1 - IZR j / IZR N) + IZR (n - p) * IZR j / IZR N)%R = IZR (p + j * q)).
  { assert (IZR N <> 0%R) by (apply not_0_IZR; lia).
    replace (n - p) with (p + N * q) by lia. rewrite !plus_IZR, !mult_IZR. field. auto. }
  assert (B : 0 <= p + j * q < 2 ^ 31) by nia.
  assert (T : Rtrunc (IZR (p + j * q)) = p + j * q).
  { rewrite Rtrunc_nonneg by (apply IZR_le; lia).
    pose proof (base_Int_part (IZR (p + j * q))) as [I1 I2].
    apply le_IZR in I1.
    assert (H2 : (IZR (p + j * q - 1) < IZR (Int_part (IZR (p + j * q))))%R) by (rewrite minus_IZR; lra).
    apply lt_IZR in H2. lia. }
  rewrite E, T. rewrite (proj2 (Z.leb_le _ _)), (proj2 (Z.ltb_lt _ _)) by lia. auto.
Qed.

Lemma exact_orderable l : orderable exact l.
Proof.
  intros l' _. set (f := fun i => nth (Z.to_nat i) (l' : list R) 0%R).
  assert (L : forall a b, In a (zrange (length l')) -> In b (zrange (length l')) -> by_value exact l' a b = Rltb (f a) (f b)).
  { intros a b Ha Hb. apply zrange_In in Ha, Hb. unfold by_value, f.
    rewrite (nth_error_nth' l' (0%R : D exact)) by lia. rewrite (nth_error_nth' l' (0%R : D exact)) by lia. reflexivity. }
  destruct (swo_R (map f (zrange (length l')))) as [H1 [H2 H3]]. split; [|split].
  - intros a Ha. rewrite L by auto. apply H1. apply in_map; auto.
  - intros a b d Ha Hb Hd. rewrite !L by auto. apply H2; apply in_map; auto.
  - intros a b d Ha Hb Hd. rewrite !L by auto. apply H3; apply in_map; auto.
Qed.

Notation on jx := {| m_cloud := cloud; m_indices := jx |}.
Notation on' jx := {| m_cloud := cloud'; m_indices := jx |}.

Lemma labels_mirrored jx :
  ring_labels exact srt P (on' jx) (nb_xy exact (on' jx) (p_rad exact P)) =
  ring_labels exact srt P (on jx) (nb_xy exact (on jx) (p_rad exact P)).
Proof.
  rewrite <- (labels_related exact is_mirror mirror_norm mirror_angle cloud cloud' (mirror_rel cloud) srt P jx).
  rewrite <- (nb_related exact is_mirror mirror_angle cloud cloud' (mirror_rel cloud) jx). auto.
Qed.

Section OneRing.
Variable rings : list (Z * list Z).
Hypothesis Hrings : extract_rings exact srt cloud = Ok rings.
Variable k : Z.
Variable ix : list Z.
Hypothesis Hin : In (k, ix) rings.
Hypothesis Hlen : p + 1 <= zlen ix.

Lemma ring_listed : exists l, map (get cloud) ix = map Some l /\ Permutation l (returns_of cloud k) /\ around l.
Proof.
  pose proof (ring_points exact srt Hsrt cloud rings k ix Hrings Hin) as HP.
  apply Permutation_map_inv in HP. destruct HP as [l [E HP]]. exists l. split; [auto|]. split; [apply Permutation_sym; exact HP|].
  destruct (extract_rings_spec exact srt cloud rings Hsrt Hrings) as [_ [_ S]]. destruct (S k ix Hin) as [_ [Hn [Hi [_ Hs]]]].
  assert (Hi' : forall i, In i ix -> exists q, get cloud i = Some q /\ pring exact q = k) by (intros i; apply Hi).
  clear S Hi Hin Hlen HP. revert l E. induction ix as [|i jx IH]; intros [|q l] E; try discriminate E; [constructor|].
  cbn [map] in E. injection E as E1 E2. inversion Hn as [|? ? N1 N2]; subst. inversion Hs as [|? ? S1 S2]; subst.
  constructor.
  - apply IH; auto. intros; apply Hi'; right; auto.
  - apply Forall_forall. intros q' Hq' phi psi A1 A2.
    assert (HX : In (Some q') (map (get cloud) jx)) by (rewrite E2; apply in_map; auto).
    apply in_map_iff in HX. destruct HX as [j [Gj Ij]].
    rewrite Forall_forall in S2. specialize (S2 j Ij). cbv beta in S2.
    destruct (Hi' i (or_introl eq_refl)) as [q1 [G1 K1]]. destruct (Hi' j (or_intror Ij)) as [q2 [G2 K2]].
    assert (q1 = q) by congruence. assert (q2 = q') by congruence. subst q1 q2.
    destruct (less_az j i q' q Gj E1 ltac:(congruence)) as [L _]. rewrite L in S2. apply rltb_false in S2.
    destruct (az_at i q E1) as [B1 _], (az_at j q' Gj) as [B2 _].
    assert (Hne : az i <> az j) by (apply (Hapart i j q q'); auto; [intros ->; auto|congruence]).
    rewrite (azimuth_unique q phi (az i)), (azimuth_unique q' psi (az j)) by auto. lra.
Qed.

Lemma ring_point i : 0 <= i < zlen ix -> exists pt, m_at exact (on ix) i = Ok pt /\ In pt cloud.
Proof.
  intros Hi. destruct (extract_rings_spec exact srt cloud rings Hsrt Hrings) as [_ [_ S]]. destruct (S k ix Hin) as [_ [_ [Hx _]]].
  destruct (get_some ix i Hi) as [j Hj]. assert (Ij : In j ix) by (eapply get_In; eauto).
  apply Hx in Ij. destruct Ij as [pt [G _]]. exists pt. split; [|eapply get_In; eauto].
  unfold m_at. cbn [m_indices m_cloud]. apply vat_get in Hj, G. rewrite Hj. cbn [bind]. auto.
Qed.

Lemma ring_nb : nb_total (nb_xy exact (on ix) (p_rad exact P)) (zlen ix).
Proof.
  intros i j Hi Hj _. cbn [nb_xy nb]. unfold m_size. cbn [m_indices]. unfold check_index.
  rewrite (proj2 (Z.ltb_ge i 0)), (proj2 (Z.ltb_ge j 0)), (proj2 (Z.leb_gt (zlen ix) i)), (proj2 (Z.leb_gt (zlen ix) j)) by lia.
  cbn [bind]. destruct (ring_point i Hi) as [a [-> Ia]], (ring_point j Hj) as [b [-> _]]. cbn [bind].
  unfold is_neighbor_xy, calc_radian.
  assert (E : d_eqb exact (xy_norm exact (f2d exact (px exact a)) (f2d exact (py exact a))) (d_of_Z exact 0) = false).
  { destruct (Haz a Ia) as [phi [[_ [d [Hd [Hx Hy]]]] _]]. destruct (d_eqb exact _ _) eqn:E; auto. apply Reqb_spec in E. exfalso.
    unfold xy_norm in E. cbn in E. cbn in Hx, Hy. rewrite Hx, Hy in E.
    replace (d * cos phi * (d * cos phi) + d * sin phi * (d * sin phi))%R with (d * d)%R in E.
    - rewrite sqrt_square in E by lra. lra.
    - pose proof (sin2_cos2 phi) as H. unfold Rsqr in H. nra. }
  rewrite E. cbn [andb bind]. eauto.
Qed.

Lemma ring_mirrored :
  (ring_labels exact srt P (on ix) (nb_xy exact (on ix) (p_rad exact P)) = ThrowInvalid /\
   ring_labels exact srt P (on (rev ix)) (nb_xy exact (on (rev ix)) (p_rad exact P)) = ThrowInvalid) \/
  exists ls curv,
    ring_labels exact srt P (on ix) (nb_xy exact (on ix) (p_rad exact P)) = Ok (ls, curv) /\
    ring_labels exact srt P (on (rev ix)) (nb_xy exact (on (rev ix)) (p_rad exact P)) = Ok (rev ls, rev curv) /\
    zlen ls = zlen ix /\ zlen curv = zlen ix.
Proof.
  destruct ring_listed as [l [El [Pl Al]]].
  assert (Ll : zlen l = zlen ix).
  { unfold zlen. rewrite <- (map_length Some l), <- El, map_length. auto. }
  destruct (ring_size_le exact srt cloud rings k ix Hrings Hsrt Hin) as [Hle _].
  specialize (Heven k l Pl Al). rewrite Ll in Heven.
  apply (ring_rev exact srt Hsrt P cloud ix Hp HN) with (q := (zlen ix - 2 * p) / N).
  - intros i Hi. destruct (ring_point i Hi) as [pt [H _]]. eauto.
  - auto.
  - lia.
  - exact ring_nb.
  - intros Hfit. destruct Heven as [[q Hq] _]; [lia|]. rewrite Hq, Z.div_mul by lia. lia.
  - intros j Hj Hfit. destruct Heven as [[q Hq] _]; [lia|]. rewrite Hq, Z.div_mul by lia. apply boundary_exact; nia.
  - intros ranges Hr.
    assert (Er : ranges = map (fun pt => sqrt (px exact pt * px exact pt + py exact pt * py exact pt)) l :> list R).
    { unfold range_interval in Hr. destruct (zlen ix - 0 <? 0) eqn:E0; [discriminate|].
      apply OcclusionProofs.mapM_spec in Hr. destruct Hr as [Lr Gr]. unfold zrange in Lr at 1. rewrite map_length, seq_length in Lr.
      apply get_ext. intros i.
      destruct (Z_lt_le_dec i 0); [rewrite !get_none; auto; lia|].
      destruct (Z_lt_le_dec i (zlen ix)).
      2:{ rewrite !get_none; auto; unfold zlen in *; rewrite ?map_length; cbn [exact D] in *; lia. }
      destruct (Gr (Z.to_nat i) i) as [y [Y1 Y2]].
      { unfold zrange. rewrite nth_error_map, nth_error_nth' with (d := O) by (rewrite seq_length; lia).
        rewrite seq_nth by lia. simpl. f_equal. lia. }
      unfold get at 1. rewrite (proj2 (Z.ltb_ge i 0)) by lia. rewrite get_map. etransitivity; [exact Y2|].
      unfold range_at in Y1. rewrite m_at_view, El, get_map in Y1.
      destruct (get_some l i) as [pt Hpt]; [lia|]. rewrite Hpt in *. cbn [option_map bind] in Y1.
      cbn [option_map]. injection Y1 as <-. reflexivity. }
    assert (Lr : length ranges = length ix).
    { rewrite Er, map_length. unfold zlen in Ll. lia. }
    assert (Hpn : (1 <= Z.to_nat p)%nat) by lia.
    assert (Epz : Z.of_nat (Z.to_nat p) = p) by lia.
    pose proof (curvature_rev (Z.to_nat p) ranges Hpn) as CR. rewrite Epz in CR.
    destruct (Nat.lt_ge_cases (length ranges) (2 * Z.to_nat p + 1)) as [Hs|Hs].
    + left. pose proof (curvature_short exact (Z.to_nat p) ranges Hpn Hs) as X. rewrite Epz in X.
      split; [exact X|]. etransitivity; [exact CR|]. rewrite X. auto.
    + right. pose proof (curvature_ok exact (Z.to_nat p) ranges Hpn Hs) as X. rewrite Epz in X.
      eexists. split; [exact X|]. split; [etransitivity; [exact CR|]; rewrite X; reflexivity|].
      rewrite <- Epz in X at 1.
      pose proof (curvature_length exact (Z.to_nat p) ranges _ Hpn X) as LX.
      split; [unfold zlen; rewrite LX, Lr; auto|]. split; [apply exact_orderable|].
      intros Hfit i j a b Hi Hj Hij Ga Gb. destruct Heven as [_ Hbend]; [lia|].
      destruct (curvature_exact (Z.to_nat p) ranges _ X Hpn) as [_ [_ GX]].
      revert Ga Gb GX. generalize (map (fun v => d_mul exact v v)
        (repeat (d_of_Z exact 0) (Z.to_nat p) ++ map (curv_sum exact (Z.to_nat p) ranges) (seq 0 (length ranges - 2 * Z.to_nat p)) ++
         repeat (d_of_Z exact 0) (Z.to_nat p))). intros curv Ga Gb GX.
      assert (V : forall t c, p <= t < zlen ix - p -> get curv t = Some c ->
        c = Rsqr (second_diff (distance_at l) (Z.to_nat p) (Z.to_nat t)) :> R).
      { intros t c Ht Gt. unfold get in Gt. destruct (t <? 0) eqn:Et; [discriminate|].
        assert (Lr' : @length R ranges = length ix) by exact Lr.
        assert (Hb : (Z.to_nat t < @length R ranges)%nat) by (unfold zlen in Ht; lia).
        rewrite GX in Gt by exact Hb.
        rewrite (proj2 (Nat.leb_le _ _)), (proj2 (Nat.ltb_lt _ _)) in Gt by (unfold zlen in Ht; lia). cbn [andb] in Gt.
        assert (Ef : (fun t : nat => nth t ranges 0%R) = distance_at l) by (rewrite Er; reflexivity).
        change (fun k0 : nat => rn ranges k0) with (fun t : nat => nth t ranges 0%R) in Gt. rewrite Ef in Gt. congruence. }
      rewrite (V i a Hi Ga), (V j b Hj Gb).
      assert (Hne : Rsqr (second_diff (distance_at l) (Z.to_nat p) (Z.to_nat i)) <> Rsqr (second_diff (distance_at l) (Z.to_nat p) (Z.to_nat j))).
      { apply Hbend; unfold zlen in *; lia. }
      cbn [exact d_ltb]. unfold Rltb.
      destruct (Rlt_dec (Rsqr (second_diff (distance_at l) (Z.to_nat p) (Z.to_nat i))) (Rsqr (second_diff (distance_at l) (Z.to_nat p) (Z.to_nat j)))); auto.
      destruct (Rlt_dec (Rsqr (second_diff (distance_at l) (Z.to_nat p) (Z.to_nat j))) (Rsqr (second_diff (distance_at l) (Z.to_nat p) (Z.to_nat i)))); auto.
      exfalso. apply Hne. lra.
Qed.
End OneRing.

(** ** Both callbacks *)
Lemma combine_rev_perm {X Y} (a : list X) (b : list Y) : length a = length b -> Permutation (combine (rev a) (rev b)) (combine a b).
Proof.
  revert b. induction a as [|x a IH]; intros [|y b] E; try discriminate E; cbn [rev combine]; auto.
  assert (G : forall (u : list X) (v : list Y), length u = length v -> combine (u ++ [x]) (v ++ [y]) = combine u v ++ [(x, y)]).
  { induction u as [|z u IHu]; intros [|w v] Eu; try discriminate Eu; cbn [app combine]; auto. rewrite IHu; auto. }
  rewrite G by (rewrite !rev_length; cbn in E; lia). rewrite <- Permutation_cons_append. constructor. apply IH. cbn in E. lia.
Qed.

Lemma flat_map_perm {X Y} (f : X -> list Y) l l' : Permutation l l' -> Permutation (flat_map f l) (flat_map f l').
Proof.
  induction 1; cbn [flat_map]; auto.
  - apply Permutation_app_head. auto.
  - rewrite !app_assoc. apply Permutation_app_tail, Permutation_app_comm.
  - eapply Permutation_trans; eauto.
Qed.

Lemma picked_rev ls ix lab : length ls = length ix -> Permutation (picked (rev ls) (rev ix) lab) (picked ls ix lab).
Proof. intros H. unfold picked. apply Permutation_map, filter_perm, combine_rev_perm. auto. Qed.

Lemma coords_mirrored idx : coords exact cloud' idx = map mirrored_xyz (coords exact cloud idx).
Proof.
  unfold coords. induction idx as [|i idx IH]; cbn [flat_map]; auto. rewrite IH, map_app. f_equal.
  rewrite get_map. destruct (get cloud i) as [q|]; reflexivity.
Qed.

Lemma colored_mirrored ls ix : colored_of exact cloud' ls ix = map mirrored_color (colored_of exact cloud ls ix).
Proof.
  unfold colored_of. induction (combine ls ix) as [|i idx IH]; cbn [flat_map]; auto. rewrite IH, map_app. f_equal.
  rewrite get_map. destruct (get cloud (snd i)) as [q|]; reflexivity.
Qed.

(** the contributions of a ring to the clouds and to those of the mirrored scan *)
Definition mirrored_part (a b : list (R * R * R) * list (R * R * R) * list (colored exact)) : Prop :=
  Permutation (fst (fst b)) (map mirrored_xyz (fst (fst a))) /\ Permutation (snd (fst b)) (map mirrored_xyz (snd (fst a))) /\
  Permutation (snd b) (map mirrored_color (snd a)).

Lemma part_mirrored rings k ix a b : extract_rings exact srt cloud = Ok rings -> In (k, ix) rings -> p + 1 <= zlen ix ->
  contributes exact srt P cloud (k, ix) a -> contributes exact srt P cloud' (k, rev ix) b -> mirrored_part a b.
Proof.
  intros Hr Hi Hl Ha Hb. unfold contributes in Ha, Hb. cbv zeta in Ha, Hb. cbn [snd] in Ha, Hb. rewrite labels_mirrored in Hb.
  destruct (ring_mirrored rings Hr k ix Hi Hl) as [[E1 E2]|[ls [curv [E1 [E2 [L1 L2]]]]]]; rewrite E1 in Ha; rewrite E2 in Hb.
  - destruct Ha as [[_ ->]|[? [? [X _]]]]; [|discriminate X]. destruct Hb as [[_ ->]|[? [? [X _]]]]; [|discriminate X].
    split; [|split]; constructor.
  - destruct Ha as [[X _]|[ls1 [cv1 [X ->]]]]; [discriminate X|]. destruct Hb as [[Y _]|[ls2 [cv2 [Y ->]]]]; [discriminate Y|].
    assert (ls1 = ls) by congruence. assert (ls2 = rev ls) by congruence. subst ls1 ls2.
    assert (Lx : length ls = length ix) by (unfold zlen in L1; lia).
    split; [|split]; cbn [fst snd].
    + rewrite coords_mirrored. apply Permutation_map. apply flat_map_perm, picked_rev. auto.
    + rewrite coords_mirrored. apply Permutation_map. apply flat_map_perm, picked_rev. auto.
    + rewrite colored_mirrored. apply Permutation_map. apply flat_map_perm, combine_rev_perm. auto.
Qed.

Lemma parts_mirrored rings : extract_rings exact srt cloud = Ok rings -> forall l, (forall r, In r l -> In r rings /\ p + 1 <= zlen (snd r)) ->
  forall a b, Forall2 (contributes exact srt P cloud) l a ->
    Forall2 (contributes exact srt P cloud') (map (fun r => (fst r, rev (snd r))) l) b -> Forall2 mirrored_part a b.
Proof.
  intros Hr. induction l as [|[k ix] l IH]; intros Hl a b Fa Fb; cbn [map] in Fb; inversion Fa; subst; inversion Fb; subst; constructor.
  - destruct (Hl (k, ix) (or_introl eq_refl)) as [Hi1 Hi2]. eapply (part_mirrored rings k ix); eauto.
  - apply IH; auto. intros; apply Hl; right; auto.
Qed.

Lemma shutdown_of ord dense has_ring c out : callback exact srt ord P dense has_ring c = Ok out ->
  o_shutdown exact out = negb dense || negb has_ring.
Proof.
  unfold callback. intros H. destruct (extract_rings exact srt c); try discriminate H. cbn [bind] in H.
  destruct (foldM _ _ _); try discriminate H. cbn [bind] in H. injection H as <-. reflexivity.
Qed.

Theorem callback_mirrored ord1 ord2 dense has_ring : valid_order ord1 -> valid_order ord2 ->
  exists out1 out2, callback exact srt ord1 P dense has_ring cloud = Ok out1 /\
    callback exact srt ord2 P dense has_ring cloud' = Ok out2 /\
    Permutation (o_edge exact out2) (map mirrored_xyz (o_edge exact out1)) /\
    Permutation (o_surface exact out2) (map mirrored_xyz (o_surface exact out1)) /\
    Permutation (o_colored exact out2) (map mirrored_color (o_colored exact out1)) /\
    o_shutdown exact out2 = o_shutdown exact out1.
Proof.
  intros O1 O2. destruct rings_mirrored as [rings [R1 R2]].
  destruct (callback_total exact srt P cloud ord1 dense has_ring rings O1 Hsrt Hp R1) as [out1 C1].
  { intros k ix Hi Hl. cbv zeta. destruct (ring_mirrored rings R1 k ix Hi Hl) as [[E _]|[ls [cv [E [_ [L1 L2]]]]]]; [left; auto|right; eauto]. }
  destruct (callback_total exact srt P cloud' ord2 dense has_ring _ O2 Hsrt Hp R2) as [out2 C2].
  { intros k ix Hi Hl. cbv zeta. apply in_map_iff in Hi. destruct Hi as [[k' jx] [E Hi]]. cbn [fst snd] in E.
    assert (ix = rev jx) by congruence. assert (k' = k) by congruence. subst. rewrite zlen_rev in Hl. rewrite labels_mirrored.
    destruct (ring_mirrored rings R1 k jx Hi Hl) as [[_ E']|[ls [cv [_ [E' [L1 L2]]]]]]; [left; auto|right].
    exists (rev ls), (rev cv). rewrite !zlen_rev. auto. }
  exists out1, out2. split; [auto|]. split; [auto|].
  assert (SD : o_shutdown exact out2 = o_shutdown exact out1) by (rewrite (shutdown_of _ _ _ _ _ C1), (shutdown_of _ _ _ _ _ C2); auto).
  destruct (isolation exact srt P cloud ord1 dense has_ring out1 C1) as [rg1 [parts1 [Q1 [F1 [Ee [Es Ec]]]]]].
  destruct (isolation exact srt P cloud' ord2 dense has_ring out2 C2) as [rg2 [parts2 [Q2 [F2 [Ee2 [Es2 Ec2]]]]]].
  assert (rg1 = rings) by congruence. assert (rg2 = map (fun r => (fst r, rev (snd r))) rings) by congruence. subst rg1 rg2.
  set (kept := remove_sparse_rings rings (p + 1)) in *.
  assert (EK : remove_sparse_rings (map (fun r => (fst r, rev (snd r))) rings) (p + 1) = map (fun r => (fst r, rev (snd r))) kept).
  { unfold kept, remove_sparse_rings. clear. induction rings as [|r l IH]; cbn [map filter]; auto. cbn [snd]. rewrite zlen_rev.
    destruct (negb (zlen (snd r) <? p + 1)); cbn [map]; rewrite IH; auto. }
  rewrite EK in F2.
  change (Forall2 (contributes exact srt P cloud) (ord1 kept) parts1) in F1.
  change (Forall2 (contributes exact srt P cloud') (ord2 (map (fun r => (fst r, rev (snd r))) kept)) parts2) in F2.
  destruct (Forall2_perm _ _ _ _ F1 (Permutation_sym (O1 _))) as [q1 [G1 P1]].
  destruct (Forall2_perm _ _ _ _ F2 (Permutation_sym (O2 _))) as [q2 [G2 P2]].
  assert (HM : Forall2 mirrored_part q1 q2).
  { apply (parts_mirrored rings R1 kept); auto. intros r Hr. apply remove_sparse_spec in Hr. auto. }
  assert (K : forall (T U : Type) (f : list (R * R * R) * list (R * R * R) * list (colored exact) -> list T) (g : T -> T),
     (forall a b, mirrored_part a b -> Permutation (f b) (map g (f a))) ->
     Permutation (concat (map f parts2)) (map g (concat (map f parts1)))).
  { intros T U f g Hfg. eapply Permutation_trans; [apply concat_perm, Permutation_map; exact P2|].
    apply Permutation_sym. eapply Permutation_trans; [apply Permutation_map, concat_perm, Permutation_map; exact P1|]. apply Permutation_sym.
    clear - HM Hfg. induction HM as [|a b l l' Hab _ IH]; cbn [map concat]; auto. rewrite map_app. apply Permutation_app; auto. }
  split; [|split; [|split]]; auto.
  - rewrite Ee, Ee2. apply (K (R * R * R)%type unit). intros a b H. apply H.
  - rewrite Es, Es2. apply (K (R * R * R)%type unit). intros a b H. apply H.
  - rewrite Ec, Ec2. apply (K (colored exact) unit). intros a b H. apply H.
Qed.
End Cloud.
