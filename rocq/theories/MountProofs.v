(** Turning the sensor about its vertical axis, exact arithmetic. *)
From Coq Require Import List ZArith Reals Bool Lia Lra Psatz.
From Verif Require Import Base Arith ExtractModel Spec SpecReal SpecMount AngleProofs EkfProofs RelatedProofs.
Import ListNotations.
Open Scope R_scope.

Lemma azimuth_atan2 p phi : azimuth p phi -> atan2 (py exact p) (px exact p) = phi.
Proof.
  intros [Hr [d [Hd [Hx Hy]]]]. cbn in *.
  assert (Hs : sin phi * sin phi + cos phi * cos phi = 1) by exact (sin2_cos2 phi).
  assert (Hn : px exact p <> 0 \/ py exact p <> 0).
  { destruct (Req_dec (px exact p) 0) as [E1|E1]; [|auto]. destruct (Req_dec (py exact p) 0) as [E2|E2]; [|auto].
    exfalso. rewrite E1 in Hx. rewrite E2 in Hy. symmetry in Hx, Hy.
    apply Rmult_integral in Hx. apply Rmult_integral in Hy. destruct Hx as [Hx|Hx]; [lra|]. destruct Hy as [Hy|Hy]; [lra|].
    rewrite Hx, Hy in Hs. lra. }
  destruct (atan2_polar _ _ Hn) as [Hb [Ex Ey]].
  set (a := atan2 (py exact p) (px exact p)) in *.
  assert (Hq : sqrt (px exact p * px exact p + py exact p * py exact p) = d).
  { replace (px exact p * px exact p + py exact p * py exact p) with (d * d) by (rewrite Hx, Hy; nra).
    apply sqrt_square. lra. }
  change (px exact p = sqrt (px exact p * px exact p + py exact p * py exact p) * cos a) in Ex.
  change (py exact p = sqrt (px exact p * px exact p + py exact p * py exact p) * sin a) in Ey.
  rewrite Hq in Ex, Ey.
  assert (Ec : cos a = cos phi) by (apply (Rmult_eq_reg_l d); [lra|lra]).
  assert (Es : sin a = sin phi) by (apply (Rmult_eq_reg_l d); [lra|lra]).
  destruct (cos_sin_same a phi Ec Es) as [k Hk]. pose proof PI_RGT_0 as HP.
  assert (k = 0)%Z.
  { assert (H1 : IZR k < 1) by (apply (Rmult_lt_reg_l (2 * PI)); lra).
    assert (H2 : -1 < IZR k) by (apply (Rmult_lt_reg_l (2 * PI)); lra).
    apply lt_IZR in H1. apply lt_IZR in H2. lia. }
  subst k. lra.
Qed.

Lemma azimuth_unique p phi psi : azimuth p phi -> azimuth p psi -> phi = psi.
Proof. intros H1 H2. apply azimuth_atan2 in H1, H2. congruence. Qed.

Lemma azimuth_turned angle p phi : azimuth p phi -> - PI < phi + angle <= PI -> azimuth (turned angle p) (phi + angle).
Proof.
  intros [Hr [d [Hd [Hx Hy]]]] Hb. split; auto. exists d. split; auto.
  unfold turned. cbn [px py]. cbn in *. rewrite Hx, Hy, cos_plus, sin_plus. split; ring.
Qed.

Lemma less_azimuth p q phi psi : azimuth p phi -> azimuth q psi -> phi <> psi ->
  polar_less exact (px exact p) (py exact p) (px exact q) (py exact q) = Rltb phi psi.
Proof.
  intros Hp Hq Hn. apply azimuth_atan2 in Hp, Hq.
  assert (H : ~ (py exact p = 0 /\ py exact q = 0 /\ 0 < px exact p /\ 0 < px exact q)).
  { intros [E1 [E2 [E3 E4]]]. apply Hn. rewrite <- Hp, <- Hq, E1, E2, !atan2_zero.
    destruct (Rlt_dec (px exact p) 0), (Rlt_dec (px exact q) 0); auto; exfalso; cbn in *; lra. }
  pose proof (polar_less_atan2 _ _ _ _ H) as HL. rewrite Hp, Hq in HL.
  pose proof (Rltb_spec phi psi) as HR. destruct (polar_less _ _ _ _ _), (Rltb phi psi); auto.
  - symmetry. apply HR. apply HL. auto.
  - apply HL. apply HR. auto.
Qed.

Lemma less_self A (p : point A) : f_eqb A (px A p) (px A p) = true -> f_eqb A (py A p) (py A p) = true ->
  polar_less A (px A p) (py A p) (px A p) (py A p) = false.
Proof. intros H1 H2. unfold polar_less. rewrite H1, H2. auto. Qed.

Definition is_turn (angle : R) (p q : point exact) : Prop := q = turned angle p.

Lemma turn_norm angle p q : is_turn angle p q ->
  xy_norm exact (f2d exact (px exact p)) (f2d exact (py exact p)) = xy_norm exact (f2d exact (px exact q)) (f2d exact (py exact q)).
Proof.
  intros ->. unfold xy_norm, turned. cbn. f_equal. pose proof (sin2_cos2 angle) as H. unfold Rsqr in H.
  set (s := sin angle) in *. set (c := cos angle) in *.
  replace ((c * px exact p - s * py exact p) * (c * px exact p - s * py exact p) +
           (s * px exact p + c * py exact p) * (s * px exact p + c * py exact p))
    with ((s * s + c * c) * (px exact p * px exact p + py exact p * py exact p)) by ring.
  rewrite H. cbn. ring.
Qed.

Lemma turn_angle angle p q p' q' : is_turn angle p q -> is_turn angle p' q' ->
  calc_radian exact (f2d exact (px exact p)) (f2d exact (py exact p)) (f2d exact (px exact p')) (f2d exact (py exact p')) =
  calc_radian exact (f2d exact (px exact q)) (f2d exact (py exact q)) (f2d exact (px exact q')) (f2d exact (py exact q')).
Proof.
  intros H H'. unfold calc_radian. rewrite <- (turn_norm angle p q H), <- (turn_norm angle p' q' H').
  destruct (d_eqb exact _ _ && d_eqb exact _ _); auto. f_equal. f_equal. f_equal.
  rewrite H, H'. unfold turned. cbn. pose proof (sin2_cos2 angle) as E. unfold Rsqr in E.
  set (s := sin angle) in *. set (c := cos angle) in *.
  replace ((c * px exact p - s * py exact p) * (c * px exact p' - s * py exact p') +
           (s * px exact p + c * py exact p) * (s * px exact p' + c * py exact p'))
    with ((s * s + c * c) * (px exact p * px exact p' + py exact p * py exact p')) by ring.
  rewrite E. cbn. ring.
Qed.

Section Turn.
Variable srt : sorter.
Hypothesis Hv : valid_sort srt.
Variable angle : R.
Variable cloud : list (point exact).
Hypothesis Hcut : forall p, In p cloud -> exists phi, azimuth p phi /\ - PI < phi + angle <= PI.
Hypothesis Hapart : forall i j p q phi psi, i <> j -> get cloud i = Some p -> get cloud j = Some q ->
  pring exact p = pring exact q -> azimuth p phi -> azimuth q psi -> phi <> psi.

Lemma get_In {X} (l : list X) i x : get l i = Some x -> In x l.
Proof. unfold get. destruct (i <? 0)%Z; [discriminate|]. apply nth_error_In. Qed.

Lemma turned_rel : Forall2 (is_turn angle) cloud (map (turned angle) cloud).
Proof. clear. induction cloud; cbn [map]; constructor; auto. reflexivity. Qed.

Lemma get_turned i p q : get cloud i = Some p -> get (map (turned angle) cloud) i = Some q -> q = turned angle p.
Proof.
  intros H1 H2. pose proof (get_Forall2 _ _ _ i turned_rel) as H. rewrite H1, H2 in H. exact H.
Qed.

Lemma order_turned i j p q p' q' :
  get cloud i = Some p -> get (map (turned angle) cloud) i = Some q ->
  get cloud j = Some p' -> get (map (turned angle) cloud) j = Some q' -> pring exact p = pring exact p' ->
  polar_less exact (px exact p) (py exact p) (px exact p') (py exact p') =
  polar_less exact (px exact q) (py exact q) (px exact q') (py exact q').
Proof.
  intros H1 H2 H3 H4 Hk. pose proof (get_turned i p q H1 H2) as Eq. pose proof (get_turned j p' q' H3 H4) as Eq'.
  destruct (Z.eq_dec i j) as [<-|Hij].
  - assert (Ep : p' = p) by congruence. clear Eq Eq'. assert (Eqq : q' = q) by congruence. rewrite Ep, Eqq.
    rewrite (less_self exact p), (less_self exact q); auto; apply Reqb_spec; auto.
  - destruct (Hcut p (get_In _ _ _ H1)) as [phi [Ap Bp]]. destruct (Hcut p' (get_In _ _ _ H3)) as [psi [Aq Bq]].
    assert (Hne : phi <> psi) by (apply (Hapart i j p p'); auto).
    subst q q'. rewrite (less_azimuth p p' phi psi) by auto.
    rewrite (less_azimuth (turned angle p) (turned angle p') (phi + angle) (psi + angle));
      [|apply azimuth_turned; auto|apply azimuth_turned; auto|lra].
    unfold Rltb. destruct (Rlt_dec phi psi), (Rlt_dec (phi + angle) (psi + angle)); auto; exfalso; lra.
Qed.

Lemma apart_less i j p q : i <> j -> get cloud i = Some p -> get cloud j = Some q -> pring exact p = pring exact q ->
  polar_less exact (px exact p) (py exact p) (px exact q) (py exact q) = true \/
  polar_less exact (px exact q) (py exact q) (px exact p) (py exact p) = true.
Proof.
  intros Hij H1 H2 Hk. destruct (Hcut p (get_In _ _ _ H1)) as [phi [Ap _]]. destruct (Hcut q (get_In _ _ _ H2)) as [psi [Aq _]].
  assert (Hne : phi <> psi) by (apply (Hapart i j p q); auto).
  rewrite (less_azimuth p q phi psi), (less_azimuth q p psi phi) by auto. unfold Rltb.
  destruct (Rlt_dec phi psi); auto. destruct (Rlt_dec psi phi); auto. exfalso. lra.
Qed.

Lemma turned_callback ord P dense has_ring :
  alike (clouds_correspond exact (fun a b => b = turned_xyz angle a))
    (callback exact srt ord P dense has_ring cloud)
    (callback exact srt ord P dense has_ring (map (turned angle) cloud)).
Proof.
  apply (callback_related exact (is_turn angle)); auto.
  - intros p q ->. reflexivity.
  - apply turn_norm.
  - apply turn_angle.
  - intros p q ->. reflexivity.
  - exact turned_rel.
  - exact order_turned.
  - exact apart_less.
Qed.
End Turn.

(** ** Other heights *)
Definition same_xy (A : arith) (p q : point A) : Prop := px A p = px A q /\ py A p = py A q /\ pring A p = pring A q.

Lemma less_ix_same_xy A c1 c2 : Forall2 (same_xy A) c1 c2 -> polar_less_ix A c1 = polar_less_ix A c2.
Proof.
  intros H. apply FunctionalExtensionality.functional_extensionality. intros i.
  apply FunctionalExtensionality.functional_extensionality. intros j. unfold polar_less_ix.
  assert (G : forall n, match nth_error c1 n, nth_error c2 n with
     | Some p, Some q => same_xy A p q | None, None => True | _, _ => False end).
  { clear i j. induction H; intros [|n]; cbn [nth_error]; auto. apply IHForall2. }
  pose proof (G (Z.to_nat i)) as Gi. pose proof (G (Z.to_nat j)) as Gj.
  destruct (nth_error c1 (Z.to_nat i)), (nth_error c2 (Z.to_nat i)); try contradiction; auto.
  destruct (nth_error c1 (Z.to_nat j)), (nth_error c2 (Z.to_nat j)); try contradiction; auto.
  destruct Gi as [-> [-> _]], Gj as [-> [-> _]]. auto.
Qed.

Lemma heights_callback A srt ord P dense has_ring c1 c2 : Forall2 (same_xy A) c1 c2 ->
  alike (clouds_correspond A (fun a b => fst a = fst b))
    (callback A srt ord P dense has_ring c1) (callback A srt ord P dense has_ring c2).
Proof.
  intros H. apply (callback_of_rings A (same_xy A)); auto.
  - intros p q [-> [-> _]]. auto.
  - intros p q p' q' [-> [-> _]] [-> [-> _]]. auto.
  - intros p q [E1 [E2 _]]. unfold xyz. cbn [fst]. congruence.
  - unfold extract_rings, sort_each_ring, sort_by_atan2.
    rewrite (points_related A (same_xy A) (fun p q Hs => proj2 (proj2 Hs)) c1 c2 H), (less_ix_same_xy A c1 c2 H). auto.
Qed.
