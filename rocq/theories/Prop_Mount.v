(** C112, C113: the direction in which the sensor is mounted, the heights of the points. *)
From Coq Require Import List ZArith Reals Bool Lia Lra Permutation FunctionalExtensionality.
From Flocq Require Import Core.Zaux Core.Raux IEEE754.BinarySingleNaN.
From Verif Require Import Base Arith ExtractModel Spec SpecReal SpecMount RefSort LabelProofs RingMapProofs AngleProofs
  OrderProofs TieProofs RelatedProofs MountProofs Prop_Pipeline.
Import ListNotations.
Open Scope Z_scope.

(** * C112 The features do not depend on the direction in which the sensor is mounted *)

(** ** Refuted, whatever conforming sort is used, by a half turn (exact in floating point): a
    ring is cut open behind the sensor, and what lies at the cut falls into the margins.  An
    edge straight ahead is published; with the sensor turned to the back it is not. *)
Definition ahead : list (point XA) :=
  [ex_pt 0 9850 (-1750); ex_pt 0 10912 (-1375); ex_pt 0 12961 (-975); ex_pt 0 15995 (-400);
   ex_pt 0 39988 1000; ex_pt 0 17949 1350; ex_pt 0 13889 1750; ex_pt 0 10835 1925].
Definition seen (turned_back : bool) : list (point XA) := if turned_back then map (half_turned ex_acos) ahead else ahead.
Definition ahead_params : params XA := {|
  p_padding := 1; p_rad := of_me64 1 (-2) : D XA; p_distance := of_Z64 50000 : D XA; p_ratio := of_Z64 5;
  p_edge := of_Z64 1000000000; p_surface := of_Z64 10000; p_min := of_Z64 1; p_max := of_Z64 1000000;
  p_blocks := 1 |}.
Lemma ahead_valid : valid_params XA ahead_params.
Proof.
  split; [reflexivity|]. split; [reflexivity|].
  repeat (apply Forall_cons; [vm_compute; reflexivity|]). apply Forall_nil.
Qed.

Definition ring_order (turned_back : bool) : list Z := if turned_back then [4; 5; 6; 7; 0; 1; 2; 3] else zrange 8.
Lemma seen_rings srt b : valid_sort srt -> extract_rings XA srt (seen b) = Ok [(0, ring_order b)].
Proof.
  intros Hv. unfold extract_rings.
  assert (E : make_point_indices XA (seen b) = [(0, zrange 8)]) by (destruct b; vm_compute; reflexivity).
  rewrite E. unfold sort_each_ring. cbn [mapM fst snd]. unfold sort_by_atan2, std_sort.
  assert (W : swo_on (polar_less_ix XA (seen b)) (zrange 8) = true) by (destruct b; vm_compute; reflexivity).
  rewrite W. cbn [bind].
  assert (H : In (srt (polar_less_ix XA (seen b)) (zrange 8)) (sorted_perms 8 (polar_less_ix XA (seen b)) (zrange 8))).
  { apply (valid_sort_perms srt (polar_less_ix XA (seen b)) (zrange 8)); auto; [apply zrange_NoDup|]. apply swo_on_spec. auto. }
  assert (EP : sorted_perms 8 (polar_less_ix XA (seen b)) (zrange 8) = [ring_order b]) by (destruct b; vm_compute; reflexivity).
  rewrite EP in H. destruct H as [H|[]]. rewrite <- H. auto.
Qed.

Definition ahead_curvatures (m : mapped XA) : outcome (list (D XA)) :=
  ranges <- range_interval XA m 0 8 ;; curv <- calc_curvature XA ranges 1 ;; vslice curv 1 7.

Lemma seen_labels srt b c : valid_sort srt ->
  let m := {| m_cloud := seen b; m_indices := ring_order b |} in
  ring_labels XA srt ahead_params m c = ring_labels XA isort ahead_params m c.
Proof.
  intros Hv m. apply ring_labels_sorters. intros ranges curv r j bb e cv H1 H2 H3 H4 H5 H6.
  assert (Hsz : m_size XA m = 8) by (destruct b; reflexivity).
  rewrite Hsz in *.
  assert (Er : r = {| ir_start := 1; ir_end := 7; ir_n := 1 |}) by (cbn in H3; inversion H3; auto). subst r.
  assert (Ej : j = 0).
  { unfold ir_begin, check_block in H4. cbn [ir_n] in H4. destruct (1 <=? j) eqn:J1; [discriminate|].
    destruct (j <? 0) eqn:J2; [discriminate|]. lia. }
  subst j.
  assert (Eb : bb = 1) by (vm_compute in H4; congruence). assert (Ee : e = 7) by (vm_compute in H5; congruence). subst bb e.
  assert (Hc : ahead_curvatures m = Ok cv).
  { unfold ahead_curvatures. rewrite H1. cbn [bind]. change (calc_curvature XA ranges 1 = Ok curv) in H2. rewrite H2. auto. }
  assert (Hp : match ahead_curvatures m with
    | Ok v => length v = 6%nat /\ swo_on (by_value XA v) (zrange 6) = true /\
              sorted_perms 6 (by_value XA v) (zrange 6) = [isort (by_value XA v) (zrange 6)]
    | _ => False end).
  { subst m. destruct b; vm_compute; auto. }
  rewrite Hc in Hp. destruct Hp as [Hl [Hw Hp]]. unfold argsort, std_sort. rewrite Hl, Hw.
  assert (H : In (srt (by_value XA cv) (zrange 6)) (sorted_perms 6 (by_value XA cv) (zrange 6))).
  { apply (valid_sort_perms srt (by_value XA cv) (zrange 6)); auto; [apply zrange_NoDup|]. apply swo_on_spec. auto. }
  rewrite Hp in H. destruct H as [H|[]]. rewrite H. auto.
Qed.

Definition seen_published (b : bool) : outcome (clouds XA) :=
  ring_step XA isort ahead_params (seen b) {| c_edge := []; c_surface := []; c_colored := [] |} (0, ring_order b).

Lemma seen_callback srt b : valid_sort srt ->
  callback XA srt (fun l => l) ahead_params true true (seen b) =
  (st <- seen_published b ;;
   Ok {| o_shutdown := false; o_colored := c_colored XA st; o_edge := map (xyz XA) (c_edge XA st);
         o_surface := map (xyz XA) (c_surface XA st) |}).
Proof.
  intros Hv. unfold callback. rewrite (seen_rings srt b Hv). cbn [bind].
  assert (E : remove_sparse_rings [(0, ring_order b)] (p_padding XA ahead_params + 1) = [(0, ring_order b)]) by (destruct b; reflexivity).
  rewrite E. cbn [foldM]. unfold seen_published, ring_step, try_ring. cbn [snd].
  destruct (make_nb_xy XA _ _) as [c| | | | |]; cbn [bind]; auto.
  rewrite (seen_labels srt b c Hv). match goal with |- bind (bind ?X _) _ = _ => destruct X; reflexivity end.
Qed.

Theorem C112_mounting_direction_refuted srt : valid_sort srt ->
  exists (acosf : b64 -> b64) (P : params (ieee acosf)) cloud out1 out2,
    valid_params (ieee acosf) P /\ Forall (finite_xy acosf) cloud /\
    callback (ieee acosf) srt (fun l => l) P true true cloud = Ok out1 /\
    callback (ieee acosf) srt (fun l => l) P true true (map (half_turned acosf) cloud) = Ok out2 /\
    o_edge (ieee acosf) out1 <> [] /\ o_edge (ieee acosf) out2 = [].
Proof.
  intros Hv.
  assert (HE : forall b, exists out, callback XA srt (fun l => l) ahead_params true true (seen b) = Ok out /\
     length (o_edge XA out) = if b then 0%nat else 1%nat).
  { intros b. rewrite (seen_callback srt b Hv).
    assert (E : match seen_published b with Ok st => length (map (xyz XA) (c_edge XA st)) = if b then 0%nat else 1%nat | _ => False end)
      by (destruct b; vm_compute; reflexivity).
    destruct (seen_published b) as [st| | | | |]; try contradiction. cbn [bind]. eexists. split; [reflexivity|]. exact E. }
  destruct (HE false) as [o1 [C1 E1]], (HE true) as [o2 [C2 E2]].
  exists ex_acos, ahead_params, ahead, o1, o2.
  split; [exact ahead_valid|]. split.
  { repeat (apply Forall_cons; [split; vm_compute; reflexivity|]). apply Forall_nil. }
  split; [exact C1|]. split; [exact C2|]. change (ieee ex_acos) with XA. split.
  - intros E. rewrite E in E1. discriminate E1.
  - destruct (o_edge XA o2); [reflexivity|discriminate E2].
Qed.
Print Assumptions C112_mounting_direction_refuted.

(** ** What holds, in exact arithmetic: the sensor may be turned by any angle that takes no
    return past the cut behind the sensor, if no two returns of a ring have the same direction.
    The callback ends in the same way, and every published point is the turned point, in the
    same place of the same cloud with the same colour.  Missing: returns that pass the cut. *)
Theorem C112_mounting_direction_partial srt ord (P : params exact) dense has_ring cloud (angle : R) :
  valid_sort srt ->
  (forall p, In p cloud -> exists phi, azimuth p phi /\ (- PI < phi + angle <= PI)%R) ->
  (forall i j p q phi psi, i <> j -> get cloud i = Some p -> get cloud j = Some q ->
     pring exact p = pring exact q -> azimuth p phi -> azimuth q psi -> phi <> psi) ->
  alike (clouds_correspond exact (fun a b => b = turned_xyz angle a))
    (callback exact srt ord P dense has_ring cloud)
    (callback exact srt ord P dense has_ring (map (turned angle) cloud)).
Proof. intros Hv Hc Ha. exact (turned_callback srt Hv angle cloud Hc Ha ord P dense has_ring). Qed.
Print Assumptions C112_mounting_direction_partial.

(** two returns, ahead and to the left, turned by a quarter turn *)
Definition two_returns : list (point exact) :=
  [{| px := 5%R : F exact; py := 0%R; pz := 1%R; pintensity := 0%R; pring := 3 |};
   {| px := 0%R : F exact; py := 7%R; pz := 1%R; pintensity := 0%R; pring := 3 |}].
Example ex_C112 :
  (forall p, In p two_returns -> exists phi, azimuth p phi /\ (- PI < phi + PI / 2 <= PI)%R) /\
  (forall i j p q phi psi, i <> j -> get two_returns i = Some p -> get two_returns j = Some q ->
     pring exact p = pring exact q -> azimuth p phi -> azimuth q psi -> phi <> psi).
Proof.
  pose proof PI_RGT_0 as HP.
  assert (A0 : azimuth {| px := 5%R : F exact; py := 0%R; pz := 1%R; pintensity := 0%R; pring := 3 |} 0).
  { split; [lra|]. exists 5%R. cbn. rewrite cos_0, sin_0. repeat split; lra. }
  assert (A1 : azimuth {| px := 0%R : F exact; py := 7%R; pz := 1%R; pintensity := 0%R; pring := 3 |} (PI / 2)).
  { split; [lra|]. exists 7%R. cbn. rewrite cos_PI2, sin_PI2. repeat split; lra. }
  split.
  - intros p [<-|[<-|[]]]; eexists; (split; [eassumption|lra]).
  - intros i j p q phi psi Hij Hi Hj _ Hp Hq.
    assert (B : forall k x, get two_returns k = Some x -> k = 0 \/ k = 1).
    { intros k x Hg. apply FillProofs.get_bounds in Hg. change (zlen two_returns) with 2 in Hg. lia. }
    destruct (B _ _ Hi) as [-> | ->], (B _ _ Hj) as [-> | ->]; try congruence;
      cbn in Hi, Hj; injection Hi as <-; injection Hj as <-.
    + rewrite (azimuth_unique _ _ _ Hp A0), (azimuth_unique _ _ _ Hq A1). lra.
    + rewrite (azimuth_unique _ _ _ Hp A1), (azimuth_unique _ _ _ Hq A0). lra.
Qed.

(** * C113 The features are selected by horizontal coordinates alone *)

(** For any arithmetic (in particular IEEE) and any sort: two scans whose points agree in ring
    and horizontal coordinates, place by place, give the same features. *)
Theorem C113_heights_do_not_matter A srt ord (P : params A) dense has_ring cloud1 cloud2 :
  Forall2 (fun p q => px A p = px A q /\ py A p = py A q /\ pring A p = pring A q) cloud1 cloud2 ->
  alike (clouds_correspond A (fun a b => fst a = fst b))
    (callback A srt ord P dense has_ring cloud1) (callback A srt ord P dense has_ring cloud2).
Proof. exact (heights_callback A srt ord P dense has_ring cloud1 cloud2). Qed.
Print Assumptions C113_heights_do_not_matter.

(** the scan of the other examples flattened *)
Definition flattened : list (point XA) :=
  map (fun p => {| px := px XA p; py := py XA p; pz := of_Z32 0 : F XA; pintensity := of_Z32 9; pring := pring XA p |}) ex_cloud.
Example ex_C113 :
  Forall2 (fun p q => px XA p = px XA q /\ py XA p = py XA q /\ pring XA p = pring XA q) ex_cloud flattened /\
  match callback XA isort (fun l => l) ex_params true true flattened with
  | Ok o => map xyzZ (o_edge XA o) = [(28170, 10290, 0); (9210, 3890, 0); (17841, 6517, 0); (17499, 7391, 0)]
  | _ => False
  end.
Proof.
  split; [|vm_compute; reflexivity]. unfold flattened.
  induction ex_cloud; cbn [map]; constructor; cbn [px py pring]; auto.
Qed.
