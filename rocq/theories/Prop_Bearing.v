(** C129, and the single-precision parts of C16, C19, C20, C21 and C103: scans whose directions
    single precision can tell apart. *)
From Coq Require Import List ZArith Reals Bool Lia Lra Permutation Sorting.Sorted.
From Flocq Require Import Core.Zaux Core.Raux IEEE754.BinarySingleNaN.
From Verif Require Import Base Arith ExtractModel Spec SpecReal SpecBearing RefSort RingMapProofs
  FloatAngle RunProofs Prop_Pipeline Prop_Order.
Import ListNotations.
Open Scope Z_scope.

(** ** C19 in single precision: for two points that are resolved, and not two different ones
    straight ahead, the comparator says which has the smaller direction. Missing: directions
    closer than rounding can tell, and two points straight ahead. *)
Theorem C19_float_partial acosf (p q : point (ieee acosf)) :
  let A := ieee acosf in
  ordinary (px A p) -> ordinary (py A p) -> ordinary (px A q) -> ordinary (py A q) ->
  resolved p q -> (ahead p -> ahead q -> east p = east q) ->
  (polar_less A (px A p) (py A p) (px A q) (py A q) = true <-> (bearing p < bearing q)%R).
Proof. exact (bearing_order acosf p q). Qed.
Print Assumptions C19_float_partial.

(** ** C20 in single precision: on the points of one ring of a well resolved scan the
    comparator is a strict weak ordering. Missing: the other scans. *)
Theorem C20_float_partial acosf (cloud : list (point (ieee acosf))) k ix :
  well_resolved cloud ->
  (forall i, In i ix -> exists p, get cloud i = Some p /\ pring (ieee acosf) p = k) ->
  strict_weak_order (polar_less_ix (ieee acosf) cloud) ix.
Proof. intros H. exact (ring_order acosf cloud H k ix). Qed.
Print Assumptions C20_float_partial.

(** ** C129 A well resolved scan is taken apart into rings without fail; every point is in
    exactly one ring, the one it names, and every ring is listed in the order of directions. *)
Theorem C129_rings_by_direction acosf srt (cloud : list (point (ieee acosf))) :
  valid_sort srt -> well_resolved cloud ->
  exists rings, extract_rings (ieee acosf) srt cloud = Ok rings /\
    NoDup (map fst rings) /\
    (forall i p, get cloud i = Some p -> exists ix, In (pring (ieee acosf) p, ix) rings) /\
    forall k ix, In (k, ix) rings ->
      NoDup ix /\
      (forall i, In i ix <-> exists p, get cloud i = Some p /\ pring (ieee acosf) p = k) /\
      StronglySorted (fun a b => forall p q, get cloud a = Some p -> get cloud b = Some q ->
        (bearing p <= bearing q)%R) ix.
Proof.
  intros Hv HW. destruct (rings_made acosf cloud HW srt) as [rings E]. exists rings.
  destruct (extract_rings_spec (ieee acosf) srt cloud rings Hv E) as [H1 [H2 H3]].
  split; [exact E|]. split; [exact H1|]. split; [exact H2|]. intros k ix Hi.
  destruct (H3 k ix Hi) as [_ [N [I _]]]. split; [exact N|]. split; [exact I|].
  exact (rings_by_bearing acosf cloud HW srt rings k ix Hv E Hi).
Qed.
Print Assumptions C129_rings_by_direction.

(** The callback ends normally and publishes, whatever the parameters accepted at start-up. *)
Theorem C129_always_published acosf srt ord (P : params (ieee acosf)) cloud dense has_ring :
  let A := ieee acosf in
  valid_sort srt -> valid_order ord -> valid_params A P -> well_resolved cloud ->
  zlen cloud + p_padding A P + 2 < 2 ^ 31 -> zlen cloud * p_blocks A P <= 2 ^ 53 ->
  exists out, callback A srt ord P dense has_ring cloud = Ok out.
Proof.
  intros A Hv Ho HP HW H1 H2. destruct (rings_made acosf cloud HW srt) as [rings E].
  apply (never_escapes acosf srt ord P cloud rings dense has_ring); auto.
  apply Forall_forall. intros p Hp. destruct HW as [HO _]. destruct (HO p Hp) as [[F1 _] [F2 _]].
  split; assumption.
Qed.
Print Assumptions C129_always_published.

(** ** C103 in single precision: if in addition no two points of a ring have the same
    direction, messages with the same points in another order give the same output up to
    order. Missing: several returns in one direction. *)
Theorem C103_float_partial acosf srt (P : params (ieee acosf)) cloud1 cloud2 ord1 ord2 dense has_ring :
  let A := ieee acosf in
  valid_sort srt -> valid_order ord1 -> valid_order ord2 -> valid_params A P ->
  well_resolved cloud1 ->
  (forall i j p q, i <> j -> get cloud1 i = Some p -> get cloud1 j = Some q ->
     pring A p = pring A q -> bearing p <> bearing q) ->
  zlen cloud1 + p_padding A P + 2 < 2 ^ 31 -> zlen cloud1 * p_blocks A P <= 2 ^ 53 ->
  Permutation cloud1 cloud2 ->
  exists out1 out2,
    callback A srt ord1 P dense has_ring cloud1 = Ok out1 /\
    callback A srt ord2 P dense has_ring cloud2 = Ok out2 /\
    Permutation (o_edge A out1) (o_edge A out2) /\
    Permutation (o_surface A out1) (o_surface A out2) /\
    Permutation (o_colored A out1) (o_colored A out2) /\
    o_shutdown A out1 = o_shutdown A out2.
Proof.
  intros A Hv Ho1 Ho2 HP HW HD H1 H2 HPm.
  destruct (C129_always_published acosf srt ord1 P cloud1 dense has_ring Hv Ho1 HP HW H1 H2) as [out1 E1].
  exists out1.
  destruct (C103_distinct_directions_partial A srt P cloud1 cloud2 ord1 ord2 dense has_ring out1)
    as [out2 [E2 R]]; auto.
  - destruct HP as [Hp _]. lia.
  - intros i j p q Hn Hp Hq Hr. pose proof (HD i j p q Hn Hp Hq Hr) as Hb.
    pose proof (bearing_order acosf p q) as B1. pose proof (bearing_order acosf q p) as B2.
    destruct HW as [HO HPr].
    destruct (HO p (get_In _ _ _ Hp)) as [O1 O2]. destruct (HO q (get_In _ _ _ Hq)) as [O3 O4].
    destruct (HPr p q (get_In _ _ _ Hp) (get_In _ _ _ Hq) Hr) as [R1 R2].
    destruct (HPr q p (get_In _ _ _ Hq) (get_In _ _ _ Hp) (eq_sym Hr)) as [R3 R4].
    destruct (Rtotal_order (bearing p) (bearing q)) as [L|[L|L]].
    + left. apply B1; auto.
    + contradiction.
    + right. apply B2; auto.
  - exists out2. auto.
Qed.
Print Assumptions C103_float_partial.

(** ** A scan to which they apply: two rings listed out of order, with a point straight ahead,
    one straight behind, one at the sensor and two in opposite directions. *)
Definition around_cloud : list (point XA) :=
  map (fun t => ex_pt (fst t) (fst (snd t)) (snd (snd t)))
    [(0, (1000, 700)); (0, (-900, 0)); (1, (300, 1)); (0, (800, 0)); (0, (-1000, -700)); (0, (0, 0));
     (1, (-5, 1999)); (0, (17, -1200)); (1, (299, 1)); (0, (999, 701)); (1, (-300, -2))].

Lemma whole_cloud (l : list (Z * (Z * Z))) :
  forallb (fun t => (Z.abs (fst (snd t)) <=? 2 ^ 11) && (Z.abs (snd (snd t)) <=? 2 ^ 11)) l = true ->
  forallb (fun t => forallb (fun u => negb (fst t =? fst u) ||
     negb ((snd (snd t) =? 0) && (snd (snd u) =? 0) && (0 <? fst (snd t)) && (0 <? fst (snd u))) ||
     (fst (snd t) =? fst (snd u))) l) l = true ->
  well_resolved (map (fun t => ex_pt (fst t) (fst (snd t)) (snd (snd t))) l).
Proof.
  intros H1 H2. rewrite forallb_forall in H1, H2.
  assert (C : forall t, In t l -> Z.abs (fst (snd t)) <= 2 ^ 11 /\ Z.abs (snd (snd t)) <= 2 ^ 11).
  { intros t Ht. apply H1 in Ht. apply andb_true_iff in Ht. lia. }
  assert (V : forall t, In t l ->
     east (ex_pt (fst t) (fst (snd t)) (snd (snd t))) = IZR (fst (snd t)) /\
     north (ex_pt (fst t) (fst (snd t)) (snd (snd t))) = IZR (snd (snd t))).
  { intros t Ht. destruct (C t Ht) as [A1 A2]. split; apply of_Z32_ok; lia. }
  split.
  - intros p Hp. apply in_map_iff in Hp. destruct Hp as [t [<- Ht]]. destruct (C t Ht).
    split; apply whole_ordinary; assumption.
  - intros p q Hp Hq Hr. apply in_map_iff in Hp, Hq.
    destruct Hp as [t [<- Ht]], Hq as [u [<- Hu]]. cbn [ex_pt pring] in Hr.
    destruct (C t Ht), (C u Hu), (V t Ht) as [V1 V2], (V u Hu) as [V3 V4]. split.
    + apply whole_resolved with (fst (snd t)) (snd (snd t)) (fst (snd u)) (snd (snd u)); auto.
    + unfold ahead. rewrite V1, V2, V3, V4. intros [A1 A2] [A3 A4].
      apply eq_IZR in A1, A3. apply lt_IZR in A2, A4. f_equal.
      specialize (H2 t Ht). rewrite forallb_forall in H2. specialize (H2 u Hu).
      rewrite Hr, A1, A3 in H2. lia.
Qed.

Example C129_case :
  well_resolved around_cloud /\
  extract_rings XA isort around_cloud = Ok [(0, [4; 7; 3; 5; 0; 9; 1]); (1, [10; 2; 8; 6])].
Proof. split; [apply whole_cloud; reflexivity|vm_compute; reflexivity]. Qed.

(** ... and one without two points in one direction *)
Definition fan_cloud : list (point XA) :=
  map (fun t => ex_pt (fst t) (fst (snd t)) (snd (snd t)))
    [(0, (1000, 700)); (0, (-900, 0)); (1, (300, 1)); (0, (800, 0)); (1, (-5, 1999)); (1, (299, 1))].

Example C103_float_case :
  well_resolved fan_cloud /\
  (forall i j p q, i <> j -> get fan_cloud i = Some p -> get fan_cloud j = Some q ->
     pring XA p = pring XA q -> bearing p <> bearing q).
Proof.
  assert (HW : well_resolved fan_cloud) by (apply whole_cloud; reflexivity).
  split; [exact HW|]. intros i j p q Hn Hp Hq Hr E.
  assert (B : polar_less_ix XA fan_cloud i j = false /\ polar_less_ix XA fan_cloud j i = false).
  { split; [apply (bearing_ix_false ex_acos fan_cloud HW i j p q)|
            apply (bearing_ix_false ex_acos fan_cloud HW j i q p)]; auto; rewrite E; lra. }
  pose proof (FillProofs.get_bounds _ _ _ Hp) as Bi. pose proof (FillProofs.get_bounds _ _ _ Hq) as Bj.
  change (zlen fan_cloud) with 6 in Bi, Bj.
  assert (Ci : i = 0 \/ i = 1 \/ i = 2 \/ i = 3 \/ i = 4 \/ i = 5) by lia.
  assert (Cj : j = 0 \/ j = 1 \/ j = 2 \/ j = 3 \/ j = 4 \/ j = 5) by lia.
  clear Bi Bj E.
  destruct Ci as [-> | [-> | [-> | [-> | [-> | -> ]]]]], Cj as [-> | [-> | [-> | [-> | [-> | -> ]]]]];
    try (exfalso; apply Hn; reflexivity);
    injection Hp as <-; injection Hq as <-;
    try (vm_compute in Hr; discriminate Hr);
    destruct B as [B1 B2]; vm_compute in B1, B2; first [discriminate B1 | discriminate B2].
Qed.
