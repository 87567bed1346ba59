(** C103: the order of the points in the message. *)
From Coq Require Import List ZArith Reals Bool Lia Lra Permutation FunctionalExtensionality.
From Flocq Require Import Core.Zaux Core.Raux IEEE754.BinarySingleNaN.
From Verif Require Import Base Arith ExtractModel Spec SpecReal RefSort LabelProofs RingMapProofs AngleProofs OrderProofs TieProofs
  Prop_Pipeline.
Import ListNotations.
Open Scope Z_scope.

(** * C103 The features do not depend on the order of the points in the message *)

(** ** Refuted, whatever conforming sort is used: two returns of one beam (same direction,
    different distance) keep, in the sorted ring, the order decided by their places in the
    message.  Twelve thousand and twenty thousand units away between a wall and a receding
    surface: nothing is an edge in one order, the nearer return is in the other. *)
Definition twin (near_first : bool) : list (point XA) :=
  let near := ex_pt 0 11460 3552 in let far := ex_pt 0 19100 5920 in
  [ex_pt 0 9950 1000; ex_pt 0 9890 1490; ex_pt 0 9800 1990; ex_pt 0 9690 2470] ++
  (if near_first then [near; far] else [far; near]) ++
  [ex_pt 0 28170 10290; ex_pt 0 30393 12837; ex_pt 0 32400 15660].
Definition twin_params : params XA := {|
  p_padding := 1; p_rad := of_me64 1 (-2) : D XA; p_distance := of_Z64 50000 : D XA; p_ratio := of_Z64 5;
  p_edge := of_Z64 200000000; p_surface := of_Z64 10000; p_min := of_Z64 1; p_max := of_Z64 1000000;
  p_blocks := 1 |}.
Lemma twin_valid : valid_params XA twin_params.
Proof.
  split; [reflexivity|]. split; [reflexivity|].
  repeat (apply Forall_cons; [vm_compute; reflexivity|]). apply Forall_nil.
Qed.
Lemma twin_perm : Permutation (twin true) (twin false).
Proof. unfold twin. apply Permutation_app_head. apply Permutation_app_tail. constructor. Qed.

Lemma twin_cmp : polar_less_ix XA (twin true) = polar_less_ix XA (twin false).
Proof.
  apply functional_extensionality. intros i. apply functional_extensionality. intros j.
  unfold polar_less_ix. generalize (Z.to_nat i) (Z.to_nat j). clear i j. intros i j.
  do 9 (destruct i as [|i]; [do 9 (destruct j as [|j]; [vm_compute; reflexivity|]); destruct j; vm_compute; reflexivity|]).
  destruct i; reflexivity.
Qed.

Definition order_up : list Z := [0; 1; 2; 3; 4; 5; 6; 7; 8].
Definition order_down : list Z := [0; 1; 2; 3; 5; 4; 6; 7; 8].
Lemma twin_sorted srt : valid_sort srt ->
  srt (polar_less_ix XA (twin true)) (zrange 9) = order_up \/ srt (polar_less_ix XA (twin true)) (zrange 9) = order_down.
Proof.
  intros Hv.
  assert (H : In (srt (polar_less_ix XA (twin true)) (zrange 9)) (sorted_perms 9 (polar_less_ix XA (twin true)) (zrange 9))).
  { apply (valid_sort_perms srt (polar_less_ix XA (twin true)) (zrange 9)); auto.
    - apply zrange_NoDup.
    - apply swo_on_spec. vm_compute. reflexivity. }
  assert (E : sorted_perms 9 (polar_less_ix XA (twin true)) (zrange 9) = [order_up; order_down]) by (vm_compute; reflexivity).
  rewrite E in H. destruct H as [H|[H|[]]]; auto.
Qed.

Lemma twin_rings srt b : valid_sort srt ->
  extract_rings XA srt (twin b) = Ok [(0, srt (polar_less_ix XA (twin true)) (zrange 9))].
Proof.
  intros Hv. unfold extract_rings.
  assert (E : make_point_indices XA (twin b) = [(0, zrange 9)]) by (destruct b; vm_compute; reflexivity).
  rewrite E. unfold sort_each_ring. cbn [mapM fst snd]. unfold sort_by_atan2, std_sort.
  assert (C : polar_less_ix XA (twin b) = polar_less_ix XA (twin true)) by (destruct b; [auto|symmetry; apply twin_cmp]).
  rewrite C. assert (W : swo_on (polar_less_ix XA (twin true)) (zrange 9) = true) by (vm_compute; reflexivity).
  rewrite W. reflexivity.
Qed.

(** the curvatures of the one block of a ring of nine points *)
Definition twin_curvatures (m : mapped XA) : outcome (list (D XA)) :=
  ranges <- range_interval XA m 0 9 ;; curv <- calc_curvature XA ranges 1 ;; vslice curv 1 8.

Lemma twin_labels srt b s c : valid_sort srt -> s = order_up \/ s = order_down ->
  let m := {| m_cloud := twin b; m_indices := s |} in
  ring_labels XA srt twin_params m c = ring_labels XA isort twin_params m c.
Proof.
  intros Hv Hs m. apply ring_labels_sorters. intros ranges curv r j bb e cv H1 H2 H3 H4 H5 H6.
  assert (Hsz : m_size XA m = 9) by (destruct Hs as [-> | ->]; reflexivity).
  rewrite Hsz in *.
  assert (Er : r = {| ir_start := 1; ir_end := 8; ir_n := 1 |}) by (cbn in H3; inversion H3; auto). subst r.
  assert (Ej : j = 0).
  { unfold ir_begin, check_block in H4. cbn [ir_n] in H4. destruct (1 <=? j) eqn:J1; [discriminate|].
    destruct (j <? 0) eqn:J2; [discriminate|]. lia. }
  subst j.
  assert (Eb : bb = 1) by (vm_compute in H4; congruence). assert (Ee : e = 8) by (vm_compute in H5; congruence). subst bb e.
  assert (Hc : twin_curvatures m = Ok cv).
  { unfold twin_curvatures. rewrite H1. cbn [bind]. change (calc_curvature XA ranges 1 = Ok curv) in H2. rewrite H2. auto. }
  assert (Hp : match twin_curvatures m with
    | Ok v => length v = 7%nat /\ swo_on (by_value XA v) (zrange 7) = true /\
              sorted_perms 7 (by_value XA v) (zrange 7) = [isort (by_value XA v) (zrange 7)]
    | _ => False end).
  { subst m. destruct b, Hs as [-> | ->]; vm_compute; auto. }
  rewrite Hc in Hp. destruct Hp as [Hl [Hw Hp]]. unfold argsort, std_sort. rewrite Hl, Hw.
  assert (H : In (srt (by_value XA cv) (zrange 7)) (sorted_perms 7 (by_value XA cv) (zrange 7))).
  { apply (valid_sort_perms srt (by_value XA cv) (zrange 7)); auto; [apply zrange_NoDup|]. apply swo_on_spec. auto. }
  rewrite Hp in H. destruct H as [H|[]]. rewrite H. auto.
Qed.

(** what is published from a given order of the ring, with the reference sort *)
Definition twin_published (b : bool) (s : list Z) : outcome (clouds XA) :=
  ring_step XA isort twin_params (twin b) {| c_edge := []; c_surface := []; c_colored := [] |} (0, s).

Lemma twin_callback srt b : valid_sort srt ->
  callback XA srt (fun l => l) twin_params true true (twin b) =
  (st <- twin_published b (srt (polar_less_ix XA (twin true)) (zrange 9)) ;;
   Ok {| o_shutdown := false; o_colored := c_colored XA st; o_edge := map (xyz XA) (c_edge XA st);
         o_surface := map (xyz XA) (c_surface XA st) |}).
Proof.
  intros Hv. unfold callback. rewrite (twin_rings srt b Hv). cbn [bind].
  destruct (twin_sorted srt Hv) as [E|E]; rewrite E.
  - change (remove_sparse_rings [(0, order_up)] (p_padding XA twin_params + 1)) with [(0, order_up)].
    cbn [foldM]. unfold twin_published, ring_step, try_ring. cbn [snd].
    destruct (make_nb_xy XA _ _) as [c| | | | |]; cbn [bind]; auto.
    rewrite (twin_labels srt b order_up c Hv (or_introl eq_refl)). match goal with |- bind (bind ?X _) _ = _ => destruct X; reflexivity end.
  - change (remove_sparse_rings [(0, order_down)] (p_padding XA twin_params + 1)) with [(0, order_down)].
    cbn [foldM]. unfold twin_published, ring_step, try_ring. cbn [snd].
    destruct (make_nb_xy XA _ _) as [c| | | | |]; cbn [bind]; auto.
    rewrite (twin_labels srt b order_down c Hv (or_intror eq_refl)). match goal with |- bind (bind ?X _) _ = _ => destruct X; reflexivity end.
Qed.

Theorem C103_input_order_refuted srt : valid_sort srt ->
  exists (acosf : b64 -> b64) (P : params (ieee acosf)) cloud1 cloud2 out1 out2,
    valid_params (ieee acosf) P /\ Permutation cloud1 cloud2 /\ Forall (finite_xy acosf) cloud1 /\
    callback (ieee acosf) srt (fun l => l) P true true cloud1 = Ok out1 /\
    callback (ieee acosf) srt (fun l => l) P true true cloud2 = Ok out2 /\
    ~ Permutation (o_edge (ieee acosf) out1) (o_edge (ieee acosf) out2).
Proof.
  intros Hv.
  assert (HA : exists out, callback XA srt (fun l => l) twin_params true true (twin true) = Ok out /\
     length (o_edge XA out) = if list_eq_dec Z.eq_dec (srt (polar_less_ix XA (twin true)) (zrange 9)) order_up
                              then 0%nat else 1%nat).
  { rewrite (twin_callback srt true Hv). destruct (twin_sorted srt Hv) as [-> | ->].
    - assert (E : match twin_published true order_up with Ok st => length (map (xyz XA) (c_edge XA st)) = 0%nat | _ => False end) by (vm_compute; reflexivity).
      destruct (twin_published true order_up) as [st| | | | |]; try contradiction. cbn [bind]. eexists. split; [reflexivity|]. exact E.
    - assert (E : match twin_published true order_down with Ok st => length (map (xyz XA) (c_edge XA st)) = 1%nat | _ => False end) by (vm_compute; reflexivity).
      destruct (twin_published true order_down) as [st| | | | |]; try contradiction. cbn [bind]. eexists. split; [reflexivity|]. exact E. }
  assert (HB : exists out, callback XA srt (fun l => l) twin_params true true (twin false) = Ok out /\
     length (o_edge XA out) = if list_eq_dec Z.eq_dec (srt (polar_less_ix XA (twin true)) (zrange 9)) order_up
                              then 1%nat else 0%nat).
  { rewrite (twin_callback srt false Hv). destruct (twin_sorted srt Hv) as [-> | ->].
    - assert (E : match twin_published false order_up with Ok st => length (map (xyz XA) (c_edge XA st)) = 1%nat | _ => False end) by (vm_compute; reflexivity).
      destruct (twin_published false order_up) as [st| | | | |]; try contradiction. cbn [bind]. eexists. split; [reflexivity|]. exact E.
    - assert (E : match twin_published false order_down with Ok st => length (map (xyz XA) (c_edge XA st)) = 0%nat | _ => False end) by (vm_compute; reflexivity).
      destruct (twin_published false order_down) as [st| | | | |]; try contradiction. cbn [bind]. eexists. split; [reflexivity|]. exact E. }
  destruct HA as [o1 [C1 E1]], HB as [o2 [C2 E2]].
  exists ex_acos, twin_params, (twin true), (twin false), o1, o2.
  split; [exact twin_valid|]. split; [exact twin_perm|]. split.
  { repeat (apply Forall_cons; [split; vm_compute; reflexivity|]). apply Forall_nil. }
  split; [exact C1|]. split; [exact C2|].
  change (ieee ex_acos) with XA. intros HP. apply Permutation_length in HP. rewrite E1, E2 in HP.
  destruct (list_eq_dec _ _ _); discriminate.
Qed.
Print Assumptions C103_input_order_refuted.

(** ** What holds, in any arithmetic: if no two points of a ring have the same direction for
    the comparator, every order of the points gives the same features.  Missing: returns in
    the same direction. *)
Theorem C103_distinct_directions_partial A srt (P : params A) cloud1 cloud2 ord1 ord2 dense has_ring out1 :
  valid_sort srt -> valid_order ord1 -> valid_order ord2 ->
  1 <= p_padding A P -> zlen cloud1 + p_padding A P + 2 < 2 ^ 31 ->
  Permutation cloud1 cloud2 ->
  (forall i j p q, i <> j -> get cloud1 i = Some p -> get cloud1 j = Some q -> pring A p = pring A q ->
     polar_less A (px A p) (py A p) (px A q) (py A q) = true \/
     polar_less A (px A q) (py A q) (px A p) (py A p) = true) ->
  callback A srt ord1 P dense has_ring cloud1 = Ok out1 ->
  exists out2, callback A srt ord2 P dense has_ring cloud2 = Ok out2 /\
    Permutation (o_edge A out1) (o_edge A out2) /\
    Permutation (o_surface A out1) (o_surface A out2) /\
    Permutation (o_colored A out1) (o_colored A out2) /\
    o_shutdown A out1 = o_shutdown A out2.
Proof.
  intros Hv O1 O2 Hp Hs HP Ha H. exact (input_order_independent A srt Hv cloud1 cloud2 HP Ha P ord1 ord2 dense has_ring out1 Hp Hs O1 O2 H).
Qed.
Print Assumptions C103_distinct_directions_partial.

(** In exact arithmetic: the angles of the points of a ring are pairwise different. *)
Theorem C103_distinct_angles_partial srt (P : params exact) cloud1 cloud2 ord1 ord2 dense has_ring out1 :
  valid_sort srt -> valid_order ord1 -> valid_order ord2 ->
  1 <= p_padding exact P -> zlen cloud1 + p_padding exact P + 2 < 2 ^ 31 ->
  Permutation cloud1 cloud2 ->
  (forall i j p q, i <> j -> get cloud1 i = Some p -> get cloud1 j = Some q -> pring exact p = pring exact q ->
     atan2 (py exact p) (px exact p) <> atan2 (py exact q) (px exact q)) ->
  callback exact srt ord1 P dense has_ring cloud1 = Ok out1 ->
  exists out2, callback exact srt ord2 P dense has_ring cloud2 = Ok out2 /\
    Permutation (o_edge exact out1) (o_edge exact out2) /\
    Permutation (o_surface exact out1) (o_surface exact out2) /\
    Permutation (o_colored exact out1) (o_colored exact out2) /\
    o_shutdown exact out1 = o_shutdown exact out2.
Proof.
  intros Hv O1 O2 Hp Hs HP Ha H.
  apply (C103_distinct_directions_partial exact srt P cloud1 cloud2 ord1 ord2 dense has_ring out1); auto.
  intros i j p q Hij Hi Hj Hk. specialize (Ha i j p q Hij Hi Hj Hk).
  assert (Hx : forall a b c d : R, atan2 b a <> atan2 d c -> ~ (b = 0 /\ d = 0 /\ 0 < a /\ 0 < c)%R).
  { intros a b c d Hn [-> [-> [H1 H2]]]. apply Hn. rewrite !atan2_zero. destruct (Rlt_dec a 0), (Rlt_dec c 0); lra. }
  destruct (Rtotal_order (atan2 (py exact p) (px exact p)) (atan2 (py exact q) (px exact q))) as [L|[L|L]]; [left|contradiction|right].
  - apply polar_less_atan2; auto.
  - apply polar_less_atan2; auto.
Qed.
Print Assumptions C103_distinct_angles_partial.

(** the cloud of the other examples, and the same points in reverse *)
Example ex_C103 :
  (forall i j p q, i <> j -> get ex_cloud i = Some p -> get ex_cloud j = Some q -> pring XA p = pring XA q ->
     polar_less XA (px XA p) (py XA p) (px XA q) (py XA q) = true \/
     polar_less XA (px XA q) (py XA q) (px XA p) (py XA p) = true) /\
  match callback XA isort (fun l => l) ex_params true true ex_cloud,
        callback XA isort (fun l => l) ex_params true true (rev ex_cloud) with
  | Ok o, Ok o' => map xyzZ (o_edge XA o) = [(28170, 10290, 0); (9210, 3890, 0); (17841, 6517, 1); (17499, 7391, 1)] /\
      map xyzZ (o_edge XA o') = [(17841, 6517, 1); (17499, 7391, 1); (28170, 10290, 0); (9210, 3890, 0)]
  | _, _ => False
  end.
Proof.
  split; [|vm_compute; auto].
  assert (G : forallb (fun i => forallb (fun j => (i =? j) || match get ex_cloud i, get ex_cloud j with
     | Some p, Some q => negb (pring XA p =? pring XA q) || polar_less XA (px XA p) (py XA p) (px XA q) (py XA q) ||
                         polar_less XA (px XA q) (py XA q) (px XA p) (py XA p)
     | _, _ => false end) (zrange 26)) (zrange 26) = true) by (vm_compute; reflexivity).
  intros i j p q Hij Hi Hj Hk. rewrite forallb_forall in G.
  assert (B : forall k x, get ex_cloud k = Some x -> In k (zrange 26)).
  { intros k x Hg. apply FillProofs.get_bounds in Hg. change (zlen ex_cloud) with 26 in Hg. apply zrange_In. lia. }
  specialize (G i (B i p Hi)). rewrite forallb_forall in G. specialize (G j (B j q Hj)). rewrite Hi, Hj in G.
  apply orb_true_iff in G. destruct G as [G|G]; [apply Z.eqb_eq in G; contradiction|].
  apply orb_true_iff in G. destruct G as [G|G]; [|auto]. apply orb_true_iff in G. destruct G as [G|G]; [|auto].
  apply negb_true_iff, Z.eqb_neq in G. contradiction.
Qed.
