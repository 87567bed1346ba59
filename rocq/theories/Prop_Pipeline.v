(** C05, C06, C13-C18, C23: labels of a whole ring and the extraction callback. *)
From Coq Require Import List ZArith Reals Bool Lia Permutation.
From Flocq Require Import Core.Zaux Core.Raux IEEE754.BinarySingleNaN.
From Verif Require Import Base Arith ExtractModel Spec RefSort OcclusionProofs NeighborProofs RingProofs
  SeparationProofs CallbackProofs PipelineProofs RunProofs.
Import ListNotations.
Open Scope Z_scope.

(** * A concrete cloud
    Rings 0 and 1 have 12 points, ring 2 has 2 points. [ex_acos] is sqrt(2(1-x)), the
    leading term of acos near 1 (NaN above 1). *)
Definition ex_acos (x : b64) : b64 := sqrt64 (mul64 (of_Z64 2) (sub64 (of_Z64 1) x)).
Definition XA : arith := ieee ex_acos.
Definition ex_pt (r x y : Z) : point XA :=
  {| px := of_Z32 x : F XA; py := of_Z32 y; pz := of_Z32 r; pintensity := of_Z32 0; pring := r |}.
(** twelve directions about 0.05 rad apart, at given distances *)
Definition ex_dirs : list (Z * Z) :=
  [(995, 100); (989, 149); (980, 199); (969, 247); (955, 296); (939, 343);
   (921, 389); (900, 435); (878, 479); (853, 522); (825, 565); (796, 605)].
Definition ex_ring (r : Z) (dist : list Z) : list (point XA) :=
  map (fun dr => ex_pt r (fst (fst dr) * snd dr) (snd (fst dr) * snd dr)) (combine ex_dirs dist).
Definition ex_cloud : list (point XA) :=
  ex_ring 0 [10; 10; 10; 10; 10; 30; 10; 10; 10; 10; 10; 10] ++
  ex_ring 1 [10; 11; 12; 13; 14; 19; 19; 14; 13; 12; 11; 10] ++ [ex_pt 2 5 5; ex_pt 2 4 6].
(** padding 1, 2 blocks, thresholds chosen so that some points are edges and some are
    surfaces *)
Definition ex_params : params XA := {|
  p_padding := 1; p_rad := of_me64 1 (-2) : D XA; p_distance := of_Z64 50000 : D XA; p_ratio := of_Z64 5;
  p_edge := of_Z64 1000000; p_surface := of_Z64 10000; p_min := of_Z64 1; p_max := of_Z64 1000000;
  p_blocks := 2 |}.

Lemma id_order : valid_order (fun l => l).
Proof. intros l. apply Permutation_refl. Qed.
Lemma rev_order : valid_order (@rev _).
Proof. intros l. apply Permutation_rev. Qed.
Example ex_valid_params : valid_params XA ex_params.
Proof.
  split; [reflexivity|]. split; [reflexivity|].
  repeat (apply Forall_cons; [vm_compute; reflexivity|]). apply Forall_nil.
Qed.

(** ** C23 The neighbour relation gives the same outcome in both directions, IEEE doubles. *)
Theorem C23_neighbour_symmetric acosf m thr i j :
  nb (nb_xy (ieee acosf) m thr) i j = nb (nb_xy (ieee acosf) m thr) j i.
Proof. exact (nb_xy_symmetric (ieee acosf) m thr (ieee_mul_comm acosf) i j). Qed.
Print Assumptions C23_neighbour_symmetric.
Example ex_C23 :
  let m := {| m_cloud := ex_cloud; m_indices := [0; 1; 9] |} in
  nb (nb_xy XA m (of_me64 1 (-3))) 0 1 = Ok true /\ nb (nb_xy XA m (of_me64 1 (-3))) 2 0 = Ok false.
Proof. vm_compute. auto. Qed.

(** ** C05 is refuted: two Edge points next to each other, on the two sides of a block
    boundary. *)
Definition ex_ring1 : mapped XA :=
  {| m_cloud := ex_cloud; m_indices := [12; 13; 14; 15; 16; 17; 18; 19; 20; 21; 22; 23] |}.
Definition ex_labels1 : list label :=
  [Default; SurfaceNeighbor; Surface; SurfaceNeighbor; EdgeNeighbor; Edge; Edge; EdgeNeighbor;
   SurfaceNeighbor; Surface; SurfaceNeighbor; Default].
Example ex_C05_labels :
  exists curv, ring_labels XA isort ex_params ex_ring1 (nb_xy XA ex_ring1 (p_rad XA ex_params))
    = Ok (ex_labels1, curv).
Proof.
  assert (H : match ring_labels XA isort ex_params ex_ring1 (nb_xy XA ex_ring1 (p_rad XA ex_params)) with
    Ok (ls, _) => ls = ex_labels1 | _ => False end) by (vm_compute; reflexivity).
  destruct (ring_labels _ _ _ _ _) as [[ls curv]| | | | |]; try contradiction. subst. eauto.
Qed.

(** A ring with two Edge points next to each other, joined by a run of neighbours. *)
Theorem C05_ring_separation_refuted :
  ~ (forall acosf srt (P : params (ieee acosf)) m ls curv i k,
       let A := ieee acosf in
       valid_sort srt -> valid_params A P ->
       ring_labels A srt P m (nb_xy A m (p_rad A P)) = Ok (ls, curv) ->
       get ls i = Some Edge -> get ls k = Some Edge -> i < k ->
       run (nb_xy A m (p_rad A P)) i k -> p_padding A P < k - i).
Proof.
  intros H. destruct ex_C05_labels as [curv E].
  assert (Hr : run (nb_xy XA ex_ring1 (p_rad XA ex_params)) 5 6).
  { intros k Hk. assert (k = 5) as -> by lia. vm_compute. reflexivity. }
  specialize (H ex_acos isort ex_params ex_ring1 ex_labels1 curv 5 6 isort_valid ex_valid_params E
    eq_refl eq_refl eq_refl Hr).
  change (1 < 6 - 5) in H. lia.
Qed.
Print Assumptions C05_ring_separation_refuted.

(** What holds instead: inside each of the blocks [B j, B (j+1)), which partition
    [padding, size - padding), two points with the same feature label joined by a run of
    neighbours are more than [padding] apart. Missing: pairs across a block boundary. *)
Theorem C05_block_separation_partial acosf srt (P : params (ieee acosf)) m ls curv :
  let A := ieee acosf in
  0 <= p_padding A P -> p_padding A P + 1 <= m_size A m ->
  m_size A m + p_padding A P + 2 < 2 ^ 31 -> 1 <= p_blocks A P ->
  m_size A m * p_blocks A P <= 2 ^ 53 ->
  ring_labels A srt P m (nb_xy A m (p_rad A P)) = Ok (ls, curv) ->
  exists r B, padded_index_range (m_size A m) (p_blocks A P) (p_padding A P) = Ok r /\
    B 0 = p_padding A P /\ B (p_blocks A P) = m_size A m - p_padding A P /\
    (forall j, 0 <= j < p_blocks A P -> ir_begin A r j = Ok (B j) /\
                             ir_finish A r j = Ok (B (j + 1)) /\ B j <= B (j + 1)) /\
    (forall i, get ls i = Some Edge \/ get ls i = Some Surface ->
       p_padding A P <= i < m_size A m - p_padding A P) /\
    forall j lab i k, lab = Edge \/ lab = Surface -> 0 <= j < p_blocks A P ->
      B j <= i -> i < k -> k < B (j + 1) ->
      get ls i = Some lab -> get ls k = Some lab -> run (nb_xy A m (p_rad A P)) i k ->
      p_padding A P < k - i.
Proof. exact (ring_block_separated acosf srt P m ls curv). Qed.
Print Assumptions C05_block_separation_partial.

(** ** C06 Features keep clear of the ends of a ring. *)
Theorem C06_features_clear_of_ends acosf srt (P : params (ieee acosf)) m ls curv i :
  let A := ieee acosf in
  0 <= p_padding A P -> p_padding A P + 1 <= m_size A m ->
  m_size A m + p_padding A P + 2 < 2 ^ 31 -> 1 <= p_blocks A P ->
  m_size A m * p_blocks A P <= 2 ^ 53 ->
  ring_labels A srt P m (nb_xy A m (p_rad A P)) = Ok (ls, curv) ->
  get ls i = Some Edge \/ get ls i = Some Surface ->
  p_padding A P <= i < m_size A m - p_padding A P.
Proof.
  exact (fun a b c d e f => match ring_block_separated acosf srt P m ls curv a b c d e f with
    ex_intro _ r (ex_intro _ B (conj _ (conj _ (conj _ (conj _ (conj H _)))))) => H i end).
Qed.
Print Assumptions C06_features_clear_of_ends.
(** ring 1 of the example: size 12, padding 1, features at 2, 5, 6, 9; and with padding 5
    a ring of that size gets features only in [5, 7) *)
Example ex_C06 : get ex_labels1 2 = Some Surface /\ get ex_labels1 5 = Some Edge /\
  m_size XA ex_ring1 = 12.
Proof. auto. Qed.

(** ** C13 Published features are clean. *)
Theorem C13_features_clean A srt (P : params A) cloud ord dense has_ring out :
  valid_sort srt -> valid_order ord -> valid_params A P ->
  zlen cloud + p_padding A P + 2 < 2 ^ 31 ->
  callback A srt ord P dense has_ring cloud = Ok out ->
  forall lab q,
    (lab = Edge /\ In q (o_edge A out)) \/ (lab = Surface /\ In q (o_surface A out)) ->
    exists rings k ix i j pt curv v ranges,
      (* the point is entry i of the sorted ring k *)
      extract_rings A srt cloud = Ok rings /\ In (k, ix) rings /\
      get ix i = Some j /\ get cloud j = Some pt /\ q = xyz A pt /\
      let m := {| m_cloud := cloud; m_indices := ix |} in
      (* its range is inside the limits *)
      (let r := xy_norm A (f2d A (px A pt)) (f2d A (py A pt)) in
       d_leb A (p_min A P) r = true /\ d_leb A r (p_max A P) = true) /\
      (* it is not in the shadow of a jump *)
      ~ shadowed A (nb_xy A m (p_rad A P)) (range_at A m) (p_padding A P) (p_distance A P) (zlen ix) i /\
      (* it is not a parallel-beam point *)
      range_interval A m 0 (zlen ix) = Ok ranges /\
      (1 <= i < zlen ix - 1 -> ~ pb_at A (p_ratio A P) ranges i) /\
      (* its curvature qualifies *)
      calc_curvature A ranges (p_padding A P) = Ok curv /\ get curv i = Some v /\
      (if label_eqb lab Edge then d_leb A (p_edge A P) v = true else d_leb A v (p_surface A P) = true).
Proof. exact (features_clean A srt P cloud ord dense has_ring out). Qed.
Print Assumptions C13_features_clean.

Definition ex_out (ord : list (Z * list Z) -> list (Z * list Z)) :=
  callback XA isort ord ex_params true true ex_cloud.
Definition b32Z (x : b32) : Z := Btrunc x.
Definition xyzZ (q : b32 * b32 * b32) : Z * Z * Z :=
  (b32Z (fst (fst q)), b32Z (snd (fst q)), b32Z (snd q)).
(** the published points of the example cloud, rounded to integers (ring 2 is too short
    and is dropped; z is the ring number) *)
Example ex_callback :
  match ex_out (fun l => l) with
  | Ok o => map xyzZ (o_edge XA o) = [(28170, 10290, 0); (9210, 3890, 0); (17841, 6517, 1); (17499, 7391, 1)] /\
            map xyzZ (o_surface XA o) = [(9800, 1990, 0); (8530, 5220, 0); (11760, 2388, 1); (10236, 6264, 1)] /\
            length (o_colored XA o) = 24%nat /\ o_shutdown XA o = false
  | _ => False
  end.
Proof. vm_compute. auto. Qed.
Example ex_callback_ok ord : ord = (fun l => l) \/ ord = @rev _ -> exists o, ex_out ord = Ok o.
Proof.
  intros Ho.
  assert (H : match ex_out ord with Ok _ => True | _ => False end)
    by (destruct Ho as [-> | ->]; vm_compute; exact I).
  destruct (ex_out ord); try contradiction. eauto.
Qed.

(** ** C14 Features are a duplicate-free subset of the scan. *)
Theorem C14_duplicate_free_subset A srt (P : params A) cloud ord dense has_ring out :
  valid_order ord -> valid_sort srt ->
  callback A srt ord P dense has_ring cloud = Ok out ->
  exists e s, o_edge A out = coords A cloud e /\ o_surface A out = coords A cloud s /\
    NoDup (e ++ s) /\ forall k, In k (e ++ s) -> 0 <= k < zlen cloud.
Proof. exact (subset_no_duplicates A srt P cloud ord dense has_ring out). Qed.
Print Assumptions C14_duplicate_free_subset.

(** ** C15 One bad ring never damages the others: the three outputs are concatenations of
    per-ring contributions; a ring that raises invalid_argument contributes nothing, any
    other kept ring its Edge points, Surface points and all its points in colour. *)
Theorem C15_ring_isolation A srt (P : params A) cloud ord dense has_ring out :
  callback A srt ord P dense has_ring cloud = Ok out ->
  exists rings parts, extract_rings A srt cloud = Ok rings /\
    Forall2 (fun ring part =>
        let m := {| m_cloud := cloud; m_indices := snd ring |} in
        let processed := ring_labels A srt P m (nb_xy A m (p_rad A P)) in
        (processed = ThrowInvalid /\ part = ([], [], [])) \/
        (exists ls curv, processed = Ok (ls, curv) /\
           part = (coords A cloud (picked ls (snd ring) Edge),
                   coords A cloud (picked ls (snd ring) Surface),
                   colored_of A cloud ls (snd ring))))
      (ord (remove_sparse_rings rings (p_padding A P + 1))) parts /\
    o_edge A out = concat (map (fun t => fst (fst t)) parts) /\
    o_surface A out = concat (map (fun t => snd (fst t)) parts) /\
    o_colored A out = concat (map snd parts).
Proof. exact (isolation A srt P cloud ord dense has_ring out). Qed.
Print Assumptions C15_ring_isolation.

(** The publication always happens: the callback ends normally as soon as each ring that
    is kept is either processed or rejected with invalid_argument. *)
Theorem C15_publication_happens A srt (P : params A) cloud ord dense has_ring rings :
  valid_order ord -> valid_sort srt -> 1 <= p_padding A P ->
  extract_rings A srt cloud = Ok rings ->
  (forall k ix, In (k, ix) rings -> p_padding A P + 1 <= zlen ix ->
     let m := {| m_cloud := cloud; m_indices := ix |} in
     ring_labels A srt P m (nb_xy A m (p_rad A P)) = ThrowInvalid \/
     exists ls curv, ring_labels A srt P m (nb_xy A m (p_rad A P)) = Ok (ls, curv) /\
       zlen ls = zlen ix /\ zlen curv = zlen ix) ->
  exists out, callback A srt ord P dense has_ring cloud = Ok out.
Proof. exact (callback_total A srt P cloud ord dense has_ring rings). Qed.
Print Assumptions C15_publication_happens.

(** ring 1 replaced by points at the origin: it raises invalid_argument, ring 0 is
    published as before *)
Definition ex_bad_cloud : list (point XA) :=
  ex_ring 0 [10; 10; 10; 10; 10; 30; 10; 10; 10; 10; 10; 10] ++ repeat (ex_pt 1 0 0) 12.
Example ex_C15 :
  let m := {| m_cloud := ex_bad_cloud; m_indices := [12; 13; 14; 15; 16; 17; 18; 19; 20; 21; 22; 23] |} in
  ring_labels XA isort ex_params m (nb_xy XA m (p_rad XA ex_params)) = ThrowInvalid /\
  match callback XA isort (fun l => l) ex_params true true ex_bad_cloud with
  | Ok o => map xyzZ (o_edge XA o) = [(28170, 10290, 0); (9210, 3890, 0)] /\
            map xyzZ (o_surface XA o) = [(9800, 1990, 0); (8530, 5220, 0)] /\
            length (o_colored XA o) = 12%nat
  | _ => False
  end.
Proof. vm_compute. auto. Qed.

(** ** C18 Output does not depend on the ring map order. *)
Theorem C18_ring_order_independent A srt (P : params A) cloud ord1 ord2 dense has_ring out1 :
  valid_order ord1 -> valid_order ord2 ->
  callback A srt ord1 P dense has_ring cloud = Ok out1 ->
  exists out2, callback A srt ord2 P dense has_ring cloud = Ok out2 /\
    Permutation (o_edge A out1) (o_edge A out2) /\
    Permutation (o_surface A out1) (o_surface A out2) /\
    Permutation (o_colored A out1) (o_colored A out2) /\
    o_shutdown A out1 = o_shutdown A out2.
Proof. exact (order_independent A srt P cloud ord1 ord2 dense has_ring out1). Qed.
Print Assumptions C18_ring_order_independent.
(** the order does matter for the sequence: reversed iteration publishes ring 1 first *)
Example ex_C18 :
  match ex_out (@rev _) with
  | Ok o => map xyzZ (o_edge XA o) = [(17841, 6517, 1); (17499, 7391, 1); (28170, 10290, 0); (9210, 3890, 0)]
  | _ => False
  end.
Proof. vm_compute. auto. Qed.

(** ** C16 is refuted: a point with NaN coordinates makes some curvature values NaN; then
    std::sort is called with a comparator that is no strict weak order. The sort of the
    ring itself is fine (all points are collinear, none is smaller than another). *)
Definition nan_pt : point XA :=
  {| px := (B754_nan : b32) : F XA; py := B754_nan; pz := of_Z32 0; pintensity := of_Z32 0; pring := 0 |}.
Definition nan_cloud : list (point XA) :=
  [ex_pt 0 1 1; ex_pt 0 2 2; ex_pt 0 5 5; nan_pt; ex_pt 0 1 1; ex_pt 0 7 7; ex_pt 0 3 3; ex_pt 0 9 9].
Definition nan_params : params XA := {|
  p_padding := 1; p_rad := of_me64 1 (-2) : D XA; p_distance := of_Z64 50000 : D XA; p_ratio := of_Z64 5;
  p_edge := of_Z64 1000000; p_surface := of_Z64 10000; p_min := of_Z64 1; p_max := of_Z64 1000000;
  p_blocks := 1 |}.
Lemma nan_valid_params : valid_params XA nan_params.
Proof.
  split; [reflexivity|]. split; [reflexivity|].
  repeat (apply Forall_cons; [vm_compute; reflexivity|]). apply Forall_nil.
Qed.
Theorem C16_never_escapes_refuted :
  ~ (forall acosf srt ord (P : params (ieee acosf)) cloud rings dense has_ring,
       let A := ieee acosf in
       valid_sort srt -> valid_order ord -> valid_params A P ->
       zlen cloud + p_padding A P + 2 < 2 ^ 31 -> zlen cloud * p_blocks A P <= 2 ^ 53 ->
       extract_rings A srt cloud = Ok rings ->
       exists out, callback A srt ord P dense has_ring cloud = Ok out).
Proof.
  intros H.
  assert (Hr : extract_rings XA isort nan_cloud = Ok [(0, [0; 1; 2; 3; 4; 5; 6; 7])])
    by (vm_compute; reflexivity).
  assert (Hu : match callback XA isort (fun l => l) nan_params true true nan_cloud with
    UB => True | _ => False end) by (vm_compute; exact I).
  destruct (H ex_acos isort (fun l => l) nan_params nan_cloud [(0, [0; 1; 2; 3; 4; 5; 6; 7])] true true)
    as [out E].
  - exact isort_valid.
  - exact id_order.
  - exact nan_valid_params.
  - exact (eq_refl : (8 + 1 + 2 ?= 2 ^ 31) = Lt).
  - exact (proj1 (Z.leb_le (8 * 1) (2 ^ 53)) eq_refl).
  - exact Hr.
  - change (callback XA isort (fun l => l) nan_params true true nan_cloud = Ok out) in E.
    rewrite E in Hu. exact Hu.
Qed.
Print Assumptions C16_never_escapes_refuted.

(** What holds: the callback ends normally on every cloud with finite x and y. Missing:
    clouds with NaN or infinite coordinates. *)
Theorem C16_finite_clouds_partial acosf srt ord (P : params (ieee acosf)) cloud rings dense has_ring :
  let A := ieee acosf in
  valid_sort srt -> valid_order ord -> valid_params A P ->
  Forall (fun p => is_finite (px A p : b32) = true /\ is_finite (py A p : b32) = true) cloud ->
  zlen cloud + p_padding A P + 2 < 2 ^ 31 -> zlen cloud * p_blocks A P <= 2 ^ 53 ->
  extract_rings A srt cloud = Ok rings ->
  exists out, callback A srt ord P dense has_ring cloud = Ok out.
Proof. exact (never_escapes acosf srt ord P cloud rings dense has_ring). Qed.
Print Assumptions C16_finite_clouds_partial.
Lemma finite_cloud (l : list (point XA)) :
  forallb (fun p => is_finite (px XA p : b32) && is_finite (py XA p : b32)) l = true ->
  Forall (fun p => is_finite (px XA p : b32) = true /\ is_finite (py XA p : b32) = true) l.
Proof.
  intros H. apply Forall_forall. intros p Hp. rewrite forallb_forall in H. specialize (H p Hp).
  apply andb_true_iff in H. exact H.
Qed.
Example ex_C16 :
  Forall (fun p => is_finite (px XA p : b32) = true /\ is_finite (py XA p : b32) = true) ex_cloud /\
  extract_rings XA isort ex_cloud = Ok [(0, [0; 1; 2; 3; 4; 5; 6; 7; 8; 9; 10; 11]);
    (1, [12; 13; 14; 15; 16; 17; 18; 19; 20; 21; 22; 23]); (2, [24; 25])].
Proof. split; [apply finite_cloud|]; vm_compute; reflexivity. Qed.

(** ** C17 is refuted: padding 7, 13 blocks, a ring of 40 = 2*7 + 2*13 points. The rounded
    boundaries give block [29,30) one point only, and the ring is discarded. *)
Definition short_cloud : list (point XA) :=
  map (fun i => ex_pt 0 (40 - Z.of_nat i) (Z.of_nat i + 1)) (seq 0 40).
Definition short_params : params XA := {|
  p_padding := 7; p_rad := of_me64 1 (-2) : D XA; p_distance := of_Z64 50000 : D XA; p_ratio := of_Z64 5;
  p_edge := of_Z64 1000000; p_surface := of_me64 1 (-1000); p_min := of_Z64 1; p_max := of_Z64 1000000;
  p_blocks := 13 |}.
Lemma short_valid_params : valid_params XA short_params.
Proof.
  split; [reflexivity|]. split; [reflexivity|].
  repeat (apply Forall_cons; [vm_compute; reflexivity|]). apply Forall_nil.
Qed.
Theorem C17_long_ring_contributes_refuted :
  ~ (forall acosf srt ord (P : params (ieee acosf)) cloud rings k ix out dense has_ring,
       let A := ieee acosf in
       valid_sort srt -> valid_order ord -> valid_params A P ->
       Forall (fun p => is_finite (px A p : b32) = true /\ is_finite (py A p : b32) = true) cloud ->
       (forall i a b p q, get ix i = Some a -> get ix (i + 1) = Some b ->
          get cloud a = Some p -> get cloud b = Some q -> ~ (at_origin acosf p /\ at_origin acosf q)) ->
       callback A srt ord P dense has_ring cloud = Ok out ->
       extract_rings A srt cloud = Ok rings -> In (k, ix) rings ->
       2 * p_padding A P + 2 * p_blocks A P <= zlen ix ->
       forall a p, In a ix -> get cloud a = Some p ->
         exists c, In c (o_colored A out) /\ (cx A c, cy A c, cz A c) = xyz A p).
Proof.
  intros H.
  set (ix := map Z.of_nat (seq 0 40)).
  assert (Hr : extract_rings XA isort short_cloud = Ok [(0, ix)]) by (vm_compute; reflexivity).
  assert (Hc : match callback XA isort (fun l => l) short_params true true short_cloud with
    Ok o => length (o_colored XA o) = O | _ => False end) by (vm_compute; reflexivity).
  destruct (callback XA isort (fun l => l) short_params true true short_cloud) as [out| | | | |] eqn:E;
    try contradiction.
  assert (Hn : forallb (fun p => Bltb (of_Z32 0) (px XA p : b32)) short_cloud = true)
    by (vm_compute; reflexivity).
  destruct (H ex_acos isort (fun l => l) short_params short_cloud [(0, ix)] 0 ix out true true) with
    (a := 0) (p := ex_pt 0 40 1) as [c [Hin _]].
  - exact isort_valid.
  - exact id_order.
  - exact short_valid_params.
  - apply finite_cloud. vm_compute. reflexivity.
  - intros i a b p q _ _ Hp _ [[Hz _] _].
    rewrite forallb_forall in Hn.
    assert (Hip : In p short_cloud).
    { unfold get in Hp. destruct (a <? 0); [discriminate|]. eapply nth_error_In; eauto. }
    specialize (Hn p Hip). 
    assert (Hfin : is_finite (px XA p : b32) = true).
    { assert (HF : Forall (fun p => is_finite (px XA p : b32) = true /\ is_finite (py XA p : b32) = true) short_cloud)
      by (apply finite_cloud; vm_compute; reflexivity). rewrite Forall_forall in HF. apply HF; auto. }
    apply (Bltb_correct 24 128 (of_Z32 0) (px XA p)) in Hfin; [|reflexivity].
    pose proof (eq_trans (eq_sym Hn) Hfin) as Hlt. revert Hlt.
    generalize (eq_refl : B2R (of_Z32 0) = 0%R). intros Hz0. rewrite Hz0.
    change (B2R (px XA p : b32) = 0%R) in Hz. intros Hlt.
    rewrite (Raux.Rlt_bool_false 0 (B2R (px XA p : b32))) in Hlt; [discriminate|].
    apply Req_le. exact Hz.
  - exact E.
  - exact Hr.
  - left; reflexivity.
  - exact (proj1 (Z.leb_le (2 * 7 + 2 * 13) 40) eq_refl).
  - left; reflexivity.
  - reflexivity.
  - change (In c (o_colored XA out)) in Hin. destruct (o_colored XA out); [contradiction|discriminate].
Qed.
Print Assumptions C17_long_ring_contributes_refuted.

(** What holds: with three points per block, i.e. size >= 2*padding + 3*n_blocks, every
    point of the ring appears in the coloured cloud. *)
Theorem C17_three_points_per_block_partial acosf srt ord (P : params (ieee acosf)) cloud rings k ix out
    dense has_ring :
  let A := ieee acosf in
  valid_sort srt -> valid_order ord -> valid_params A P ->
  Forall (fun p => is_finite (px A p : b32) = true /\ is_finite (py A p : b32) = true) cloud ->
  zlen cloud + p_padding A P + 2 < 2 ^ 31 -> zlen cloud * p_blocks A P <= 2 ^ 53 ->
  (forall i a b p q, get ix i = Some a -> get ix (i + 1) = Some b ->
     get cloud a = Some p -> get cloud b = Some q -> ~ (at_origin acosf p /\ at_origin acosf q)) ->
  callback A srt ord P dense has_ring cloud = Ok out ->
  extract_rings A srt cloud = Ok rings -> In (k, ix) rings ->
  2 * p_padding A P + 3 * p_blocks A P <= zlen ix ->
  forall a p, In a ix -> get cloud a = Some p ->
    exists c, In c (o_colored A out) /\ (cx A c, cy A c, cz A c) = xyz A p.
Proof. exact (long_rings acosf srt ord P cloud rings k ix out dense has_ring). Qed.
Print Assumptions C17_three_points_per_block_partial.
(** rings 0 and 1 of the example cloud: 2*1 + 3*2 <= 12, all 24 points are drawn
    (ex_callback) *)
Example ex_C17 : 2 * p_padding XA ex_params + 3 * p_blocks XA ex_params <= 12.
Proof. cbv. discriminate. Qed.
