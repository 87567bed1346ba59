(** C01-C04, C10: edge/surface labelling of one block and label filling. *)
From Coq Require Import List ZArith Bool Lia.
From Verif Require Import Base Arith ExtractModel Spec FillProofs LabelProofs CompletenessProofs RefSort.
Import ListNotations.
Open Scope Z_scope.

(** ** C01 Two Edge points of a block joined by an unbroken run of neighbours are more
    than [p] positions apart. *)
Theorem C01_edges_separated A srt p thr c curv ls ls' :
  nb_symmetric c ->
  (forall i, get ls i <> Some Edge) ->
  edge_assign A srt p thr c curv ls = Ok ls' ->
  forall i j, get ls' i = Some Edge -> get ls' j = Some Edge -> i < j ->
  (forall k, i <= k < j -> nb c k (k + 1) = Ok true) ->
  p < j - i.
Proof. exact (edge_assign_separated A srt p thr c curv ls ls'). Qed.
Print Assumptions C01_edges_separated.

(** The same for Surface points. *)
Theorem C01_surfaces_separated A srt p thr c curv ls ls' :
  nb_symmetric c ->
  (forall i, get ls i <> Some Surface) ->
  surface_assign A srt p thr c curv ls = Ok ls' ->
  forall i j, get ls' i = Some Surface -> get ls' j = Some Surface -> i < j ->
  (forall k, i <= k < j -> nb c k (k + 1) = Ok true) ->
  p < j - i.
Proof. exact (surface_assign_separated A srt p thr c curv ls ls'). Qed.
Print Assumptions C01_surfaces_separated.

(** ** C02 *)
Theorem C02_edge_sound A srt p thr c curv ls ls' :
  0 <= p -> edge_assign A srt p thr c curv ls = Ok ls' ->
  forall i, get ls' i = Some Edge ->
    get ls i = Some Edge \/
    (get ls i = Some Default /\ exists v, get curv i = Some v /\ d_leb A thr v = true).
Proof. exact (edge_assign_sound A srt p thr c curv ls ls'). Qed.
Print Assumptions C02_edge_sound.

Theorem C02_surface_sound A srt p thr c curv ls ls' :
  0 <= p -> surface_assign A srt p thr c curv ls = Ok ls' ->
  forall i, get ls' i = Some Surface ->
    get ls i = Some Surface \/
    (get ls i = Some Default /\ exists v, get curv i = Some v /\ d_leb A v thr = true).
Proof. exact (surface_assign_sound A srt p thr c curv ls ls'). Qed.
Print Assumptions C02_surface_sound.

(** Neither pass creates a label of the other kind. *)
Theorem C02_passes_do_not_mix A srt p eth sth c curv ls ls' :
  0 <= p ->
  (edge_assign A srt p eth c curv ls = Ok ls' ->
     forall i, get ls' i = Some Surface -> get ls i = Some Surface) /\
  (surface_assign A srt p sth c curv ls = Ok ls' ->
     forall i, get ls' i = Some Edge -> get ls i = Some Edge).
Proof.
  exact (fun Hp => conj (edge_assign_surface A srt p eth c curv ls ls' Hp)
                        (surface_assign_edge A srt p sth c curv ls ls' Hp)).
Qed.
Print Assumptions C02_passes_do_not_mix.

(** ** C03 A Default candidate is an Edge itself (k = i) or within [p] positions, along
    an unbroken run of neighbours, of an Edge whose curvature is not smaller. *)
Theorem C03_edge_maximal A srt p thr c curv ls ls' :
  valid_sort srt -> 0 <= p -> nb_symmetric c -> (forall i, get ls i <> Some Edge) ->
  edge_assign A srt p thr c curv ls = Ok ls' ->
  forall i v, get ls i = Some Default -> get curv i = Some v -> d_leb A thr v = true ->
  exists k w, get ls' k = Some Edge /\ within c p k i /\
              get curv k = Some w /\ d_ltb A w v = false.
Proof. exact (edge_assign_cover A srt p thr c curv ls ls'). Qed.
Print Assumptions C03_edge_maximal.

(** The same for the surface pass, with the smallest curvatures first: a Default candidate
    is within [p] positions, along an unbroken run of neighbours, of a Surface point whose
    curvature is not larger. *)
Theorem C03_surface_maximal A srt p thr c curv ls ls' :
  valid_sort srt -> 0 <= p -> nb_symmetric c -> (forall i, get ls i <> Some Surface) ->
  surface_assign A srt p thr c curv ls = Ok ls' ->
  forall i v, get ls i = Some Default -> get curv i = Some v -> d_leb A v thr = true ->
  exists k w, get ls' k = Some Surface /\ within c p k i /\
              get curv k = Some w /\ d_ltb A v w = false.
Proof. exact (surface_assign_cover A srt p thr c curv ls ls'). Qed.
Print Assumptions C03_surface_maximal.

(** The pass is defined (no exception, no out-of-bounds access) whenever the curvatures
    can be sorted and neighbours can be asked: the hypothesis "= Ok" above is met. *)
Theorem C03_edge_pass_defined A srt p thr c curv ls :
  valid_sort srt -> 0 <= p ->
  zlen curv = zlen ls -> nb_size c = zlen ls -> nb_total c (zlen ls) ->
  strict_weak_order (by_value A curv) (zrange (length curv)) ->
  exists ls', edge_assign A srt p thr c curv ls = Ok ls' /\ zlen ls' = zlen ls.
Proof. exact (edge_assign_total A srt p thr c curv ls). Qed.
Print Assumptions C03_edge_pass_defined.

Theorem C03_surface_pass_defined A srt p thr c curv ls :
  valid_sort srt -> 0 <= p -> ls <> [] ->
  zlen curv = zlen ls -> nb_size c = zlen ls -> nb_total c (zlen ls) ->
  strict_weak_order (by_value A curv) (zrange (length curv)) ->
  exists ls', surface_assign A srt p thr c curv ls = Ok ls' /\ zlen ls' = zlen ls.
Proof. exact (surface_assign_total A srt p thr c curv ls). Qed.
Print Assumptions C03_surface_pass_defined.

(** ** C04 *)
Theorem C04_surface_keeps_edges A srt1 srt2 p eth sth c curv ls ls1 ls2 :
  0 <= p -> nb_symmetric c -> (forall i, get ls i <> Some Edge) ->
  edge_assign A srt1 p eth c curv ls = Ok ls1 ->
  surface_assign A srt2 p sth c curv ls1 = Ok ls2 ->
  forall i, get ls2 i = Some Edge <-> get ls1 i = Some Edge.
Proof. exact (surface_keeps_edges A srt1 srt2 p eth sth c curv ls ls1 ls2). Qed.
Print Assumptions C04_surface_keeps_edges.

(** ** Non-vacuity: a block of eight points in two groups, two Edge points, one of them
    suppressing a third candidate, one Default point suppressed, one already labelled. *)
Definition ex_arith := ieee (fun x => x).
Definition ex_curv : list (D ex_arith) := map of_Z64 [9; 8; 1; 1; 7; 9; 0; 6].
Definition ex_labels := [Default; Default; Default; Occluded; Default; Default; Default; Default].
Definition ex_nb := nb_debug [1; 1; 1; 1; 2; 2; 2; 2].

Lemma nb_debug_symmetric values : nb_symmetric (nb_debug values).
Proof.
  intros i j. simpl. unfold vat.
  destruct (i <? 0), (j <? 0); simpl; auto;
    destruct (nth_error values (Z.to_nat i)), (nth_error values (Z.to_nat j)); simpl; auto.
  rewrite Z.eqb_sym. auto.
Qed.

Example ex_edge_pass :
  edge_assign ex_arith isort 1 (of_Z64 5) ex_nb ex_curv ex_labels =
  Ok [Edge; EdgeNeighbor; Default; Occluded; EdgeNeighbor; Edge; EdgeNeighbor; Edge].
Proof. vm_compute. reflexivity. Qed.

Example ex_edge_then_surface :
  surface_assign ex_arith isort 1 (of_Z64 2) ex_nb ex_curv
    [Edge; EdgeNeighbor; Default; Occluded; EdgeNeighbor; Edge; EdgeNeighbor; Edge] =
  Ok [Edge; SurfaceNeighbor; Surface; SurfaceNeighbor; EdgeNeighbor; Edge; EdgeNeighbor; Edge].
Proof. vm_compute. reflexivity. Qed.

Example ex_no_edge_before : forall i, get ex_labels i <> Some Edge.
Proof.
  intros i H. pose proof (get_bounds _ _ _ H) as Hb. change (0 <= i < 8) in Hb.
  assert (Hc : i = 0 \/ i = 1 \/ i = 2 \/ i = 3 \/ i = 4 \/ i = 5 \/ i = 6 \/ i = 7) by lia.
  decompose [or] Hc; subst; vm_compute in H; discriminate.
Qed.

(** C01 on this block: 5 and 7 are joined (same group) and 2 > 1 apart. *)
Example ex_C01 : 1 < 7 - 5 :=
  C01_edges_separated _ _ _ _ _ _ _ _ (nb_debug_symmetric _) ex_no_edge_before ex_edge_pass
    5 7 eq_refl eq_refl eq_refl
    ltac:(intros k Hk; assert (k = 5 \/ k = 6) as [-> | ->] by lia; reflexivity).

(** C03 on the candidate 1 (curvature 8): suppressed by 0 (curvature 9). *)
Example ex_C03 : exists k w, get [Edge; EdgeNeighbor; Default; Occluded; EdgeNeighbor; Edge; EdgeNeighbor; Edge] k = Some Edge
   /\ within ex_nb 1 k 1 /\ get ex_curv k = Some w /\ d_ltb ex_arith w (of_Z64 8) = false :=
  C03_edge_maximal ex_arith isort 1 (of_Z64 5) ex_nb ex_curv ex_labels _ isort_valid (ltac:(lia)) (nb_debug_symmetric _)
    ex_no_edge_before ex_edge_pass 1 (of_Z64 8) eq_refl eq_refl eq_refl.

(** C03 for surfaces on a block of five: the candidates 0 (curvature 2) and 2 (curvature 1)
    are suppressed by 1 (curvature 0). *)
Example ex_surface_pass :
  surface_assign ex_arith isort 1 (of_Z64 3) (nb_debug [1; 1; 1; 1; 1]) (map of_Z64 [2; 0; 1; 9; 3])
    [Default; Default; Default; Default; Default] =
  Ok [SurfaceNeighbor; Surface; SurfaceNeighbor; SurfaceNeighbor; Surface].
Proof. vm_compute. reflexivity. Qed.
Example ex_C03_surface : exists k w,
   get [SurfaceNeighbor; Surface; SurfaceNeighbor; SurfaceNeighbor; Surface] k = Some Surface /\
   within (nb_debug [1; 1; 1; 1; 1]) 1 k 2 /\
   get (map of_Z64 [2; 0; 1; 9; 3] : list (D ex_arith)) k = Some w /\ d_ltb ex_arith (of_Z64 1) w = false.
Proof.
  refine (C03_surface_maximal ex_arith isort 1 (of_Z64 3) _ _ _ _ isort_valid (ltac:(lia))
    (nb_debug_symmetric _) _ ex_surface_pass 2 (of_Z64 1) eq_refl eq_refl eq_refl).
  intros i H. pose proof (get_bounds _ _ _ H) as Hb. change (0 <= i < 5) in Hb.
  assert (Hc : i = 0 \/ i = 1 \/ i = 2 \/ i = 3 \/ i = 4) by lia.
  decompose [or] Hc; subst; vm_compute in H; discriminate.
Qed.

(** Without the symmetry of the relation C04 would fail: with an asymmetric relation the
    surface pass overwrites an Edge point. So the hypothesis carries weight. *)
Definition ex_asym : nbcheck :=
  {| nb_size := 2; nb := fun i j => Ok (j <? i) |}.
Example ex_C04_needs_symmetry :
  edge_assign ex_arith isort 1 (of_Z64 5) ex_asym (map of_Z64 [9; 1]) [Default; Default] =
    Ok [Edge; Default] /\
  surface_assign ex_arith isort 1 (of_Z64 2) ex_asym (map of_Z64 [9; 1]) [Edge; Default] =
    Ok [SurfaceNeighbor; Surface].
Proof. vm_compute. auto. Qed.

(** ** C10 *)

(** The window [b, e) is non-empty and inside: exactly the positions reachable from [b]
    to the right get the label, the others keep theirs. *)
Theorem C10_fill_from_left c b e lab ls ls' :
  b < e -> fill_from_left c b e lab ls = Ok ls' ->
  0 <= b /\ e <= zlen ls /\ zlen ls' = zlen ls /\
  (forall k, b <= k < e -> (forall m, b <= m < k -> nb c m (m + 1) = Ok true) ->
     get ls' k = Some lab) /\
  (forall k, ~ (b <= k < e /\ forall m, b <= m < k -> nb c m (m + 1) = Ok true) ->
     get ls' k = get ls k).
Proof. exact (fill_left_exact c b e lab ls ls'). Qed.
Print Assumptions C10_fill_from_left.

Theorem C10_fill_from_right c b e lab ls ls' :
  b < e -> fill_from_right c b e lab ls = Ok ls' ->
  -1 <= b /\ e < zlen ls /\ zlen ls' = zlen ls /\
  (forall k, b < k <= e -> (forall m, k < m <= e -> nb c m (m - 1) = Ok true) ->
     get ls' k = Some lab) /\
  (forall k, ~ (b < k <= e /\ forall m, k < m <= e -> nb c m (m - 1) = Ok true) ->
     get ls' k = get ls k).
Proof. exact (fill_right_exact c b e lab ls ls'). Qed.
Print Assumptions C10_fill_from_right.

Theorem C10_fill_neighbors c i p lab ls ls' :
  nb_symmetric c -> 0 <= p -> 0 <= i < zlen ls ->
  fill_neighbors c i p lab ls = Ok ls' ->
  zlen ls' = zlen ls /\
  (forall k, 0 <= k < zlen ls -> within c p i k -> get ls' k = Some lab) /\
  (forall k, ~ within c p i k -> get ls' k = get ls k).
Proof. exact (fill_neighbors_exact c i p lab ls ls'). Qed.
Print Assumptions C10_fill_neighbors.

(** Windows outside the array raise invalid_argument, windows inside are filled without
    any failure. *)
Theorem C10_fill_errors c b e lab ls :
  nb_size c = zlen ls ->
  (zlen ls < e \/ b < 0 -> fill_from_left c b e lab ls = ThrowInvalid) /\
  (zlen ls <= e \/ b < -1 -> fill_from_right c b e lab ls = ThrowInvalid) /\
  (nb_total c (zlen ls) -> 0 <= b -> b < e -> e <= zlen ls ->
     exists ls', fill_from_left c b e lab ls = Ok ls') /\
  (nb_total c (zlen ls) -> -1 <= b -> b < e -> e < zlen ls ->
     exists ls', fill_from_right c b e lab ls = Ok ls').
Proof. exact (fill_errors c b e lab ls). Qed.
Print Assumptions C10_fill_errors.

Theorem C10_fill_neighbors_defined c i p lab ls :
  0 <= p -> 0 <= i < zlen ls -> nb_size c = zlen ls -> nb_total c (zlen ls) ->
  exists ls', fill_neighbors c i p lab ls = Ok ls'.
Proof. exact (fill_neighbors_total c i p lab ls). Qed.
Print Assumptions C10_fill_neighbors_defined.

Example ex_C10 :
  fill_from_left ex_nb 1 7 Occluded ex_labels =
    Ok [Default; Occluded; Occluded; Occluded; Default; Default; Default; Default] /\
  fill_from_right ex_nb 2 7 Occluded ex_labels =
    Ok [Default; Default; Default; Occluded; Occluded; Occluded; Occluded; Occluded] /\
  fill_neighbors ex_nb 5 2 Edge ex_labels =
    Ok [Default; Default; Default; Occluded; Edge; Edge; Edge; Edge] /\
  fill_from_left ex_nb 1 9 Occluded ex_labels = ThrowInvalid /\
  fill_from_right ex_nb (-2) 3 Occluded ex_labels = ThrowInvalid.
Proof. vm_compute. auto. Qed.
