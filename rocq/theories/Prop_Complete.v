(** C85, C86: completeness of the feature selection, and the checks on the message. *)
From Coq Require Import List ZArith Reals Bool Lia String.
From Flocq Require Import Core.Zaux Core.Raux IEEE754.BinarySingleNaN.
From Verif Require Import Base Arith ExtractModel NodeModel Spec SpecRing RefSort FillProofs NeighborProofs
  CompletenessProofs Prop_Pipeline.
Import ListNotations.
Open Scope Z_scope.

(** * C85 A strong point that passes all the validity checks is published as an edge or
    lies within the padding of a published edge. *)

(** A foreground corner in front of a wall: ranges 10 10 10 | 30 29 28 ... The corner is
    position 2. The wall point 3 next to it has the larger curvature, takes the Edge label,
    suppresses the corner, and is then itself discarded as occluded. *)
Definition ex_corner_params : params XA := {|
  p_padding := 1; p_rad := of_me64 1 (-2) : D XA; p_distance := of_Z64 10000 : D XA; p_ratio := of_Z64 5;
  p_edge := of_Z64 1000000; p_surface := of_Z64 10000; p_min := of_Z64 1; p_max := of_Z64 1000000;
  p_blocks := 2 |}.
Definition ex_corner : mapped XA :=
  {| m_cloud := ex_ring 0 [10; 10; 10; 30; 29; 28; 27; 26; 25; 24; 23; 22];
     m_indices := [0; 1; 2; 3; 4; 5; 6; 7; 8; 9; 10; 11] |}.
Definition ex_corner_labels : list label :=
  [Default; Surface; SurfaceNeighbor; Occluded; Occluded; Surface; Surface; SurfaceNeighbor;
   SurfaceNeighbor; Surface; SurfaceNeighbor; Default].
Example ex_corner_run : exists curv v,
  ring_labels XA isort ex_corner_params ex_corner (nb_xy XA ex_corner (p_rad XA ex_corner_params))
    = Ok (ex_corner_labels, curv) /\
  get curv 2 = Some v /\ d_leb XA (p_edge XA ex_corner_params) v = true.
Proof.
  assert (H : match ring_labels XA isort ex_corner_params ex_corner
                      (nb_xy XA ex_corner (p_rad XA ex_corner_params)) with
    | Ok (ls, c) => ls = ex_corner_labels /\
        match get c 2 with Some v => d_leb XA (p_edge XA ex_corner_params) v = true | None => False end
    | _ => False end) by (vm_compute; auto).
  destruct (ring_labels _ _ _ _ _) as [[ls curv]| | | | |]; try contradiction.
  destruct H as [-> H]. exists curv. destruct (get curv 2) as [v|]; [|contradiction]. eauto.
Qed.

Lemma ex_corner_valid : valid_params XA ex_corner_params.
Proof.
  split; [reflexivity|]. split; [reflexivity|].
  repeat (apply Forall_cons; [vm_compute; reflexivity|]). apply Forall_nil.
Qed.

(** The corner passes the three checks. *)
Lemma ex_corner_not_masked : ~ masked XA ex_corner_params ex_corner 2.
Proof.
  assert (NJ : forall a b, (a = 0 /\ b = 1) \/ (a = 1 /\ b = 2) \/ (a = 3 /\ b = 2) \/ (a = 4 /\ b = 3) ->
    ~ jump XA (range_at XA ex_corner) (p_distance XA ex_corner_params) a b).
  { intros a b Hab [r0 [r1 [H0 [H1 H2]]]].
    assert (H : match range_at XA ex_corner a, range_at XA ex_corner b with
      | Ok r0, Ok r1 => d_ltb XA (d_add XA r0 (p_distance XA ex_corner_params)) r1 = false
      | _, _ => False end) by (decompose [or and] Hab; subst; vm_compute; reflexivity).
    rewrite H0, H1 in H. congruence. }
  assert (NB : match range_at XA ex_corner 2 with
    | Ok r => d_leb XA (p_min XA ex_corner_params) r && d_leb XA r (p_max XA ex_corner_params) = true
    | _ => False end) by (vm_compute; reflexivity).
  assert (NP : match range_interval XA ex_corner 0 (m_size XA ex_corner) with
    | Ok ranges => match get ranges 1, get ranges 2 with
        | Some a, Some r => d_ltb XA (p_ratio XA ex_corner_params)
             (f2d XA (d2f XA (d_div XA (d_abs XA (d_sub XA a r)) r))) = false
        | _, _ => False end
    | _ => False end) by (vm_compute; reflexivity).
  intros [[[i [H1 [H2 [H3 [H4 [H5 H6]]]]]]|[i [H1 [H2 [H3 [H4 [H5 H6]]]]]]]|[H|[_ [ranges [Hr H]]]]].
  - change (p_padding XA ex_corner_params) with 1 in *.
    apply (NJ i (i + 1)); auto. lia.
  - change (p_padding XA ex_corner_params) with 1 in *.
    apply (NJ i (i - 1)); auto. lia.
  - destruct H as [r [Hr H]]. rewrite Hr in NB. congruence.
  - rewrite Hr in NP. destruct H as [a [r [b [Ha [Hr' [Hb [H1 H2]]]]]]].
    change (2 - 1) with 1 in Ha. rewrite Ha, Hr' in NP. congruence.
Qed.

Theorem C85_strong_points_represented_refuted :
  ~ (forall acosf srt (P : params (ieee acosf)) m ls curv i v,
       let A := ieee acosf in
       valid_sort srt -> valid_params A P ->
       ring_labels A srt P m (nb_xy A m (p_rad A P)) = Ok (ls, curv) ->
       p_padding A P <= i < m_size A m - p_padding A P ->
       get curv i = Some v -> d_leb A (p_edge A P) v = true ->
       ~ masked A P m i ->
       exists k, within (nb_xy A m (p_rad A P)) (p_padding A P) k i /\ get ls k = Some Edge).
Proof.
  intros H.
  destruct ex_corner_run as [curv [v [E [Hv Hok]]]].
  destruct (H ex_acos isort ex_corner_params ex_corner ex_corner_labels curv 2 v
    isort_valid ex_corner_valid E ltac:(vm_compute; split; congruence) Hv Hok ex_corner_not_masked)
    as [k [_ Hk]].
  pose proof (get_bounds _ _ _ Hk) as Hb. change (0 <= k < 12) in Hb.
  assert (Hc : k = 0 \/ k = 1 \/ k = 2 \/ k = 3 \/ k = 4 \/ k = 5 \/ k = 6 \/ k = 7 \/ k = 8 \/ k = 9 \/
               k = 10 \/ k = 11) by lia.
  decompose [or] Hc; subst; vm_compute in Hk; discriminate.
Qed.
Print Assumptions C85_strong_points_represented_refuted.

(** What holds: every point of a block whose curvature reaches the edge threshold lies
    within the padding (along a run of neighbours, in its block) of a point with no smaller
    curvature that is an Edge or fails a validity check; every point whose curvature is at
    most the surface threshold lies within the padding of such a point with no larger
    curvature that is a Surface or fails a check, or of an edge candidate. The blocks
    [B j, B (j+1)) partition [padding, size - padding). Missing: the representative may
    fail a check although the point itself does not. *)
Theorem C85_candidates_represented_partial acosf srt (P : params (ieee acosf)) m ls curv :
  let A := ieee acosf in
  valid_sort srt ->
  0 <= p_padding A P -> p_padding A P + 1 <= m_size A m ->
  m_size A m + p_padding A P + 2 < 2 ^ 31 -> 1 <= p_blocks A P ->
  m_size A m * p_blocks A P <= 2 ^ 53 ->
  ring_labels A srt P m (nb_xy A m (p_rad A P)) = Ok (ls, curv) ->
  exists r B, padded_index_range (m_size A m) (p_blocks A P) (p_padding A P) = Ok r /\
    B 0 = p_padding A P /\ B (p_blocks A P) = m_size A m - p_padding A P /\
    (forall j, 0 <= j < p_blocks A P -> ir_begin A r j = Ok (B j) /\
                             ir_finish A r j = Ok (B (j + 1)) /\ B j <= B (j + 1)) /\
    forall j i v, 0 <= j < p_blocks A P -> B j <= i < B (j + 1) -> get curv i = Some v ->
      (d_leb A (p_edge A P) v = true ->
         exists k w, B j <= k < B (j + 1) /\
           within (nb_xy A m (p_rad A P)) (p_padding A P) k i /\
           get curv k = Some w /\ d_ltb A w v = false /\
           (get ls k = Some Edge \/ masked A P m k)) /\
      (d_leb A v (p_surface A P) = true ->
         exists k w, B j <= k < B (j + 1) /\
           within (nb_xy A m (p_rad A P)) (p_padding A P) k i /\
           get curv k = Some w /\
           ((d_leb A (p_edge A P) w = true /\ (get ls k = Some Edge \/ masked A P m k)) \/
            (d_leb A w (p_surface A P) = true /\ d_ltb A v w = false /\
             (get ls k = Some Surface \/ masked A P m k)))).
Proof. exact (ring_complete acosf srt P m ls curv). Qed.
Print Assumptions C85_candidates_represented_partial.

(** Non-vacuity: ring 1 of the cloud of Prop_Pipeline has two edge candidates that are
    Edge (5 and 6), their neighbours, and surface candidates 2 and 9. *)
Example ex_C85 : exists curv,
  ring_labels XA isort ex_params ex_ring1 (nb_xy XA ex_ring1 (p_rad XA ex_params)) = Ok (ex_labels1, curv) /\
  exists r B, padded_index_range (m_size XA ex_ring1) (p_blocks XA ex_params) (p_padding XA ex_params) = Ok r /\
    B 0 = 1 /\ B 2 = 11 /\
    forall i v, 1 <= i < 11 -> get curv i = Some v -> d_leb XA (p_edge XA ex_params) v = true ->
      exists k, within (nb_xy XA ex_ring1 (p_rad XA ex_params)) 1 k i /\
        (get ex_labels1 k = Some Edge \/ masked XA ex_params ex_ring1 k).
Proof.
  destruct ex_C05_labels as [curv E]. exists curv. split; [exact E|].
  destruct (C85_candidates_represented_partial ex_acos isort ex_params ex_ring1 ex_labels1 curv isort_valid
    ltac:(vm_compute; congruence) ltac:(vm_compute; congruence) ltac:(vm_compute; reflexivity)
    ltac:(vm_compute; congruence) ltac:(vm_compute; congruence) E) as [r [B [Hr [B0 [B1 [HB Hc]]]]]].
  exists r, B. split; [exact Hr|]. split; [exact B0|]. split; [exact B1|].
  intros i v Hi Hv Hok.
  change (p_padding (ieee ex_acos) ex_params) with 1 in *.
  change (p_blocks (ieee ex_acos) ex_params) with 2 in *.
  change (m_size (ieee ex_acos) ex_ring1 - 1) with 11 in *.
  assert (Hj : exists j, 0 <= j < 2 /\ B j <= i < B (j + 1)).
  { destruct (Z_lt_le_dec i (B 1)); [exists 0|exists 1]; simpl; lia. }
  destruct Hj as [j [Hj Hij]].
  destruct (Hc j i v Hj Hij Hv) as [H _]. destruct (H Hok) as [k [w [_ [Hw [_ [_ Hl]]]]]].
  exists k. auto.
Qed.

(** * C86 A shutdown is requested exactly for a message that is not dense or has no ring
    field, and the features are a function of the points only. *)
Theorem C86_shutdown_exactly_when_unusable A srt ord (P : params A) dense fields cloud out :
  on_scan A srt ord P dense fields cloud = Ok out ->
  (o_shutdown A out = true <-> dense = false \/ ~ In "ring"%string fields) /\
  forall dense' fields', exists out', on_scan A srt ord P dense' fields' cloud = Ok out' /\
    o_edge A out' = o_edge A out /\ o_surface A out' = o_surface A out /\
    o_colored A out' = o_colored A out.
Proof.
  assert (Hr : forall fs, ring_is_available fs = true <-> In "ring"%string fs).
  { intros fs. unfold ring_is_available. rewrite existsb_exists. split.
    - intros [x [Hx E]]. apply String.eqb_eq in E. subst. auto.
    - intros H. exists "ring"%string. auto. }
  unfold on_scan, callback. intros H.
  destruct (extract_rings A srt cloud) as [rings0| | | | |]; try discriminate. simpl in *.
  destruct (foldM _ _ _) as [st| | | | |] eqn:Ef; try discriminate. simpl in *.
  inversion H; subst; clear H. simpl. split.
  - specialize (Hr fields). destruct dense, (ring_is_available fields); simpl; intuition congruence.
  - intros. eexists. split; [reflexivity|]. auto.
Qed.
Print Assumptions C86_shutdown_exactly_when_unusable.
Example ex_C86 :
  match on_scan XA isort (fun l => l) ex_params true ["x"; "y"; "z"; "intensity"; "ring"]%string ex_cloud,
        on_scan XA isort (fun l => l) ex_params true ["x"; "y"; "z"; "intensity"]%string ex_cloud with
  | Ok o1, Ok o2 => o_shutdown XA o1 = false /\ o_shutdown XA o2 = true /\
                    length (o_edge XA o1) = 4%nat /\ length (o_edge XA o2) = 4%nat
  | _, _ => False
  end.
Proof. vm_compute. auto. Qed.
