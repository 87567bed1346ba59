(** C19-C22, C24-C28: polar order and rings, neighbour of a copy, convolution, curvature,
    ranges, colours. *)
From Coq Require Import List ZArith Reals Bool Lia Lra Sorting.Sorted.
From Flocq Require Import Core.Zaux IEEE754.BinarySingleNaN.
From Verif Require Import Base Arith ExtractModel Spec SpecReal RefSort RingMapProofs NeighborProofs
  AngleProofs ConvProofs CurvatureProofs MiscProofs Prop_Pipeline.
Import ListNotations.
Open Scope Z_scope.

(** ** The reference [atan2] of SpecReal.v is the polar angle. *)
Theorem C19_atan2_is_polar_angle (x y : R) : (x <> 0 \/ y <> 0)%R ->
  (- PI < atan2 y x <= PI /\
  x = sqrt (x * x + y * y) * cos (atan2 y x) /\ y = sqrt (x * x + y * y) * sin (atan2 y x))%R.
Proof. exact (atan2_polar x y). Qed.
Print Assumptions C19_atan2_is_polar_angle.

(** ** C19 is refuted: two distinct points on the positive x axis have the same angle 0 but
    each is reported smaller than the other. *)
Theorem C19_comparator_is_atan2_refuted :
  ~ (forall ax ay bx by_ : R,
       polar_less exact ax ay bx by_ = true <-> (atan2 ay ax < atan2 by_ bx)%R).
Proof.
  intros H. pose proof (proj1 (H 1 0 2 0)%R (polar_less_axis 1 2 ltac:(lra) ltac:(lra) ltac:(lra))) as G.
  rewrite !atan2_zero in G. destruct (Rlt_dec 1 0), (Rlt_dec 2 0); lra.
Qed.
Print Assumptions C19_comparator_is_atan2_refuted.

(** It is exactly that case: everywhere else the comparator is atan2 < atan2. *)
Theorem C19_comparator_off_axis_partial (ax ay bx by_ : R) :
  ~ (ay = 0 /\ by_ = 0 /\ 0 < ax /\ 0 < bx)%R ->
  (polar_less exact ax ay bx by_ = true <-> (atan2 ay ax < atan2 by_ bx)%R).
Proof. exact (polar_less_atan2 ax ay bx by_). Qed.
Print Assumptions C19_comparator_off_axis_partial.
Example ex_C19 : ~ (1 = 0 /\ -1 = 0 /\ 0 < 2 /\ 0 < -3)%R.
Proof. lra. Qed.

(** ** C20 is refuted, already by two points on the positive x axis ... *)
Definition fpt (x y : Z) : point XA :=
  {| px := of_Z32 x : F XA; py := of_Z32 y; pz := of_Z32 0; pintensity := of_Z32 0; pring := 0 |}.
Theorem C20_strict_weak_order_refuted :
  ~ (forall acosf (cloud : list (point (ieee acosf))) ix,
       Forall (fun p => is_finite (px (ieee acosf) p : b32) = true /\ is_finite (py (ieee acosf) p : b32) = true) cloud ->
       (forall i, In i ix -> 0 <= i < zlen cloud) -> NoDup ix ->
       strict_weak_order (polar_less_ix (ieee acosf) cloud) ix).
Proof.
  intros H. destruct (H ex_acos [fpt 1 0; fpt 2 0] [0; 1]) as [Hi [Ht _]].
  - repeat constructor.
  - intros i [<-|[<-|[]]]; cbv; split; congruence.
  - repeat constructor; cbv; intuition congruence.
  - specialize (Ht 0 1 0 ltac:(left; auto) ltac:(right; left; auto) ltac:(left; auto)).
    rewrite Hi in Ht by (left; auto). discriminate Ht; vm_compute; reflexivity.
Qed.
Print Assumptions C20_strict_weak_order_refuted.

(** ... and, by rounding of the determinant, by three points of the open first quadrant:
    a ~ b and b ~ c are incomparable, but a < c or c < a. *)
Theorem C20_strict_weak_order_rounding_refuted :
  let cloud := [fpt 735833 748633; fpt 735834 748634; fpt 735835 748635] in
  let less := polar_less_ix XA cloud in
  less 0 1 = false /\ less 1 0 = false /\ less 1 2 = false /\ less 2 1 = false /\
  (less 0 2 = true \/ less 2 0 = true).
Proof. vm_compute. intuition. Qed.
Print Assumptions C20_strict_weak_order_rounding_refuted.

(** What holds: in exact arithmetic, with at most one point on the positive x axis, the
    comparator is a strict weak ordering. Missing: rounding, several points on that axis. *)
Theorem C20_strict_weak_order_exact_partial (cloud : list (point exact)) ix :
  (forall i, In i ix -> 0 <= i < zlen cloud) ->
  (forall i j p q, In i ix -> In j ix -> get cloud i = Some p -> get cloud j = Some q ->
     (py exact p : R) = 0%R -> (0 < (px exact p : R))%R -> (py exact q : R) = 0%R -> (0 < (px exact q : R))%R -> i = j) ->
  strict_weak_order (polar_less_ix exact cloud) ix.
Proof. exact (polar_order_points cloud ix). Qed.
Print Assumptions C20_strict_weak_order_exact_partial.
Definition rpt (x y : R) : point exact :=
  {| px := x : F exact; py := y; pz := 0%R; pintensity := 0%R; pring := 0 |}.
Example ex_C20 : forall i j p q, In i [0; 1; 2] -> In j [0; 1; 2] ->
  get [rpt 1 0; rpt (-1) 0; rpt 0 1] i = Some p -> get [rpt 1 0; rpt (-1) 0; rpt 0 1] j = Some q ->
  (py exact p : R) = 0%R -> (0 < (px exact p : R))%R -> (py exact q : R) = 0%R -> (0 < (px exact q : R))%R -> i = j.
Proof.
  intros i j p q [<-|[<-|[<-|[]]]] [<-|[<-|[<-|[]]]] H1 H2; auto;
    inversion H1; inversion H2; subst; simpl; intros; exfalso; lra.
Qed.

(** ** C21 Rings are angle-sorted partitions of the cloud. *)
Theorem C21_rings_partition A srt cloud rings :
  valid_sort srt -> extract_rings A srt cloud = Ok rings ->
  NoDup (map fst rings) /\
  (forall i p, get cloud i = Some p -> exists ix, In (pring A p, ix) rings) /\
  forall k ix, In (k, ix) rings ->
    ix <> [] /\ NoDup ix /\
    (forall i, In i ix <-> exists p, get cloud i = Some p /\ pring A p = k) /\
    strict_weak_order (polar_less_ix A cloud) ix /\
    StronglySorted (fun a b => polar_less_ix A cloud b a = false) ix.
Proof. exact (extract_rings_spec A srt cloud rings). Qed.
Print Assumptions C21_rings_partition.

(** In exact arithmetic the order is that of the polar angle. *)
Theorem C21_rings_angle_sorted srt cloud rings k ix :
  valid_sort srt -> extract_rings exact srt cloud = Ok rings -> In (k, ix) rings ->
  StronglySorted (fun a b => forall p q, get cloud a = Some p -> get cloud b = Some q ->
      (atan2 (py exact p) (px exact p) <= atan2 (py exact q) (px exact q))%R) ix.
Proof. exact (rings_angle_sorted srt cloud rings k ix). Qed.
Print Assumptions C21_rings_angle_sorted.

Theorem C21_sparse_rings rings n r :
  In r (remove_sparse_rings rings n) <-> In r rings /\ n <= zlen (snd r).
Proof. exact (remove_sparse_spec rings n r). Qed.
Print Assumptions C21_sparse_rings.
(** an unsorted ring of three points and a ring of one *)
Example ex_C21 :
  extract_rings XA isort [fpt (-1) 5; fpt 5 1; ex_pt 3 7 7; fpt (-3) (-4)] =
    Ok [(0, [3; 1; 0]); (3, [2])] /\
  remove_sparse_rings [(0, [3; 1; 0]); (3, [2])] 2 = [(0, [3; 1; 0])].
Proof. vm_compute. auto. Qed.

(** ** C22 is refuted: for every acos that returns NaN above 1 (C standard: domain
    error), the point (2,3) is not a neighbour of its copy, whatever the threshold; the
    computed cosine is 1 + 2^-52. *)
Definition pt23 acosf : point (ieee acosf) :=
  {| px := of_Z32 2 : F (ieee acosf); py := of_Z32 3; pz := of_Z32 0; pintensity := of_Z32 0; pring := 0 |}.
Theorem C22_neighbour_of_copy_refuted acosf thr :
  (forall x, Bltb (of_Z64 1) x = true -> acosf x = B754_nan) ->
  is_neighbor_xy (ieee acosf) thr (pt23 acosf) (pt23 acosf) = Ok false.
Proof.
  intros H. unfold is_neighbor_xy, calc_radian.
  cbn [ieee D F f2d d_add d_mul d_div d_acos d_ltb d_eqb d_of_Z px py pt23].
  set (c := div64 _ _).
  assert (Hc : Bltb (of_Z64 1) c = true) by (vm_compute; reflexivity).
  assert (Hz : Beqb (xy_norm (ieee acosf) (conv64 (of_Z32 2)) (conv64 (of_Z32 3))) (of_Z64 0) = false)
    by (vm_compute; reflexivity).
  rewrite Hz. cbn [andb bind]. rewrite (H c Hc). reflexivity.
Qed.
Print Assumptions C22_neighbour_of_copy_refuted.

(** In exact arithmetic points in the same direction are neighbours. Missing: rounding. *)
Theorem C22_same_direction_exact_partial (p q : point exact) k thr :
  (0 < k)%R -> (px exact q : R) = (k * px exact p)%R -> (py exact q : R) = (k * py exact p)%R ->
  ((px exact p : R) <> 0%R \/ (py exact p : R) <> 0%R) -> (0 < thr)%R ->
  is_neighbor_xy exact thr p q = Ok true.
Proof. exact (same_direction p q k thr). Qed.
Print Assumptions C22_same_direction_exact_partial.
Example ex_C22 : is_neighbor_xy exact (1/1000)%R (rpt 2 3) (rpt 4 6) = Ok true.
Proof. apply (C22_same_direction_exact_partial _ _ 2); simpl; try lra. Qed.

(** ** C24 Convolution is the sliding window sum. *)
Theorem C24_convolution A input w : Nat.odd (length w) = true ->
  ((length input < length w)%nat /\ convolution1d A input w = ThrowInvalid) \/
  (exists out p, length w = (2 * p + 1)%nat /\ convolution1d A input w = Ok out /\
     length out = length input /\
     (forall i, (i < p \/ length input - p <= i < length input)%nat ->
        nth_error out i = Some (d_of_Z A 0)) /\
     (forall i, (i + 2 * p < length input)%nat ->
        nth_error out (p + i) = Some (window_sum A input w i))).
Proof. exact (convolution_spec A input w). Qed.
Print Assumptions C24_convolution.
(** In exact arithmetic [window_sum] is the sum of input[i+k] * w[k]. *)
Theorem C24_window_sum_exact (input w : list R) i :
  window_sum exact input w i = rsum (fun k => nth (i + k) input 0 * nth k w 0)%R (seq 0 (length w)).
Proof. exact (window_sum_exact input w i). Qed.
Print Assumptions C24_window_sum_exact.
Definition trunc_list (o : outcome (list b64)) : outcome (list (option Z)) :=
  match o with Ok l => Ok (map trunc64 l) | ThrowInvalid => ThrowInvalid | _ => UB end.
Example ex_C24 :
  trunc_list (convolution1d XA (map of_Z64 [1; 2; 3; 4; 6]) (map of_Z64 [1; -2; 5])) =
    Ok [Some 0; Some 12; Some 16; Some 25; Some 0] /\
  trunc_list (convolution1d XA (map of_Z64 [1; 2]) (map of_Z64 [1; -2; 5])) = ThrowInvalid.
Proof. vm_compute. auto. Qed.

(** ** C25 Curvature, exact arithmetic. The value at an interior position is the square of
    the summed second differences, at the ends it is 0. *)
Theorem C25_curvature_value p (r : list R) curv :
  calc_curvature exact r (Z.of_nat p) = Ok curv -> (1 <= p)%nat ->
  (2 * p + 1 <= length r)%nat /\ length curv = length r /\
  forall j, (j < length r)%nat ->
    nth_error curv j =
      Some (if ((p <=? j) && (j <? length r - p))%nat
            then Rsqr (second_diff (fun k => nth k r 0%R) p j) else 0%R).
Proof. exact (curvature_exact p r curv). Qed.
Print Assumptions C25_curvature_value.
Theorem C25_nonnegative p (r : list R) curv : (1 <= p)%nat ->
  calc_curvature exact r (Z.of_nat p) = Ok curv -> Forall (fun v : R => (0 <= v)%R) curv.
Proof. exact (curvature_nonneg p r curv). Qed.
Theorem C25_shift_invariant p (r : list R) c : (1 <= p)%nat ->
  calc_curvature exact (map (fun x => x + c)%R r) (Z.of_nat p) = calc_curvature exact r (Z.of_nat p).
Proof. exact (curvature_shift p r c). Qed.
Theorem C25_zero_on_progression p (r : list R) a d curv : (1 <= p)%nat ->
  (forall i, (i < length r)%nat -> nth_error r i = Some (a + d * INR i)%R) ->
  calc_curvature exact r (Z.of_nat p) = Ok curv -> Forall (fun v : R => v = 0%R) curv.
Proof. exact (curvature_progression p r a d curv). Qed.
Theorem C25_quadratic_scaling p (r : list R) c : (1 <= p)%nat ->
  calc_curvature exact (map (fun x => c * x)%R r) (Z.of_nat p) =
  (k <- calc_curvature exact r (Z.of_nat p) ;; Ok (map (fun v => c * c * v)%R k)).
Proof. exact (curvature_scale p r c). Qed.
Theorem C25_reversal p (r : list R) : (1 <= p)%nat ->
  calc_curvature exact (rev r) (Z.of_nat p) = (k <- calc_curvature exact r (Z.of_nat p) ;; Ok (rev k)).
Proof. exact (curvature_rev p r). Qed.
Print Assumptions C25_nonnegative.
Print Assumptions C25_shift_invariant.
Print Assumptions C25_zero_on_progression.
Print Assumptions C25_quadratic_scaling.
Print Assumptions C25_reversal.
Example ex_C25 : exists curv, calc_curvature exact [1; 2; 4; 8; 16]%R (Z.of_nat 1) = Ok curv /\
  nth_error curv 2 = Some 4%R.
Proof.
  eexists. split; [apply (curvature_ok exact 1); simpl; lia|]. simpl. f_equal.
  unfold curv_sum, weight_at. simpl. ring.
Qed.
Example ex_C25_ieee :
  trunc_list (calc_curvature XA (map of_Z64 [1; 2; 4; 8; 16]) 1) = Ok [Some 0; Some 1; Some 4; Some 16; Some 0].
Proof. vm_compute. reflexivity. Qed.

(** ** C26 is refuted: with begin > 0 the ranges of the first points are returned. *)
Theorem C26_range_interval_refuted :
  ~ (forall A m b e rs, 0 <= b <= e -> e <= m_size A m -> range_interval A m b e = Ok rs ->
       forall k, 0 <= k < e - b -> exists v, get rs k = Some v /\ range_at A m (b + k) = Ok v).
Proof.
  intros H.
  set (m := {| m_cloud := [fpt 3 4; fpt 6 8]; m_indices := [0; 1] |}).
  destruct (range_interval XA m 1 2) as [rs| | | | |] eqn:E.
  2-6: assert (G : match range_interval XA m 1 2 with Ok _ => True | _ => False end)
         by (vm_compute; exact I); rewrite E in G; contradiction.
  destruct (H XA m 1 2 rs ltac:(lia) ltac:(cbv; discriminate) E 0 ltac:(lia)) as [v [H1 H2]].
  assert (G : match range_interval XA m 1 2, range_at XA m 1 with
     | Ok rs, Ok v => match get rs 0 with Some w => Beqb (w : b64) (v : b64) = false | None => False end
     | _, _ => False end) by (vm_compute; reflexivity).
  rewrite E in G. change (1 + 0) with 1 in H2. rewrite H2, H1 in G.
  assert (Gt : match range_at XA m 1 with Ok v => Beqb (v : b64) (v : b64) = true | _ => False end)
    by (vm_compute; reflexivity).
  rewrite H2 in Gt. pose proof (eq_trans (eq_sym G) Gt). discriminate.
Qed.
Print Assumptions C26_range_interval_refuted.
(** With begin = 0, the only use in the package, it is right. *)
Theorem C26_range_from_zero_partial A m e rs : 0 <= e ->
  range_interval A m 0 e = Ok rs ->
  zlen rs = e /\ forall k, 0 <= k < e -> exists v, get rs k = Some v /\ range_at A m k = Ok v.
Proof. exact (range_interval_from_zero A m e rs). Qed.
Print Assumptions C26_range_from_zero_partial.
Example ex_C26 : trunc_list (range_interval XA {| m_cloud := [fpt 3 4; fpt 6 8]; m_indices := [1; 0] |} 0 2)
  = Ok [Some 10; Some 5].
Proof. vm_compute. reflexivity. Qed.

(** ** C27 is refuted: edges and surfaces have the same colour. *)
Theorem C27_colours_distinguish_refuted :
  ~ (forall a b, label_to_color a = label_to_color b -> a = b).
Proof. intros H. specialize (H Edge Surface eq_refl). discriminate. Qed.
Print Assumptions C27_colours_distinguish_refuted.
(** Up to that confusion (and that of their neighbours) colours identify labels. *)
Theorem C27_colours_up_to_edge_surface_partial a b :
  label_to_color a = label_to_color b ->
  a = b \/ (In a [Edge; Surface] /\ In b [Edge; Surface]) \/
  (In a [EdgeNeighbor; SurfaceNeighbor] /\ In b [EdgeNeighbor; SurfaceNeighbor]).
Proof. destruct a, b; intros H; try discriminate H; simpl; tauto. Qed.
Print Assumptions C27_colours_up_to_edge_surface_partial.
Example ex_C27 : label_to_color Occluded <> label_to_color ParallelBeam.
Proof. discriminate. Qed.

(** ** C28 is refuted: the minimum is not subtracted. On [1,2] the value 1 gets colour 255
    and the value 2 is converted from 510, undefined for uint8_t. *)
Theorem C28_value_colour_refuted :
  value_to_color XA (of_Z64 1) (of_Z64 1) (of_Z64 2) = Ok 255 /\
  value_to_color XA (of_Z64 2) (of_Z64 1) (of_Z64 2) = UB.
Proof. vm_compute. auto. Qed.
Print Assumptions C28_value_colour_refuted.
(** With min = 0 (exact arithmetic) it is as intended. *)
Theorem C28_value_colour_zero_min_partial (mx : R) : (0 < mx)%R ->
  value_to_color exact 0%R 0%R mx = Ok 0 /\ value_to_color exact mx 0%R mx = Ok 255 /\
  forall v w, (v <= w)%R -> exists a b,
    value_to_color exact v 0%R mx = Ok a /\ value_to_color exact w 0%R mx = Ok b /\ 0 <= a <= b /\ b <= 255.
Proof. exact (fun H => conj (value_to_color_min mx H) (conj (value_to_color_max mx H)
  (fun v w => value_to_color_mono v w mx H))). Qed.
Print Assumptions C28_value_colour_zero_min_partial.
Example ex_C28 : value_to_color XA (of_Z64 3) (of_Z64 0) (of_Z64 10) = Ok 76.
Proof. vm_compute. reflexivity. Qed.
