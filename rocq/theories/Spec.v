(** Specification vocabulary used in the statements of the properties.  Nothing in
    this file is a model of code; it is meant to be read next to the English
    property. *)
From Coq Require Import List ZArith Bool Permutation Sorting.Sorted Reals.
From Flocq Require Import IEEE754.BinarySingleNaN.
From Verif Require Import Base Arith ExtractModel.
Import ListNotations.
Open Scope Z_scope.

(** Element of an array at an integer position, None outside. *)
Definition get {A : Type} (l : list A) (i : Z) : option A :=
  if i <? 0 then None else nth_error l (Z.to_nat i).

(** The strict-weak-ordering requirement of std::sort, as a proposition. *)
Definition strict_weak_order {A : Type} (lt : A -> A -> bool) (l : list A) : Prop :=
  (forall a, In a l -> lt a a = false) /\
  (forall a b c, In a l -> In b l -> In c l ->
     lt a b = true -> lt b c = true -> lt a c = true) /\
  (forall a b c, In a l -> In b l -> In c l ->
     lt a b = false -> lt b a = false -> lt b c = false -> lt c b = false ->
     lt a c = false /\ lt c a = false).

(** What the C++ standard guarantees about std::sort: a permutation in which no later
    element is less than an earlier one. *)
Definition valid_sort (srt : sorter) : Prop :=
  forall lt l, strict_weak_order lt l ->
    Permutation l (srt lt l) /\
    StronglySorted (fun a b => lt b a = false) (srt lt l).

(** The neighbour relation gives the same answer (truth value or exception) in both
    directions. *)
Definition nb_symmetric (c : nbcheck) : Prop := forall i j, nb c i j = nb c j i.

(** Positions i..j (i <= j) form an unbroken run of neighbours. *)
Definition run (c : nbcheck) (i j : Z) : Prop :=
  forall k, i <= k < j -> nb c k (k + 1) = Ok true.

(** Same, with the neighbour relation asked in the leftward direction, as
    FillFromRight does. *)
Definition run_left (c : nbcheck) (i j : Z) : Prop :=
  forall k, i < k <= j -> nb c k (k - 1) = Ok true.

(** [k] is within [d] positions of [i] along an unbroken run of neighbours. *)
Definition within (c : nbcheck) (d i k : Z) : Prop :=
  Z.abs (i - k) <= d /\ run c (Z.min i k) (Z.max i k).

(** The neighbour relation answers (does not throw) for all adjacent positions of an
    array of [n] points. *)
Definition nb_total (c : nbcheck) (n : Z) : Prop :=
  forall i j, 0 <= i < n -> 0 <= j < n -> Z.abs (i - j) = 1 -> exists b, nb c i j = Ok b.

(** The range of point [i + 1] exceeds that of point [i] by more than the threshold
    (as the code computes it), seen from the left; both ranges must be readable. *)
Definition jump (A : arith) (rng : Z -> outcome (D A)) (thr : D A) (near far : Z) : Prop :=
  exists r0 r1, rng near = Ok r0 /\ rng far = Ok r1 /\ d_ltb A (d_add A r0 thr) r1 = true.

(** Point [k] lies in the shadow of a range jump of an array of [n] points: the jump is
    between neighbouring points, [k] is on the far side within [p + 1] points, connected
    to the jump through an unbroken run of neighbours, and the jump is far enough from
    the end towards which the shadow is cast. *)
Definition shadowed (A : arith) (c : nbcheck) (rng : Z -> outcome (D A)) (p : Z) (thr : D A)
    (n k : Z) : Prop :=
  (exists i, 0 <= i /\ i + p + 1 < n /\ nb c i (i + 1) = Ok true /\ jump A rng thr i (i + 1) /\
     i + 1 <= k <= i + 1 + p /\ run c (i + 1) k) \/
  (exists i, p + 1 <= i /\ i < n /\ nb c i (i - 1) = Ok true /\ jump A rng thr i (i - 1) /\
     i - 1 - p <= k <= i - 1 /\ run_left c k (i - 1)).

(** The cloud indices [ix i] of the positions [i] of a ring labelled [lab], in ring
    order. *)
Definition picked (ls : list label) (ix : list Z) (lab : label) : list Z :=
  map snd (filter (fun li => label_eqb (fst li) lab) (combine ls ix)).

(** Coordinates of the cloud points with the given indices. *)
Definition coords (A : arith) (cloud : list (point A)) (idx : list Z) : list (F A * F A * F A) :=
  flat_map (fun k => match get cloud k with Some p => [xyz A p] | None => [] end) idx.

(** All points of a ring, each in the colour of its label. *)
Definition colored_of (A : arith) (cloud : list (point A)) (ls : list label) (ix : list Z)
    : list (colored A) :=
  flat_map (fun li => match get cloud (snd li) with
     | Some p => [{| cx := px A p; cy := py A p; cz := pz A p; crgb := label_to_color (fst li) |}]
     | None => [] end) (combine ls ix).

(** An iteration order of the unordered_map: some permutation of its entries. *)
Definition valid_order (ord : list (Z * list Z) -> list (Z * list Z)) : Prop :=
  forall l, Permutation l (ord l).

(** Sum over k = 0 .. length w - 1 of input[i + k] * w[k], accumulated from the left
    in the given arithmetic. *)
Definition window_sum (A : arith) (input w : list (D A)) (i : nat) : D A :=
  fold_left (fun s k => d_add A s (d_mul A (nth (i + k) input (d_of_Z A 0)) (nth k w (d_of_Z A 0))))
            (seq 0 (length w)) (d_of_Z A 0).

(** The start-up checks on the parameters (all positive,
    extraction/include/lidar_feature_extraction/hyper_parameter.hpp:51-63; the angle is in
    radians here). *)
Definition valid_params (A : arith) (P : params A) : Prop :=
  0 < p_padding A P /\ 0 < p_blocks A P /\
  Forall (fun v => d_ltb A (d_of_Z A 0) v = true)
    [p_rad A P; p_distance A P; p_ratio A P; p_edge A P; p_surface A P; p_min A P; p_max A P].

(** The point at i is answered a range outside [mn, mx]. *)
Definition bad_range (A : arith) (rng : Z -> outcome (D A)) (mn mx : D A) (i : Z) : Prop :=
  exists r, rng i = Ok r /\ (d_leb A mn r && d_leb A r mx = false).

(** The ranges of both neighbours of i differ from that of i by more than the fraction thr
    of it (the quotients rounded to float). *)
Definition pb_at (A : arith) (thr : D A) (ranges : list (D A)) (i : Z) : Prop :=
  exists a r b, get ranges (i - 1) = Some a /\ get ranges i = Some r /\ get ranges (i + 1) = Some b /\
    d_ltb A thr (f2d A (d2f A (d_div A (d_abs A (d_sub A a r)) r))) = true /\
    d_ltb A thr (f2d A (d2f A (d_div A (d_abs A (d_sub A b r)) r))) = true.

(** Horizontal coordinates of a point (in IEEE arithmetic): both finite; both zero. *)
Definition finite_xy (acosf : b64 -> b64) (p : point (ieee acosf)) : Prop :=
  is_finite (px (ieee acosf) p : b32) = true /\ is_finite (py (ieee acosf) p : b32) = true.
Definition at_origin (acosf : b64 -> b64) (p : point (ieee acosf)) : Prop :=
  B2R (px (ieee acosf) p : b32) = 0%R /\ B2R (py (ieee acosf) p : b32) = 0%R.
