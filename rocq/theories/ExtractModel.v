(** Model of the feature extraction package (/repo/extraction).

    All paths are relative to /repo; "x/" abbreviates
    extraction/include/lidar_feature_extraction/. *)
From Coq Require Import List ZArith Bool.
From Verif Require Import Base Arith.
Import ListNotations.
Open Scope Z_scope.

(** x/point_label.hpp:32-42. *)
Inductive label :=
| Default | Edge | EdgeNeighbor | Surface | SurfaceNeighbor
| OutOfRange | Occluded | ParallelBeam.

(** Equality of the enum values of x/point_label.hpp:32-42. *)
Definition label_eqb (a b : label) : bool :=
  match a, b with
  | Default, Default | Edge, Edge | EdgeNeighbor, EdgeNeighbor
  | Surface, Surface | SurfaceNeighbor, SurfaceNeighbor
  | OutOfRange, OutOfRange | Occluded, Occluded | ParallelBeam, ParallelBeam => true
  | _, _ => false
  end.

(** x/label.hpp:56-59 InitLabels. *)
Definition init_labels (n : nat) : list label := repeat Default n.

(** Interface NeighborCheckBase, x/neighbor.hpp:50-62: a size and a query that may
    throw. *)
Record nbcheck := { nb_size : Z; nb : Z -> Z -> outcome bool }.

(** x/neighbor.hpp:116-136 NeighborCheckDebug. *)
Definition nb_debug (values : list Z) : nbcheck := {|
  nb_size := zlen values;
  nb := fun i j => a <- vat values i ;; b <- vat values j ;; Ok (a =? b)
|}.

(** * Filling (x/fill.hpp) *)

(** Loop of FillFromLeft, x/fill.hpp:60-67, [n] iterations left, then the final
    assignment of line 67. *)
Fixpoint fill_left_loop (c : nbcheck) (lab : label) (e : Z) (n : nat) (i : Z)
    (ls : list label) : outcome (list label) :=
  match n with
  | O => vset ls (e - 1) lab
  | S m =>
      ls1 <- vset ls i lab ;;
      b <- nb c i (i + 1) ;;
      if b then fill_left_loop c lab e m (i + 1) ls1 else Ok ls1
  end.

(** x/fill.hpp:40-68 FillFromLeft. *)
Definition fill_from_left (c : nbcheck) (b e : Z) (lab : label) (ls : list label)
    : outcome (list label) :=
  assert_ (zlen ls =? nb_size c) (
  if zlen ls <? e then ThrowInvalid
  else if b <? 0 then ThrowInvalid
  else fill_left_loop c lab e (Z.to_nat (e - 1 - b)) b ls).

(** Loop of FillFromRight, x/fill.hpp:91-98. *)
Fixpoint fill_right_loop (c : nbcheck) (lab : label) (b : Z) (n : nat) (i : Z)
    (ls : list label) : outcome (list label) :=
  match n with
  | O => vset ls (b + 1) lab
  | S m =>
      ls1 <- vset ls i lab ;;
      t <- nb c i (i - 1) ;;
      if t then fill_right_loop c lab b m (i - 1) ls1 else Ok ls1
  end.

(** x/fill.hpp:70-99 FillFromRight. *)
Definition fill_from_right (c : nbcheck) (b e : Z) (lab : label) (ls : list label)
    : outcome (list label) :=
  assert_ (zlen ls =? nb_size c) (
  if zlen ls <=? e then ThrowInvalid
  else if b <? -1 then ThrowInvalid
  else fill_right_loop c lab b (Z.to_nat (e - (b + 1))) e ls).

(** x/fill.hpp:101-117 FillNeighbors. *)
Definition fill_neighbors (c : nbcheck) (index padding : Z) (lab : label) (ls : list label)
    : outcome (list label) :=
  assert_ (zlen ls =? nb_size c) (
  let mn := Z.max (-1) (index - padding - 1) in
  let mx := Z.min (index + 1 + padding) (zlen ls) in
  ls1 <- fill_from_right c mn index lab ls ;;
  fill_from_left c index mx lab ls1).

Section WithArith.
Variable A : arith.

(** * Sorting indices by value (x/algorithm.hpp) *)

(** x/algorithm.hpp:44-63 ByValue. The iterator access is unchecked in the code;
    the indices compared by Argsort are 0..size-1, for which both lookups succeed. *)
Definition by_value (vals : list (D A)) (i j : Z) : bool :=
  match nth_error vals (Z.to_nat i), nth_error vals (Z.to_nat j) with
  | Some a, Some b => d_ltb A a b
  | _, _ => false
  end.

(** x/algorithm.hpp:65-71 Argsort. *)
Definition argsort (srt : sorter) (vals : list (D A)) : outcome (list Z) :=
  std_sort srt (by_value vals) (zrange (length vals)).

(** * Edge and surface labels (x/label.hpp) *)

(** Loop body shared by x/label.hpp:87-94 (edge) and 126-133 (surface): a Default
    point that satisfies [ok] gets its neighbours filled with [nlab] and then
    becomes [lab]. *)
Definition label_step (c : nbcheck) (padding : Z) (ok : D A -> bool) (nlab lab : label)
    (curv : list (D A)) (ls : list label) (index : Z) : outcome (list label) :=
  l <- vat ls index ;;
  if label_eqb l Default then
    v <- vat curv index ;;
    if ok v then
      ls1 <- fill_neighbors c index padding nlab ls ;;
      vset ls1 index lab
    else Ok ls
  else Ok ls.

(** x/label.hpp:72-95 EdgeLabel::Assign. *)
Definition edge_assign (srt : sorter) (padding : Z) (threshold : D A) (c : nbcheck)
    (curv : list (D A)) (ls : list label) : outcome (list label) :=
  assert_ (zlen curv =? zlen ls) (
  assert_ (nb_size c =? zlen ls) (
  indices <- argsort srt curv ;;
  foldM (label_step c padding (fun v => d_leb A threshold v) EdgeNeighbor Edge curv)
        ls (rev indices))).

(** x/label.hpp:113-134 SurfaceLabel::Assign. *)
Definition surface_assign (srt : sorter) (padding : Z) (threshold : D A) (c : nbcheck)
    (curv : list (D A)) (ls : list label) : outcome (list label) :=
  assert_ (negb (nb_size c =? 0)) (
  indices <- argsort srt curv ;;
  foldM (label_step c padding (fun v => d_leb A v threshold) SurfaceNeighbor Surface curv)
        ls indices).

(** * Block boundaries (x/index_range.hpp, extraction/src/index_range.cpp) *)

(** x/index_range.hpp:54-56 members. *)
Record index_range := { ir_start : Z; ir_end : Z; ir_n : Z }.

(** extraction/src/index_range.cpp:32-41 constructor. *)
Definition make_index_range (s e n : Z) : outcome index_range :=
  if e - s <? n then ThrowInvalid else Ok {| ir_start := s; ir_end := e; ir_n := n |}.

(** extraction/src/index_range.cpp:60-66 Boundary; the cast to int is undefined for
    values outside the int range ([conv.fpint]). *)
Definition boundary (r : index_range) (j : Z) : outcome Z :=
  let s := d_of_Z A (ir_start r) in
  let e := d_of_Z A (ir_end r) in
  let n := d_of_Z A (ir_n r) in
  let jd := d_of_Z A j in
  let v := d_add A (d_mul A s (d_sub A (d_of_Z A 1) (d_div A jd n)))
                   (d_div A (d_mul A e jd) n) in
  match d_trunc A v with
  | Some z => if (- 2 ^ 31 <=? z) && (z <? 2 ^ 31) then Ok z else UB
  | None => UB
  end.

(** extraction/src/index_range.cpp:68-79 ThrowExceptionIfOutOfRange. *)
Definition check_block (r : index_range) (j : Z) : outcome unit :=
  if ir_n r <=? j then ThrowRange else if j <? 0 then ThrowRange else Ok tt.

(** extraction/src/index_range.cpp:48-52 Begin. *)
Definition ir_begin (r : index_range) (j : Z) : outcome Z :=
  _ <- check_block r j ;; boundary r j.

(** extraction/src/index_range.cpp:54-58 End. *)
Definition ir_finish (r : index_range) (j : Z) : outcome Z :=
  _ <- check_block r j ;; boundary r (j + 1).

(** x/index_range.hpp:59-66 PaddedIndexRange. *)
Definition padded_index_range (size n_blocks padding : Z) : outcome index_range :=
  make_index_range padding (size - padding) n_blocks.

(** * Points, ranges, neighbours *)

(** lib/include/lidar_feature_library/point_type.hpp:62-81 PointXYZIR. *)
Record point := { px : F A; py : F A; pz : F A; pintensity : F A; pring : Z }.

(** x/mapped_points.hpp:40-72 MappedPoints: a cloud and an index array. *)
Record mapped := { m_cloud : list point; m_indices : list Z }.

(** x/mapped_points.hpp:53-56 size. *)
Definition m_size (m : mapped) : Z := zlen (m_indices m).

(** x/mapped_points.hpp:58-61 at. *)
Definition m_at (m : mapped) (i : Z) : outcome point :=
  k <- vat (m_indices m) i ;; vat (m_cloud m) k.

(** x/mapped_points.hpp:63-67 Slice. *)
Definition m_slice (m : mapped) (b e : Z) : outcome mapped :=
  ix <- vslice (m_indices m) b e ;; Ok {| m_cloud := m_cloud m; m_indices := ix |}.

(** x/math.hpp:36-39 XYNorm (float arguments are converted to double). *)
Definition xy_norm (x y : D A) : D A :=
  d_sqrt A (d_add A (d_mul A x x) (d_mul A y y)).

(** extraction/src/math.cpp:34-46 CalcRadian. *)
Definition calc_radian (x1 y1 x2 y2 : D A) : outcome (D A) :=
  let dot := d_add A (d_mul A x1 x2) (d_mul A y1 y2) in
  let n1 := xy_norm x1 y1 in
  let n2 := xy_norm x2 y2 in
  if d_eqb A n1 (d_of_Z A 0) && d_eqb A n2 (d_of_Z A 0) then ThrowInvalid
  else Ok (d_acos A (d_div A dot (d_mul A n1 n2))).

(** x/neighbor.hpp:44-48 IsNeighborXY. *)
Definition is_neighbor_xy (thr : D A) (p q : point) : outcome bool :=
  r <- calc_radian (f2d A (px p)) (f2d A (py p)) (f2d A (px q)) (f2d A (py q)) ;;
  Ok (d_ltb A r thr).

(** x/neighbor.hpp:99-109 CheckIndex. *)
Definition check_index (size i : Z) : outcome unit :=
  if i <? 0 then ThrowRange else if size <=? i then ThrowRange else Ok tt.

(** x/neighbor.hpp:78-91 NeighborCheckXY::operator() and size. *)
Definition nb_xy (m : mapped) (thr : D A) : nbcheck := {|
  nb_size := m_size m;
  nb := fun i j =>
    _ <- check_index (m_size m) i ;;
    _ <- check_index (m_size m) j ;;
    p <- m_at m i ;;
    q <- m_at m j ;;
    is_neighbor_xy thr p q
|}.

(** x/neighbor.hpp:68-76 constructor of NeighborCheckXY. *)
Definition make_nb_xy (m : mapped) (thr : D A) : outcome nbcheck :=
  if m_size m <? 2 then ThrowInvalid else Ok (nb_xy m thr).

(** x/range.hpp:52-56 Range::operator()(index). *)
Definition range_at (m : mapped) (i : Z) : outcome (D A) :=
  p <- m_at m i ;; Ok (xy_norm (f2d A (px p)) (f2d A (py p))).

(** x/range.hpp:58-65 Range::operator()(begin, end): the loop evaluates
    the range at i, not at begin + i. A negative size throws std::length_error. *)
Definition range_interval (m : mapped) (b e : Z) : outcome (list (D A)) :=
  if e - b <? 0 then ThrowOther
  else mapM (range_at m) (zrange (Z.to_nat (e - b))).

(** x/range.hpp:40-43 IsInInclusiveRange. *)
Definition is_in_inclusive_range (v mn mx : D A) : bool := d_leb A mn v && d_leb A v mx.

(** * Curvature (extraction/src/convolution.cpp, curvature.cpp) *)

(** x/math.hpp:43-53 InnerProduct: left-to-right accumulation starting at 0.;
    stops at the end of the first range. The second range is at least as long at the
    only call (convolution.cpp:58); a shorter one would be read past its end, [UB]. *)
Fixpoint inner_product (sum : D A) (a b : list (D A)) : outcome (D A) :=
  match a, b with
  | [], _ => Ok sum
  | _ :: _, [] => UB
  | x :: a', y :: b' => inner_product (d_add A sum (d_mul A x y)) a' b'
  end.

(** extraction/src/convolution.cpp:35-66 Convolution1D. *)
Definition convolution1d (input weight : list (D A)) : outcome (list (D A)) :=
  if (length input <? length weight)%nat then ThrowInvalid
  else assert_ (Nat.odd (length weight)) (
  let padding := ((length weight - 1) / 2)%nat in
  let size := (length input - padding * 2)%nat in
  mid <- mapM (fun i => inner_product (d_of_Z A 0)
                          (firstn (length weight) (skipn i input)) weight) (seq 0 size) ;;
  Ok (repeat (d_of_Z A 0) padding ++ mid ++ repeat (d_of_Z A 0) padding)).

(** extraction/src/curvature.cpp:36-42 MakeWeight. *)
Definition make_weight (padding : Z) : outcome (list (D A)) :=
  assert_ (0 <? padding) (
  vset (repeat (d_of_Z A 1) (Z.to_nat (padding * 2 + 1))) padding
       (d_mul A (d_of_Z A (-2)) (d_of_Z A padding))).

(** extraction/src/curvature.cpp:44-50 CalcCurvature. *)
Definition calc_curvature (range : list (D A)) (padding : Z) : outcome (list (D A)) :=
  w <- make_weight padding ;;
  c <- convolution1d range w ;;
  Ok (map (fun v => d_mul A v v) c).

(** * AssignLabel (x/label.hpp:141-164) *)

(** Body of the block loop, x/label.hpp:153-163. *)
Definition assign_block (srt : sorter) (padding : Z) (eth sth : D A) (curv : list (D A))
    (m : mapped) (rad : D A) (r : index_range) (ls : list label) (j : Z)
    : outcome (list label) :=
  b <- ir_begin r j ;;
  e <- ir_finish r j ;;
  lv <- vslice ls b e ;;
  cv <- vslice curv b e ;;
  sm <- m_slice m b e ;;
  sc <- make_nb_xy sm rad ;;
  lv1 <- edge_assign srt padding eth sc cv lv ;;
  lv2 <- surface_assign srt padding sth sc cv lv1 ;;
  Ok (vunslice ls lv2 b).

(** x/label.hpp:141-164 AssignLabel; [m]/[rad] is the NeighborCheckXY argument. *)
Definition assign_label (srt : sorter) (padding : Z) (eth sth : D A) (curv : list (D A))
    (m : mapped) (rad : D A) (r : index_range) (ls : list label) : outcome (list label) :=
  assert_ (zlen curv =? zlen ls) (
  assert_ (m_size m =? zlen ls) (
  foldM (assign_block srt padding eth sth curv m rad r) ls (zrange (Z.to_nat (ir_n r))))).

(** * Occlusion (x/occlusion.hpp) *)

(** Conversion to unsigned int (arithmetic of x/occlusion.hpp:45-76). *)
Definition u32 (z : Z) : Z := z mod 2 ^ 32.
(** Conversion to size_t (x/occlusion.hpp:45). *)
Definition u64 (z : Z) : Z := z mod 2 ^ 64.
(** Conversion to a two's complement int (arguments of FillFromLeft/Right and
    is_neighbor in x/occlusion.hpp:46-76). *)
Definition i32 (z : Z) : Z := (z + 2 ^ 31) mod 2 ^ 32 - 2 ^ 31.

(** Body of the loop x/occlusion.hpp:46-55. *)
Definition from_left_step (c : nbcheck) (rng : Z -> outcome (D A)) (padding : Z)
    (thr : D A) (ls : list label) (i : Z) : outcome (list label) :=
  b <- nb c (i32 i) (i32 (u32 (i + 1))) ;;
  if negb b then Ok ls else
  r0 <- rng (i32 i) ;;
  r1 <- rng (i32 (u32 (i + 1))) ;;
  if d_ltb A (d_add A r0 thr) r1
  then fill_from_left c (i32 (u32 (i + 1))) (i32 (u32 (i + padding + 2))) Occluded ls
  else Ok ls.

(** x/occlusion.hpp:37-57 FromLeft. The bound [labels.size() - padding - 1] is
    computed in size_t and wraps. Only the first size+1 iterations are listed: the
    query at i = size-1 (or i = 0 for size 0) throws, so a larger bound is never
    reached. *)
Definition from_left (c : nbcheck) (rng : Z -> outcome (D A)) (padding : Z) (thr : D A)
    (ls : list label) : outcome (list label) :=
  let bound := u64 (zlen ls - padding - 1) in
  foldM (from_left_step c rng padding thr) ls
        (zrange (Z.to_nat (Z.min bound (zlen ls + 1)))).

(** Body of the loop x/occlusion.hpp:68-77. *)
Definition from_right_step (c : nbcheck) (rng : Z -> outcome (D A)) (padding : Z)
    (thr : D A) (ls : list label) (i : Z) : outcome (list label) :=
  b <- nb c (i32 i) (i32 (u32 (i - 1))) ;;
  if negb b then Ok ls else
  r1 <- rng (i32 (u32 (i - 1))) ;;
  r0 <- rng (i32 i) ;;
  if d_ltb A (d_add A r0 thr) r1
  then fill_from_right c (i32 (u32 (i - padding - 2))) (i32 (u32 (i - 1))) Occluded ls
  else Ok ls.

(** x/occlusion.hpp:59-79 FromRight: i runs from (unsigned)(size-1) down to
    padding+1. For size 0 the start wraps to 2^32-1, whose query throws at once (one
    iteration listed). *)
Definition from_right (c : nbcheck) (rng : Z -> outcome (D A)) (padding : Z) (thr : D A)
    (ls : list label) : outcome (list label) :=
  let indices :=
    if zlen ls =? 0 then [u32 (-1)]
    else map (fun k => zlen ls - 1 - k) (zrange (Z.to_nat (zlen ls - (padding + 1)))) in
  foldM (from_right_step c rng padding thr) ls indices.

(** x/occlusion.hpp:81-91 LabelOccludedPoints. *)
Definition label_occluded (c : nbcheck) (rng : Z -> outcome (D A)) (padding : Z) (thr : D A)
    (ls : list label) : outcome (list label) :=
  ls1 <- from_left c rng padding thr ls ;;
  from_right c rng padding thr ls1.

(** * Out of range and parallel beams *)

(** Body of the loop x/out_of_range.hpp:43-47. *)
Definition oor_step (rng : Z -> outcome (D A)) (mn mx : D A) (ls : list label) (i : Z)
    : outcome (list label) :=
  r <- rng i ;;
  if negb (is_in_inclusive_range r mn mx) then vset ls i OutOfRange else Ok ls.

(** x/out_of_range.hpp:36-48 LabelOutOfRange; [size] is range.size(). *)
Definition label_out_of_range (rng : Z -> outcome (D A)) (size : Z) (mn mx : D A)
    (ls : list label) : outcome (list label) :=
  foldM (oor_step rng mn mx) ls (zrange (Z.to_nat size)).

(** Body of the loop x/parallel_beam.hpp:43-50; the ratios are rounded to float
    and compared with a double threshold. *)
Definition pb_step (ranges : list (D A)) (thr : D A) (ls : list label) (i : Z)
    : outcome (list label) :=
  a <- vat ranges (i - 1) ;;
  r <- vat ranges i ;;
  b <- vat ranges (i + 1) ;;
  let ratio1 := d2f A (d_div A (d_abs A (d_sub A a r)) r) in
  let ratio2 := d2f A (d_div A (d_abs A (d_sub A b r)) r) in
  if d_ltb A thr (f2d A ratio1) && d_ltb A thr (f2d A ratio2)
  then vset ls i ParallelBeam else Ok ls.

(** x/parallel_beam.hpp:36-51 LabelParallelBeamPoints. The bound size-1 is computed
    in size_t and wraps for size 0; only the first iterations are listed, the access
    ranges.at(i+1) throws before a larger bound is reached. *)
Definition label_parallel_beam (m : mapped) (thr : D A) (ls : list label)
    : outcome (list label) :=
  ranges <- range_interval m 0 (zlen ls) ;;
  let bound := Z.min (u64 (zlen ls - 1)) (zlen ls + 2) in
  foldM (pb_step ranges thr) ls (map Z.succ (zrange (Z.to_nat (bound - 1)))).

(** * Rings (x/ring.hpp, extraction/src/ring.cpp) *)

(** x/ring.hpp:54-99 AHasSmallerPolarAngleThanB for float coordinates (products and
    differences are float operations; lena, lenb and det are converted to double and
    compared with 0, which the conversion preserves). *)
Definition polar_less (ax ay bx by_ : F A) : bool :=
  if f_eqb A ax bx && f_eqb A ay by_ then false
  else
  let lena := f_add A (f_mul A ax ax) (f_mul A ay ay) in
  let lenb := f_add A (f_mul A bx bx) (f_mul A by_ by_) in
  if f_eqb A lena (f_zero A) then
    if f_eqb A by_ (f_zero A) then f_ltb A bx (f_zero A)
    else f_ltb A (f_zero A) by_
  else if f_eqb A lenb (f_zero A) then f_ltb A ay (f_zero A)
  else if f_eqb A ay (f_zero A) then f_leb A (f_zero A) ax && f_leb A (f_zero A) by_
  else if f_eqb A by_ (f_zero A) then
    negb (f_leb A (f_zero A) bx && f_leb A (f_zero A) ay)
  else if f_ltb A (f_zero A) (f_mul A ay by_) then
    f_ltb A (f_zero A) (f_sub A (f_mul A ax by_) (f_mul A ay bx))
  else f_ltb A ay (f_zero A).

(** x/ring.hpp:101-112, the comparator on indices; at() cannot fail for indices made by
    MakePointIndices (a failing lookup is mapped to false). *)
Definition polar_less_ix (cloud : list point) (i j : Z) : bool :=
  match nth_error cloud (Z.to_nat i), nth_error cloud (Z.to_nat j) with
  | Some a, Some b => polar_less (px a) (py a) (px b) (py b)
  | _, _ => false
  end.

(** x/ring.hpp:101-112 SortByAtan2. *)
Definition sort_by_atan2 (srt : sorter) (cloud : list point) (ix : list Z)
    : outcome (list Z) := std_sort srt (polar_less_ix cloud) ix.

(** std::unordered_map<int, vector<int>> as an association list with distinct keys;
    [operator[]] + push_back (x/ring.hpp:122). *)
Fixpoint ring_push (rings : list (Z * list Z)) (key i : Z) : list (Z * list Z) :=
  match rings with
  | [] => [(key, [i])]
  | (k, ix) :: t => if k =? key then (k, ix ++ [i]) :: t else (k, ix) :: ring_push t key i
  end.

(** x/ring.hpp:114-125 MakePointIndices. *)
Definition make_point_indices (cloud : list point) : list (Z * list Z) :=
  fold_left (fun rings ip => ring_push rings (pring (snd ip)) (fst ip))
            (combine (zrange (length cloud)) cloud) [].

(** extraction/src/ring.cpp:46-59 RemoveSparseRings. *)
Definition remove_sparse_rings (rings : list (Z * list Z)) (n_min : Z) : list (Z * list Z) :=
  filter (fun r => negb (zlen (snd r) <? n_min)) rings.

(** x/ring.hpp:131-139 SortEachRingByAngle. *)
Definition sort_each_ring (srt : sorter) (cloud : list point) (rings : list (Z * list Z))
    : outcome (list (Z * list Z)) :=
  mapM (fun r => ix <- sort_by_atan2 srt cloud (snd r) ;; Ok (fst r, ix)) rings.

(** x/ring.hpp:141-147 ExtractAngleSortedRings. *)
Definition extract_rings (srt : sorter) (cloud : list point) : outcome (list (Z * list Z)) :=
  sort_each_ring srt cloud (make_point_indices cloud).

(** * Colours (extraction/src/color_points.cpp) *)

(** extraction/src/color_points.cpp:39-68 LabelToColor (all enum values are covered, so
    the throw at the end is unreachable). *)
Definition label_to_color (l : label) : Z * Z * Z :=
  match l with
  | Default => (255, 255, 255)
  | Edge => (255, 0, 0)
  | EdgeNeighbor => (255, 63, 0)
  | Surface => (255, 0, 0)
  | SurfaceNeighbor => (255, 63, 0)
  | OutOfRange => (127, 127, 127)
  | Occluded => (255, 0, 255)
  | ParallelBeam => (0, 255, 0)
  end.

(** extraction/src/color_points.cpp:70-75 ValueToColor: std::clamp (undefined if
    max < min), then a conversion to uint8_t (undefined outside [0,255] after
    truncation). The three equal bytes are returned as one value. *)
Definition value_to_color (value mn mx : D A) : outcome Z :=
  if d_ltb A mx mn then UB else
  let v := if d_ltb A value mn then mn else if d_ltb A mx value then mx else value in
  match d_trunc A (d_div A (d_mul A (d_of_Z A 255) v) (d_sub A mx mn)) with
  | Some c => if (0 <=? c) && (c <=? 255) then Ok c else UB
  | None => UB
  end.

(** x/color_points.hpp:45-58 MakeXYZRGB, pcl::PointXYZRGB. *)
Record colored := { cx : F A; cy : F A; cz : F A; crgb : Z * Z * Z }.

(** x/color_points.hpp:60-74 ColorPointsByLabel. *)
Definition color_points_by_label (m : mapped) (ls : list label) : outcome (list colored) :=
  assert_ (m_size m =? zlen ls) (
  mapM (fun il => p <- m_at m (fst il) ;;
                  Ok {| cx := px p; cy := py p; cz := pz p; crgb := label_to_color (snd il) |})
       (combine (zrange (length ls)) ls)).

(** * Selecting points *)

(** lib/include/lidar_feature_library/algorithm.hpp:50-62 GetIndicesByValue for
    labels. *)
Definition indices_of_label (ls : list label) (l : label) : list Z :=
  map fst (filter (fun il => label_eqb (snd il) l) (combine (zrange (length ls)) ls)).

(** x/label.hpp:166-179 AppendXYZIR: curvature (converted to float) becomes the
    intensity; returns the points to append. *)
Definition append_xyzir (pts : list point) (curv : list (D A)) : outcome (list point) :=
  assert_ (zlen pts =? zlen curv) (
  Ok (map (fun pc => {| px := px (fst pc); py := py (fst pc); pz := pz (fst pc);
                        pintensity := d2f A (snd pc); pring := pring (fst pc) |})
          (combine pts curv))).

(** * Callback (extraction/app/feature_extraction.cpp) *)

(** x/hyper_parameter.hpp:34-64; [p_rad] is DegreeToRadian(neighbor_degree_threshold),
    feature_extraction.cpp:122. *)
Record params := {
  p_padding : Z;
  p_rad : D A;
  p_distance : D A;
  p_ratio : D A;
  p_edge : D A;
  p_surface : D A;
  p_min : D A;
  p_max : D A;
  p_blocks : Z
}.

(** feature_extraction.cpp:127-138: labels and curvature of one ring. *)
Definition ring_labels (srt : sorter) (P : params) (m : mapped) (c : nbcheck)
    : outcome (list label * list (D A)) :=
  let ls0 := init_labels (length (m_indices m)) in
  ranges <- range_interval m 0 (m_size m) ;;
  curv <- calc_curvature ranges (p_padding P) ;;
  r <- padded_index_range (m_size m) (p_blocks P) (p_padding P) ;;
  ls1 <- assign_label srt (p_padding P) (p_edge P) (p_surface P) curv m (p_rad P) r ls0 ;;
  ls2 <- label_occluded c (range_at m) (p_padding P) (p_distance P) ls1 ;;
  ls3 <- label_out_of_range (range_at m) (m_size m) (p_min P) (p_max P) ls2 ;;
  ls4 <- label_parallel_beam m (p_ratio P) ls3 ;;
  Ok (ls4, curv).

(** feature_extraction.cpp:110-112: the three clouds under construction. *)
Record clouds := { c_edge : list point; c_surface : list point; c_colored : list colored }.

(** feature_extraction.cpp:126-153, the try block: new state of the clouds and how
    the block ended. State changes made before a throw stay. *)
Definition try_ring (srt : sorter) (P : params) (m : mapped) (c : nbcheck) (st : clouds)
    : clouds * outcome unit :=
  let pre :=
    ' (ls, curv) <- ring_labels srt P m c ;;
    assert_ (zlen curv =? m_size m) (
    let ei := indices_of_label ls Edge in
    ep <- mapM (m_at m) ei ;;
    ec <- mapM (vat curv) ei ;;
    let si := indices_of_label ls Surface in
    sp <- mapM (m_at m) si ;;
    sc <- mapM (vat curv) si ;;
    ea <- append_xyzir ep ec ;;
    sa <- append_xyzir sp sc ;;
    Ok (ls, ea, sa)) in
  match pre with
  | Ok (ls, ea, sa) =>
      let st1 := {| c_edge := c_edge st ++ ea; c_surface := c_surface st ++ sa;
                    c_colored := c_colored st |} in
      match color_points_by_label m ls with
      | Ok cl => ({| c_edge := c_edge st1; c_surface := c_surface st1;
                     c_colored := c_colored st1 ++ cl |}, Ok tt)
      | r => (st1, _ <- r ;; Ok tt)
      end
  | r => (st, _ <- r ;; Ok tt)
  end.

(** feature_extraction.cpp:120-157, one ring: std::invalid_argument is caught, anything
    else escapes. The NeighborCheckXY constructor is outside the try block. *)
Definition ring_step (srt : sorter) (P : params) (cloud : list point) (st : clouds)
    (ring : Z * list Z) : outcome clouds :=
  let m := {| m_cloud := cloud; m_indices := snd ring |} in
  c <- make_nb_xy m (p_rad P) ;;
  match try_ring srt P m c st with
  | (st', Ok _) => Ok st'
  | (st', ThrowInvalid) => Ok st'
  | (st', r) => _ <- r ;; Ok st'
  end.

(** A published pcl::PointXYZ
    (lib/include/lidar_feature_library/convert_point_cloud_type.hpp:36-49). *)
Definition xyz (p : point) : F A * F A * F A := (px p, py p, pz p).

(** What one callback does: the three published clouds (feature_extraction.cpp:168-170)
    and whether rclcpp::shutdown() was requested (feature_extraction.cpp:100, 107). *)
Record published := {
  o_shutdown : bool;
  o_colored : list colored;
  o_edge : list (F A * F A * F A);
  o_surface : list (F A * F A * F A)
}.

(** feature_extraction.cpp:92-171 Callback. [dense] is input_cloud->is_dense, [has_ring]
    is RingIsAvailable(fields) (ring.cpp:36-44); failing either only requests the
    shutdown and does not stop the function. [ord] is the iteration order of the
    unordered_map. Stamps and frame ids are copied constants and left out. *)
Definition callback (srt : sorter) (ord : list (Z * list Z) -> list (Z * list Z))
    (P : params) (dense has_ring : bool) (cloud : list point) : outcome published :=
  rings0 <- extract_rings srt cloud ;;
  let rings := ord (remove_sparse_rings rings0 (p_padding P + 1)) in
  st <- foldM (ring_step srt P cloud)
          {| c_edge := []; c_surface := []; c_colored := [] |} rings ;;
  Ok {| o_shutdown := negb dense || negb has_ring;
        o_colored := c_colored st;
        o_edge := map xyz (c_edge st);
        o_surface := map xyz (c_surface st) |}.

End WithArith.
