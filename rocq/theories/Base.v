(** Outcomes of C++ calls and bounds-checked arrays.

    This file models no repository function by itself; it fixes how the
    behaviour of the C++ language and of std::vector is represented. *)
From Coq Require Export List ZArith Lia Bool Permutation.
Export ListNotations.
Open Scope Z_scope.

(** Result of running a piece of C++ code.
    [ThrowInvalid] is std::invalid_argument (the only type caught in
    /repo/extraction/app/feature_extraction.cpp:154), [ThrowRange] is
    std::out_of_range, [ThrowOther] any other exception type (e.g.
    std::length_error), [AssertFail] a failing assert (the packages are built with
    CMAKE_BUILD_TYPE Debug, /repo/extraction/CMakeLists.txt:4), [UB] undefined
    behaviour. *)
Inductive outcome (A : Type) : Type :=
| Ok (a : A)
| ThrowInvalid
| ThrowRange
| ThrowOther
| AssertFail
| UB.
Arguments Ok {A} a.
Arguments ThrowInvalid {A}.
Arguments ThrowRange {A}.
Arguments ThrowOther {A}.
Arguments AssertFail {A}.
Arguments UB {A}.

(** Sequencing: an exception, abort or UB ends the computation (C++ language rule;
    e.g. the try block /repo/extraction/app/feature_extraction.cpp:126-156). *)
Definition bind {A B : Type} (m : outcome A) (f : A -> outcome B) : outcome B :=
  match m with
  | Ok a => f a
  | ThrowInvalid => ThrowInvalid
  | ThrowRange => ThrowRange
  | ThrowOther => ThrowOther
  | AssertFail => AssertFail
  | UB => UB
  end.
Notation "x <- m ;; k" := (bind m (fun x => k))
  (at level 61, m at next level, right associativity).
Notation "' p <- m ;; k" := (bind m (fun x => let p := x in k))
  (at level 61, p pattern, m at next level, right associativity).

(** C [assert] (used e.g. in /repo/extraction/include/lidar_feature_extraction/fill.hpp:48). *)
Definition assert_ {B : Type} (b : bool) (k : outcome B) : outcome B :=
  if b then k else AssertFail.

(** std::vector::size (e.g. /repo/extraction/include/lidar_feature_extraction/fill.hpp:109;
    an [int] after the casts used in the repository; sizes
    above 2^31 are not modelled). *)
Definition zlen {A : Type} (l : list A) : Z := Z.of_nat (length l).

(** std::vector::at / span::at
    (/repo/lib/include/lidar_feature_library/span.hpp:53-79): bounds checked, a
    negative int converts to a huge size_t (vector) or is rejected (span). *)
Definition vat {A : Type} (l : list A) (i : Z) : outcome A :=
  if i <? 0 then ThrowRange
  else match nth_error l (Z.to_nat i) with
       | Some a => Ok a
       | None => ThrowRange
       end.

(** Overwrite of one element of a list, unchanged when the index is outside (the store of
    /repo/extraction/include/lidar_feature_extraction/fill.hpp:67; the bounds check is in [vset]). *)
Fixpoint list_upd {A : Type} (l : list A) (n : nat) (v : A) : list A :=
  match l, n with
  | [], _ => []
  | _ :: t, O => v :: t
  | x :: t, S m => x :: list_upd t m v
  end.

(** Assignment through vector::at / span::at
    (/repo/lib/include/lidar_feature_library/span.hpp:108-112). *)
Definition vset {A : Type} (l : list A) (i : Z) (v : A) : outcome (list A) :=
  if (i <? 0) || (zlen l <=? i) then ThrowRange
  else Ok (list_upd l (Z.to_nat i) v).

(** Range built from two iterators begin()+b, begin()+e: undefined unless
    0 <= b <= e <= size
    (/repo/extraction/include/lidar_feature_extraction/label.hpp:157-158,
     mapped_points.hpp:65). *)
Definition vslice {A : Type} (l : list A) (b e : Z) : outcome (list A) :=
  if (0 <=? b) && (b <=? e) && (e <=? zlen l)
  then Ok (firstn (Z.to_nat (e - b)) (skipn (Z.to_nat b) l))
  else UB.

(** Writing a modified slice back to its place (the span of label.hpp:157 is a
    view, writes go to the underlying vector). *)
Definition vunslice {A : Type} (l s : list A) (b : Z) : list A :=
  firstn (Z.to_nat b) l ++ s ++ skipn (Z.to_nat b + length s) l.

(** [mapM f l]: run [f] on the elements in order, stop at the first failure (loops
    whose body may throw, e.g.
    /repo/extraction/include/lidar_feature_extraction/range.hpp:61-63). *)
Fixpoint mapM {A B : Type} (f : A -> outcome B) (l : list A) : outcome (list B) :=
  match l with
  | [] => Ok []
  | x :: t => y <- f x ;; ys <- mapM f t ;; Ok (y :: ys)
  end.

(** [foldM]: a for-loop carrying a state, stop at the first failure (e.g.
    /repo/extraction/include/lidar_feature_extraction/label.hpp:87-94). *)
Fixpoint foldM {A S : Type} (f : S -> A -> outcome S) (s : S) (l : list A) : outcome S :=
  match l with
  | [] => Ok s
  | x :: t => s' <- f s x ;; foldM f s' t
  end.

(** 0, 1, ..., n-1 as ints
    (/repo/extraction/src/iterator.cpp:33-36 [irange]). *)
Definition zrange (n : nat) : list Z := map Z.of_nat (seq 0 n).

(** Strict weak ordering of the comparator [cmp] on the elements of [l], the
    precondition of std::sort (C++17 [alg.sorting];
    /repo/extraction/include/lidar_feature_extraction/algorithm.hpp:69, ring.hpp:111): irreflexive, transitive, and
    incomparability is transitive. The comparisons are tabulated first, so that each is
    evaluated once: [tab] has for every a the pair (cmp a c, cmp c a) for all c. The plain
    reading is Lemma swo_on_spec in LabelProofs.v. *)
Definition swo_on {A : Type} (cmp : A -> A -> bool) (l : list A) : bool :=
  let tab := map (fun a => map (fun c => (cmp a c, cmp c a)) l) l in
  forallb (fun a => negb (cmp a a)) l &&
  forallb (fun ra : list (bool * bool) =>
    forallb (fun b : (bool * bool) * list (bool * bool) =>
      let '((ab, ba), rb) := b in
      forallb (fun c : (bool * bool) * (bool * bool) =>
        let '((ac, ca), (bc, cb)) := c in
        (negb (ab && bc) || ac) &&
        (negb (negb ab && negb ba && negb bc && negb cb) || (negb ac && negb ca)))
        (combine ra rb)) (combine ra tab)) tab.

(** A sorting routine on indices, as a function of the comparator and the input
    (/repo/extraction/include/lidar_feature_extraction/algorithm.hpp:69, ring.hpp:111). *)
Definition sorter := (Z -> Z -> bool) -> list Z -> list Z.

(** std::sort with comparator [cmp]
    (/repo/extraction/include/lidar_feature_extraction/algorithm.hpp:69, ring.hpp:111): undefined if [cmp] is no strict weak
    ordering on the elements. Which of the conforming permutations results is left
    to the parameter [srt] (see [valid_sort] in Spec.v). *)
Definition std_sort (srt : sorter) (cmp : Z -> Z -> bool) (l : list Z) : outcome (list Z) :=
  if swo_on cmp l then Ok (srt cmp l) else UB.
