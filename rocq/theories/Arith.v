(** Scalar arithmetic used by the extraction package.

    The C++ code uses [float] for point coordinates (PCL_ADD_POINT4D,
    /repo/lib/include/lidar_feature_library/point_type.hpp:62-81) and [double]
    elsewhere.  The model is parametric in the record [arith]; [ieee] is the
    bit-exact IEEE-754 instance (round to nearest even), [exact] the real-number
    instance. *)
From Coq Require Import ZArith Reals Bool Lia.
From Flocq Require Import Core.Zaux IEEE754.BinarySingleNaN.
From Verif Require Import Base.
Open Scope Z_scope.

(** Operations on [float] (prefix f_) and [double] (prefix d_); no law is assumed.
    The operations are those of /repo/extraction/include/lidar_feature_extraction/math.hpp:36-53,
    ring.hpp:54-99, parallel_beam.hpp:44-45 and of the other functions cited in the models. *)
Record arith := {
  F : Type;
  D : Type;
  f_zero : F;
  f_add : F -> F -> F;
  f_sub : F -> F -> F;
  f_mul : F -> F -> F;
  f_eqb : F -> F -> bool;
  f_ltb : F -> F -> bool;
  f_leb : F -> F -> bool;
  f2d : F -> D;
  d2f : D -> F;
  d_of_Z : Z -> D;
  d_add : D -> D -> D;
  d_sub : D -> D -> D;
  d_mul : D -> D -> D;
  d_div : D -> D -> D;
  d_sqrt : D -> D;
  d_abs : D -> D;
  d_acos : D -> D;
  d_eqb : D -> D -> bool;
  d_ltb : D -> D -> bool;
  d_leb : D -> D -> bool;
  d_trunc : D -> option Z   (* truncation toward zero, None for NaN and infinities *)
}.

(** IEEE-754 binary32, the [float] of
    /repo/lib/include/lidar_feature_library/point_type.hpp:62-81. *)
Definition b32 := binary_float 24 128.
(** IEEE-754 binary64, the [double] of /repo/extraction/include/lidar_feature_extraction/math.hpp:36. *)
Definition b64 := binary_float 53 1024.

Lemma prec32 : FLX.Prec_gt_0 24. Proof. reflexivity. Qed.
Lemma emax32 : Prec_lt_emax 24 128. Proof. reflexivity. Qed.
Lemma prec64 : FLX.Prec_gt_0 53. Proof. reflexivity. Qed.
Lemma emax64 : Prec_lt_emax 53 1024. Proof. reflexivity. Qed.

(** Float addition (the squared lengths of /repo/extraction/include/lidar_feature_extraction/ring.hpp:54-99). *)
Definition add32 : b32 -> b32 -> b32 := @Bplus 24 128 prec32 emax32 mode_NE.
(** Float subtraction (/repo/extraction/include/lidar_feature_extraction/ring.hpp:54-99). *)
Definition sub32 : b32 -> b32 -> b32 := @Bminus 24 128 prec32 emax32 mode_NE.
(** Float multiplication (/repo/extraction/include/lidar_feature_extraction/ring.hpp:54-99). *)
Definition mul32 : b32 -> b32 -> b32 := @Bmult 24 128 prec32 emax32 mode_NE.
(** Double addition (/repo/extraction/include/lidar_feature_extraction/math.hpp:38). *)
Definition add64 : b64 -> b64 -> b64 := @Bplus 53 1024 prec64 emax64 mode_NE.
(** Double subtraction (/repo/extraction/include/lidar_feature_extraction/parallel_beam.hpp:44). *)
Definition sub64 : b64 -> b64 -> b64 := @Bminus 53 1024 prec64 emax64 mode_NE.
(** Double multiplication (/repo/extraction/include/lidar_feature_extraction/math.hpp:38). *)
Definition mul64 : b64 -> b64 -> b64 := @Bmult 53 1024 prec64 emax64 mode_NE.
(** Double division (/repo/extraction/src/index_range.cpp:65). *)
Definition div64 : b64 -> b64 -> b64 := @Bdiv 53 1024 prec64 emax64 mode_NE.
(** std::sqrt (/repo/extraction/include/lidar_feature_extraction/math.hpp:38). *)
Definition sqrt64 : b64 -> b64 := @Bsqrt 53 1024 prec64 emax64 mode_NE.
(** std::abs (/repo/extraction/include/lidar_feature_extraction/parallel_beam.hpp:44-45). *)
Definition abs64 : b64 -> b64 := @Babs 53 1024.

(** The double nearest to an integer: int -> double conversion and literals
    (/repo/extraction/src/index_range.cpp:62-65). *)
Definition of_Z64 (z : Z) : b64 := binary_normalize 53 1024 prec64 emax64 mode_NE z 0 false.
(** The float nearest to an integer (literal 0 compared with coordinates, /repo/extraction/include/lidar_feature_extraction/ring.hpp:54-99). *)
Definition of_Z32 (z : Z) : b32 := binary_normalize 24 128 prec32 emax32 mode_NE z 0 false.

(** The double nearest to m * 2^e, for literals such as 1.482602218505602
    (/repo/localization/src/robust.cpp:49). *)
Definition of_me64 (m e : Z) : b64 := binary_normalize 53 1024 prec64 emax64 mode_NE m e false.
(** The float nearest to m * 2^e, for coordinates in examples
    (/repo/lib/include/lidar_feature_library/point_type.hpp:62-81). *)
Definition of_me32 (m e : Z) : b32 := binary_normalize 24 128 prec32 emax32 mode_NE m e false.

(** float -> double conversion (arguments of XYNorm,
    /repo/extraction/include/lidar_feature_extraction/range.hpp:52-56). *)
Definition conv64 (x : b32) : b64 :=
  match x with
  | B754_zero s => B754_zero s
  | B754_infinity s => B754_infinity s
  | B754_nan => B754_nan
  | B754_finite s m e _ => binary_normalize 53 1024 prec64 emax64 mode_NE (cond_Zopp s (Zpos m)) e s
  end.
(** double -> float conversion (/repo/extraction/include/lidar_feature_extraction/parallel_beam.hpp:44-45). *)
Definition conv32 (x : b64) : b32 :=
  match x with
  | B754_zero s => B754_zero s
  | B754_infinity s => B754_infinity s
  | B754_nan => B754_nan
  | B754_finite s m e _ => binary_normalize 24 128 prec32 emax32 mode_NE (cond_Zopp s (Zpos m)) e s
  end.

(** double -> integer truncation (static_cast<int> before the range check,
    /repo/extraction/src/index_range.cpp:65). *)
Definition trunc64 (x : b64) : option Z :=
  match x with
  | B754_infinity _ | B754_nan => None
  | B754_zero _ | B754_finite _ _ _ _ => Some (Btrunc x)
  end.

(** IEEE instance; [acos] is the C library function (/repo/extraction/src/math.cpp:45), a
    parameter. *)
Definition ieee (acos : b64 -> b64) : arith := {|
  F := b32; D := b64;
  f_zero := B754_zero false;
  f_add := add32; f_sub := sub32; f_mul := mul32;
  f_eqb := Beqb; f_ltb := Bltb; f_leb := Bleb;
  f2d := conv64; d2f := conv32;
  d_of_Z := of_Z64;
  d_add := add64; d_sub := sub64; d_mul := mul64; d_div := div64;
  d_sqrt := sqrt64; d_abs := abs64; d_acos := acos;
  d_eqb := Beqb; d_ltb := Bltb; d_leb := Bleb;
  d_trunc := trunc64
|}.

(** Comparison == in exact arithmetic (/repo/extraction/include/lidar_feature_extraction/ring.hpp:54-99). *)
Definition Reqb (x y : R) : bool := if Req_EM_T x y then true else false.
(** Comparison < in exact arithmetic (/repo/extraction/include/lidar_feature_extraction/neighbor.hpp:44-48). *)
Definition Rltb (x y : R) : bool := if Rlt_dec x y then true else false.
(** Comparison <= in exact arithmetic (/repo/extraction/include/lidar_feature_extraction/range.hpp:40-43). *)
Definition Rleb (x y : R) : bool := if Rle_dec x y then true else false.
(** Truncation toward zero of a real (/repo/extraction/src/index_range.cpp:65). *)
Definition Rtrunc (x : R) : Z := if Rlt_dec x 0 then (- Int_part (- x))%Z else Int_part x.

(** Exact instance: both scalar types are the reals; a simplification of [ieee] for the
    geometric properties (same operations, e.g. /repo/extraction/include/lidar_feature_extraction/math.hpp:36-53). *)
Definition exact : arith := {|
  F := R; D := R;
  f_zero := 0%R;
  f_add := Rplus; f_sub := Rminus; f_mul := Rmult;
  f_eqb := Reqb; f_ltb := Rltb; f_leb := Rleb;
  f2d := fun x => x; d2f := fun x => x;
  d_of_Z := IZR;
  d_add := Rplus; d_sub := Rminus; d_mul := Rmult; d_div := Rdiv;
  d_sqrt := sqrt; d_abs := Rabs; d_acos := acos;
  d_eqb := Reqb; d_ltb := Rltb; d_leb := Rleb;
  d_trunc := fun x => Some (Rtrunc x)
|}.
