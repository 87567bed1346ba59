(** The point type converter, point_type_converter/point_type_converter/convert.py.

    Python exceptions: [AssertFail] AssertionError, [ThrowRange] IndexError, [ThrowOther]
    struct.error, OverflowError, ZeroDivisionError and ValueError.  Bytes are integers. *)
From Coq Require Import String List ZArith Bool.
From Verif Require Import Base.
Import ListNotations.
Open Scope Z_scope.

(** convert.py:42-54 the element types and their format characters b B h H i I f d. *)
Inductive dtype := I8 | U8 | I16 | U16 | I32 | U32 | F32 | F64.
(** convert.py:42-47 datatypes. *)
Definition datatypes : list dtype := [I8; U8; I16; U16; I32; U32; F32; F64].
(** sensor_msgs PointField (convert.py:113-115). *)
Record field := Field { fname : string; offset : Z; datatype : Z; count : Z }.

(** convert.py:57-58 get_datatype_id. *)
Definition datatype_id (d : dtype) : Z :=
  match d with I8 => 1 | U8 => 2 | I16 => 3 | U16 => 4 | I32 => 5 | U32 => 6 | F32 => 7 | F64 => 8 end.
(** convert.py:61-66 get_format_character, get_datatype: index datatype_int - 1 of a list of
    8, with Python's negative indices. *)
Definition get_datatype (i : Z) : outcome dtype :=
  let k := i - 1 in
  vat datatypes (if k <? 0 then k + 8 else k).
(** convert.py:69-70 data_size. *)
Definition data_size (d : dtype) : Z :=
  match d with I8 | U8 => 1 | I16 | U16 => 2 | I32 | U32 | F32 => 4 | F64 => 8 end.

(** A character of a struct format: a padding byte x or a value (convert.py:78-80). *)
Inductive fchar := Pad | Val (d : dtype).
(** struct.calcsize of one character in the standard sizes of '<' and '>'
    (convert.py:89-91). *)
Definition char_size (c : fchar) : Z := match c with Pad => 1 | Val d => data_size d end.

(** convert.py:76-81 the loop body of create_point_format: format_ and index. *)
Definition format_step (s : list fchar * Z) (f : field) : outcome (list fchar * Z) :=
  let '(fmt, index) := s in
  let '(fmt, index) := if index <? offset f then (fmt ++ repeat Pad (Z.to_nat (offset f - index)), offset f) else (fmt, index) in
  d <- get_datatype (datatype f) ;;
  Ok (fmt ++ [Val d], index + data_size d).
(** convert.py:73-85 create_point_format. *)
Definition create_point_format (fields : list field) (point_step : Z) : outcome (list fchar) :=
  ' (fmt, index) <- foldM format_step ([], 0) fields ;;
  Ok (if index <? point_step then fmt ++ repeat Pad (Z.to_nat (point_step - index)) else fmt).
(** convert.py:88-91 create_points_format: the characters; the byte order is passed on. *)
Definition create_points_format (fields : list field) (n_points : Z) (point_step : Z) : outcome (list fchar) :=
  fmt <- create_point_format fields point_step ;;
  Ok (concat (repeat fmt (Z.to_nat n_points))).

(** Python values that struct produces and accepts (convert.py:99, 106): integers, and floats that came from a
    4 byte or 8 byte pattern.  Floats are kept as their bit patterns, so -0.0, infinities
    and quiet NaNs are exact (a signalling NaN is changed by CPython and not modelled). *)
Inductive value := VInt (z : Z) | VF32 (bits : Z) | VF64 (bits : Z).

(** struct byte order (convert.py:89): least significant byte first unless big endian. *)
Definition ordered (big : bool) (l : list Z) : list Z := if big then rev l else l.
(** Unsigned value of bytes, least significant first (struct, convert.py:99). *)
Definition from_bytes (l : list Z) : Z := fold_right (fun b acc => b + 256 * acc) 0 l.
(** The n lowest bytes of an integer, least significant first (struct, convert.py:106). *)
Fixpoint to_bytes (n : nat) (z : Z) : list Z :=
  match n with
  | O => []
  | S m => z mod 256 :: to_bytes m (z / 256)
  end.
(** Two's complement reading of an unsigned n byte value (struct formats b, h, i;
    convert.py:99). *)
Definition signed (n z : Z) : Z := if z <? 2 ^ (8 * n - 1) then z else z - 2 ^ (8 * n).

(** One value from its bytes (struct.unpack, convert.py:99). *)
Definition decode (big : bool) (d : dtype) (bytes : list Z) : value :=
  let u := from_bytes (ordered big bytes) in
  match d with
  | I8 | I16 | I32 => VInt (signed (data_size d) u)
  | U8 | U16 | U32 => VInt u
  | F32 => VF32 u
  | F64 => VF64 u
  end.

Section Convert.
(** Conversion of other Python numbers to a float or double pattern by struct.pack; None is
    OverflowError. *)
Variable to_f32 : value -> option Z.
Variable to_f64 : value -> option Z.

(** One value to bytes (struct.pack, convert.py:106): integers must be in range, floats are
    not accepted for integer characters. *)
Definition encode (big : bool) (d : dtype) (v : value) : outcome (list Z) :=
  let n := data_size d in
  let bytes z := Ok (ordered big (to_bytes (Z.to_nat n) z)) in
  match d, v with
  | (I8 | I16 | I32), VInt z => if (- 2 ^ (8 * n - 1) <=? z) && (z <? 2 ^ (8 * n - 1)) then bytes z else ThrowOther
  | (U8 | U16 | U32), VInt z => if (0 <=? z) && (z <? 2 ^ (8 * n)) then bytes z else ThrowOther
  | F32, VF32 b => bytes b
  | F64, VF64 b => bytes b
  | F32, _ => match to_f32 v with Some b => bytes b | None => ThrowOther end
  | F64, _ => match to_f64 v with Some b => bytes b | None => ThrowOther end
  | _, _ => ThrowOther
  end.

(** struct.unpack (convert.py:99): the size must match. *)
Fixpoint unpack (big : bool) (fmt : list fchar) (bytes : list Z) : outcome (list value) :=
  match fmt with
  | [] => match bytes with [] => Ok [] | _ => ThrowOther end
  | c :: fmt' =>
      let n := Z.to_nat (char_size c) in
      if (length bytes <? n)%nat then ThrowOther
      else
        rest <- unpack big fmt' (skipn n bytes) ;;
        Ok (match c with Pad => rest | Val d => decode big d (firstn n bytes) :: rest end)
  end.
(** struct.pack (convert.py:106): as many arguments as values. *)
Fixpoint pack (big : bool) (fmt : list fchar) (values : list value) : outcome (list Z) :=
  match fmt with
  | [] => match values with [] => Ok [] | _ => ThrowOther end
  | Pad :: fmt' => rest <- pack big fmt' values ;; Ok (0 :: rest)
  | Val d :: fmt' =>
      match values with
      | [] => ThrowOther
      | v :: values' =>
          b <- encode big d v ;;
          rest <- pack big fmt' values' ;;
          Ok (b ++ rest)
      end
  end.

(** convert.py:118-121 split; the fuel is the length of the collection, a chunk size of zero
    is a ValueError. *)
Fixpoint split_fuel {A : Type} (fuel : nat) (l : list A) (m : nat) : list (list A) :=
  match fuel, l with
  | S fuel', _ :: _ => firstn m l :: split_fuel fuel' (skipn m l) m
  | _, _ => []
  end.
(** convert.py:118-121 split. *)
Definition split {A : Type} (l : list A) (m : nat) : outcome (list (list A)) :=
  match m with O => ThrowOther | _ => Ok (split_fuel (length l) l m) end.

(** convert.py:94-100 unpack_point_bytes. *)
Definition unpack_point_bytes (bytes : list Z) (fields : list field) (point_step : Z) (big : bool) : outcome (list (list value)) :=
  if point_step =? 0 then ThrowOther
  else
  assert_ (zlen bytes mod point_step =? 0) (
  let n_points := zlen bytes / point_step in
  fmt <- create_points_format fields n_points point_step ;;
  unpacked <- unpack big fmt bytes ;;
  split unpacked (length fields)).

(** convert.py:103-106 pack_point_data, with flatten (109-110). *)
Definition pack_point_data (points : list (list value)) (fields : list field) (point_step : Z) (big : bool) : outcome (list Z) :=
  fmt <- create_points_format fields (zlen points) point_step ;;
  pack big fmt (concat points).

(** convert.py:124-125 find_indices. *)
Definition find_indices (fields : list field) (names : list string) : list Z :=
  filter (fun i => match nth_error fields (Z.to_nat i) with
                   | Some f => existsb (String.eqb (fname f)) names
                   | None => false end) (map Z.of_nat (seq 0 (length fields))).
(** convert.py:128-131 filter_point_data. *)
Definition filter_point_data (points : list (list value)) (input_fields output_fields : list field) : outcome (list (list value)) :=
  let indices := find_indices input_fields (map fname output_fields) in
  mapM (fun chunk => mapM (vat chunk) indices) points.

(** Comparison of a Python number with 0. (convert.py:163). *)
Definition is_zero (v : value) : bool :=
  match v with
  | VInt z => z =? 0
  | VF32 b => (b =? 0) || (b =? 2 ^ 31)
  | VF64 b => (b =? 0) || (b =? 2 ^ 63)
  end.
(** convert.py:162-163 nonzero; later components are only looked at when the earlier are
    zero. *)
Definition nonzero (c : list value) : outcome bool :=
  x <- vat c 0 ;;
  if is_zero x then
    y <- vat c 1 ;;
    if is_zero y then z <- vat c 2 ;; Ok (negb (is_zero z)) else Ok true
  else Ok true.
(** convert.py:192 the generator that keeps the nonzero points. *)
Definition filter_nonzero (l : list (list value)) : outcome (list (list value)) :=
  flags <- mapM nonzero l ;;
  Ok (map snd (filter (fun fl => fst fl) (combine flags l))).

(** convert.py:113-115 make_point_field. *)
Definition make_point_field (name : string) (off : Z) (d : dtype) : field := Field name off (datatype_id d) 1.
(** convert.py:185 the appended field. *)
Definition padding_field : field := make_point_field "padding" 12 F32.
(** convert.py:137-145 make_fields. *)
Definition make_fields : list field :=
  [make_point_field "x" 0 F32; make_point_field "y" 4 F32; make_point_field "z" 8 F32;
   make_point_field "padding" 12 F32; make_point_field "intensity" 16 F32; make_point_field "ring" 20 U16].
(** convert.py:134 output_point_step. *)
Definition output_point_step : Z := 32.

(** convert.py:186 sorted by offset; Python's sort is stable, so is this insertion sort. *)
Fixpoint insert (f : field) (l : list field) : list field :=
  match l with
  | [] => [f]
  | g :: l' => if offset f <=? offset g then f :: l else g :: insert f l'
  end.
(** convert.py:186. *)
Definition sort_fields (l : list field) : list field := fold_right insert [] l.

(** sensor_msgs PointCloud2 as read and written by convert.py:183-210; the header is an
    opaque number. *)
Record cloud2 := Cloud2 { header : Z; height : Z; width : Z; cfields : list field; bigendian : bool;
                          point_step : Z; row_step : Z; data : list Z; is_dense : bool }.

(** convert.py:183-212 callback: the published cloud. *)
Definition callback (input : cloud2) : outcome cloud2 :=
  let input_fields := sort_fields (cfields input ++ [padding_field]) in
  unpacked <- unpack_point_bytes (data input) input_fields (point_step input) (bigendian input) ;;
  kept <- filter_nonzero unpacked ;;
  filtered <- filter_point_data kept input_fields make_fields ;;
  bytes <- pack_point_data filtered make_fields output_point_step false ;;
  Ok (Cloud2 (header input) 1 (zlen filtered) make_fields false output_point_step
        (output_point_step * zlen filtered) bytes true).
End Convert.
