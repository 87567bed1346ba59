(** Vocabulary of the properties C75 and C76: binary layouts of points. *)
From Coq Require Import String List ZArith Bool.
From Verif Require Import ConvertModel.
Import ListNotations.
Open Scope Z_scope.

(** Bytes. *)
Definition is_byte (b : Z) : Prop := 0 <= b < 256.
(** Bytes [off, off + n) of a point. *)
Definition slice (p : list Z) (off n : Z) : list Z := firstn (Z.to_nat n) (skipn (Z.to_nat off) p).
(** Size in bytes of the PointField type ids 1..8: int8, uint8, int16, uint16, int32,
    uint32, float32, float64. *)
Definition type_size (id : Z) : Z :=
  match id with 1 | 2 => 1 | 3 | 4 => 2 | 5 | 6 | 7 => 4 | 8 => 8 | _ => 0 end.
Definition valid_type (id : Z) : Prop := 1 <= id <= 8.

(** Place value of bytes, byte i counting 256^i. *)
Definition place_value (l : list Z) : Z :=
  fold_right Z.add 0 (map (fun i => nth i l 0 * 256 ^ Z.of_nat i) (seq 0 (length l))).
(** Byte order: the bytes in little endian order. *)
Definition little (big : bool) (l : list Z) : list Z := if big then rev l else l.

(** The value v of type id is stored in the bytes. *)
Definition stored (big : bool) (id : Z) (bytes : list Z) (v : value) : Prop :=
  Z.of_nat (length bytes) = type_size id /\
  let u := place_value (little big bytes) in
  match id with
  | 2 | 4 | 6 => v = VInt u
  | 1 | 3 | 5 => exists z, v = VInt z /\ - 2 ^ (8 * type_size id - 1) <= z < 2 ^ (8 * type_size id - 1) /\ z mod 2 ^ (8 * type_size id) = u
  | 7 => v = VF32 u
  | 8 => v = VF64 u
  | _ => False
  end.

(** Values a field of the given type can hold. *)
Definition holds (id : Z) (v : value) : Prop :=
  match id, v with
  | (1 | 3 | 5), VInt z => - 2 ^ (8 * type_size id - 1) <= z < 2 ^ (8 * type_size id - 1)
  | (2 | 4 | 6), VInt z => 0 <= z < 2 ^ (8 * type_size id)
  | 7, VF32 b => 0 <= b < 2 ^ 32
  | 8, VF64 b => 0 <= b < 2 ^ 64
  | _, _ => False
  end.

(** Fields one after the other from a position on, without overlap, inside the step. *)
Fixpoint laid_out (start : Z) (fields : list field) (step : Z) : Prop :=
  match fields with
  | [] => start <= step
  | f :: l => start <= offset f /\ valid_type (datatype f) /\ laid_out (offset f + type_size (datatype f)) l step
  end.

(** Two fields that do not share a byte. *)
Definition apart (f g : field) : Prop :=
  offset f + type_size (datatype f) <= offset g \/ offset g + type_size (datatype g) <= offset f.
(** A field of the given name, offset and type. *)
Definition has (fields : list field) (name : string) (off ty : Z) : Prop :=
  exists c, In (Field name off ty c) fields.

(** Layouts with x, y, z at 0, 4, 8, four unused bytes at 12, and intensity before ring;
    any other fields anywhere, in any order of the field list. *)
Definition gap_layout (fields : list field) (step oi or : Z) : Prop :=
  has fields "x" 0 7 /\ has fields "y" 4 7 /\ has fields "z" 8 7 /\
  has fields "intensity" oi 7 /\ has fields "ring" or 4 /\ oi < or /\
  NoDup ("padding"%string :: map fname fields) /\
  ForallOrdPairs apart (Field "padding" 12 7 1 :: fields) /\
  Forall (fun f => 0 <= offset f /\ offset f + type_size (datatype f) <= step /\ valid_type (datatype f)) fields /\ 16 <= step.

(** The three coordinates of the point are zero (of either sign). *)
Definition zero_bytes (l : list Z) : Prop := l = [0; 0; 0; 0] \/ l = [0; 0; 0; 128].
Definition at_origin (big : bool) (p : list Z) : Prop :=
  zero_bytes (little big (slice p 0 4)) /\ zero_bytes (little big (slice p 4 4)) /\ zero_bytes (little big (slice p 8 4)).
(** The output bytes of a point: x, y, z, the four bytes at 12, intensity, ring, and ten
    zero bytes. *)
Definition converted (big : bool) (oi or : Z) (p : list Z) : list Z :=
  little big (slice p 0 4) ++ little big (slice p 4 4) ++ little big (slice p 8 4) ++ little big (slice p 12 4) ++
  little big (slice p oi 4) ++ little big (slice p or 2) ++ repeat 0 10.
(** l' keeps exactly the elements of l that satisfy P, in order. *)
Inductive kept {A : Type} (P : A -> Prop) : list A -> list A -> Prop :=
| kept_nil : kept P [] []
| kept_yes a l l' : P a -> kept P l l' -> kept P (a :: l) (a :: l')
| kept_no a l l' : ~ P a -> kept P l l' -> kept P (a :: l) l'.
