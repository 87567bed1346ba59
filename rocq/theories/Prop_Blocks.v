(** C07-C09: blocks of a ring, in IEEE double arithmetic. *)
From Coq Require Import List ZArith Bool Lia.
From Verif Require Import Base Arith ExtractModel IndexRangeProofs.
Import ListNotations.
Open Scope Z_scope.

(** ** C07 There are boundaries B(0) = s <= B(1) <= ... <= B(n) = e, block j is
    [B j, B (j+1)), and every index of [s, e) lies in exactly one block.
    Supported sizes: int indices and e * n <= 2^53 (for the default 6 blocks: every int). *)
Theorem C07_blocks_partition acosf s e n r :
  0 <= s -> e < 2 ^ 31 -> 1 <= n -> e * n <= 2 ^ 53 ->
  make_index_range s e n = Ok r ->
  exists B : Z -> Z,
    B 0 = s /\ B n = e /\
    (forall j, 0 <= j < n -> ir_begin (ieee acosf) r j = Ok (B j) /\
                             ir_finish (ieee acosf) r j = Ok (B (j + 1)) /\ B j <= B (j + 1)) /\
    (forall i, s <= i < e -> exists! j, 0 <= j < n /\ B j <= i < B (j + 1)).
Proof. exact (blocks_partition acosf s e n r). Qed.
Print Assumptions C07_blocks_partition.

(** A boundary is at most one position away from the exact quotient. *)
Theorem C07_boundary_accuracy acosf s e n r :
  0 <= s -> e < 2 ^ 31 -> 1 <= n -> e * n <= 2 ^ 53 ->
  make_index_range s e n = Ok r ->
  forall j, 0 <= j < n -> exists b,
    ir_begin (ieee acosf) r j = Ok b /\ Z.abs (b - (s + (e - s) * j / n)) <= 1.
Proof. exact (blocks_near_ideal acosf s e n r). Qed.
Print Assumptions C07_boundary_accuracy.

Example ex_C07 : forall acosf, exists r,
  make_index_range 5 1023 6 = Ok r /\
  map (ir_begin (ieee acosf) r) [0; 1; 2; 3; 4; 5] =
    [Ok 5; Ok 174; Ok 344; Ok 514; Ok 683; Ok 853] /\
  map (ir_finish (ieee acosf) r) [0; 1; 2; 3; 4; 5] =
    [Ok 174; Ok 344; Ok 514; Ok 683; Ok 853; Ok 1023].
Proof. intros. eexists. split; [reflexivity|]. vm_compute. auto. Qed.

(** ** C08 is refuted: 10 points in 5 blocks from index 18 give a block of 1 and one
    of 3 points. *)
Theorem C08_nominal_width_refuted :
  ~ (forall acosf s e n r j b f,
       0 <= s -> 1 <= n -> (e - s) mod n = 0 -> make_index_range s e n = Ok r ->
       0 <= j < n -> ir_begin (ieee acosf) r j = Ok b -> ir_finish (ieee acosf) r j = Ok f ->
       f - b = (e - s) / n).
Proof.
  intros H.
  specialize (H (fun x => x) 18 28 5 _ 4 25 28 ltac:(lia) ltac:(lia) eq_refl eq_refl ltac:(lia)
                ltac:(vm_compute; reflexivity) ltac:(vm_compute; reflexivity)).
  vm_compute in H. discriminate.
Qed.
Print Assumptions C08_nominal_width_refuted.

(** With width 1 a block can even be empty. *)
Example C08_empty_block : forall acosf, exists r,
  make_index_range 9 14 5 = Ok r /\
  ir_begin (ieee acosf) r 3 = Ok 12 /\ ir_finish (ieee acosf) r 3 = Ok 12.
Proof. intros. eexists. split; [reflexivity|]. vm_compute. auto. Qed.

(** What does hold: block widths differ from the nominal width by at most one. *)
Theorem C08_width_within_one_partial acosf s e n r :
  0 <= s -> e < 2 ^ 31 -> 1 <= n -> e * n <= 2 ^ 53 ->
  make_index_range s e n = Ok r -> (e - s) mod n = 0 ->
  forall j, 0 <= j < n -> exists b f,
    ir_begin (ieee acosf) r j = Ok b /\ ir_finish (ieee acosf) r j = Ok f /\
    (e - s) / n - 1 <= f - b <= (e - s) / n + 1.
Proof.
  exact (fun Hs He Hn Hen H Hd j Hj => blocks_within_one acosf s e n r Hs He Hn Hen H Hd j Hj).
Qed.
Print Assumptions C08_width_within_one_partial.

(** And the nominal width is exact when the number of blocks is a power of two. *)
Theorem C08_power_of_two_partial acosf s e k r :
  0 <= s -> e < 2 ^ 31 -> 0 <= k <= 22 ->
  make_index_range s e (2 ^ k) = Ok r ->
  forall j, 0 <= j < 2 ^ k ->
    ir_begin (ieee acosf) r j = Ok (s + (e - s) * j / 2 ^ k) /\
    ir_finish (ieee acosf) r j = Ok (s + (e - s) * (j + 1) / 2 ^ k).
Proof. exact (blocks_pow2 acosf s e k r). Qed.
Print Assumptions C08_power_of_two_partial.

Example ex_C08_pow2 : forall acosf, exists r,
  make_index_range 18 34 (2 ^ 3) = Ok r /\
  map (ir_begin (ieee acosf) r) [0; 1; 2; 7] = [Ok 18; Ok 20; Ok 22; Ok 32].
Proof. intros. eexists. split; [reflexivity|]. vm_compute. auto. Qed.

(** ** C09 *)
Theorem C09_block_errors A s e n r :
  (make_index_range s e n = ThrowInvalid <-> e - s < n) /\
  (make_index_range s e n = Ok r -> forall j,
     (ir_begin A r j = ThrowRange <-> ~ (0 <= j < n)) /\
     (ir_finish A r j = ThrowRange <-> ~ (0 <= j < n)) /\
     (ir_begin A r j <> ThrowInvalid) /\ (ir_finish A r j <> ThrowInvalid)).
Proof. exact (block_errors A s e n r). Qed.
Print Assumptions C09_block_errors.

Example ex_C09 : make_index_range 3 7 5 = ThrowInvalid /\
  (exists r, make_index_range 3 8 5 = Ok r /\
     ir_begin (ieee (fun x => x)) r 5 = ThrowRange /\
     ir_begin (ieee (fun x => x)) r 4 = Ok 7 /\
     ir_finish (ieee (fun x => x)) r (-1) = ThrowRange).
Proof. split; [reflexivity|]. eexists. split; [reflexivity|]. vm_compute. auto. Qed.
