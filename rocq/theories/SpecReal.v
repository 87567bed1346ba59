(** Specification vocabulary over the reals. Nothing in this file models code. *)
From Coq Require Import Reals List.
Open Scope R_scope.

(** The two-argument arctangent on the reals, atan2 0 0 = 0. *)
Definition atan2 (y x : R) : R :=
  if Rlt_dec 0 x then atan (y / x)
  else if Rlt_dec x 0 then if Rle_dec 0 y then atan (y / x) + PI else atan (y / x) - PI
  else if Rlt_dec 0 y then PI / 2 else if Rlt_dec y 0 then - PI / 2 else 0.

(** Sum of f over a list of indices. *)
Definition rsum (f : nat -> R) (l : list nat) : R := List.fold_right (fun k s => f k + s) 0 l.

(** Sum over k = 1 .. p of the second differences r(j-k) - 2 r(j) + r(j+k). *)
Definition second_diff (r : nat -> R) (p j : nat) : R :=
  rsum (fun k => r (j - k)%nat - 2 * r j + r (j + k)%nat) (List.seq 1 p).
