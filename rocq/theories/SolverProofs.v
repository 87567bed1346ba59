(** A solver of positive definite systems exists (the inverse matrix), so the hypothesis of
    C87 on the Cholesky solver can be met. *)
From Coq Require Import Reals Lra ClassicalEpsilon List.
From mathcomp Require Import all_ssreflect all_algebra.
From Verif Require Import RealMatrix PoseModel SpecPose SpecStep StepProofs.
Set Implicit Arguments.
Unset Strict Implicit.
Unset Printing Implicit Defensive.
Import GRing.Theory.

Lemma total_big n (f : nat -> R) : total n f = (\sum_(i < n) f i)%R.
Proof.
  rewrite -(big_mkord xpredT f) /index_iota subn0 /total.
  elim: n 0%N => [|n IH] m; first by rewrite big_nil.
  rewrite /= big_cons IH //.
Qed.

Lemma solver_exists : exists solve, solves_positive_definite solve.
Proof.
  exists (fun (n : nat) (A : nat -> nat -> R) (b : nat -> R) => match n with O => b | S k =>
    fun i => ((invmx (\matrix_(i < k.+1, j < k.+1) A i j) *m \col_(i < k.+1) b i) (inord i) 0)%R end).
  move=> [|k] A b [HA HP] i Hi; first by case: (PeanoNat.Nat.nlt_0_r _ Hi).
  set M := (\matrix_(i < k.+1, j < k.+1) A i j)%R.
  have MU : M \in unitmx.
  { rewrite -row_free_unit -kermx_eq0. apply/eqP/row_matrixP => r. rewrite row0.
    set v := row r (kermx M).
    have Kv : (v *m M = 0)%R by apply/sub_kermxP; apply: row_sub.
    apply/rowP => c. rewrite [in RHS]mxE. case: (Req_dec (v ord0 c) 0) => // N.
    exfalso.
    have Z : nonzero k.+1 (fun j => v ord0 (inord j)).
    { exists c. split; first by apply/ltP. by rewrite inord_val. }
    move: (HP _ Z). rewrite /quad.
    have -> : total k.+1 (fun i0 => total k.+1 (fun j => Rmult (Rmult (v ord0 (inord i0)) (A i0 j)) (v ord0 (inord j)))) = 0%R.
    { rewrite total_swap total_big. apply: big1 => j _. rewrite total_big.
      have -> : (\sum_(i0 < k.+1) Rmult (Rmult (v ord0 (inord i0)) (A i0 j)) (v ord0 (inord j)) =
                (v *m M) ord0 j * v ord0 j)%R.
      { rewrite [(v *m M)%R ord0 j]mxE mulr_suml. apply: eq_bigr => a _. by rewrite !inord_val [M _ _]mxE. }
      by rewrite Kv mxE mul0r. }
    move=> P. exact: (Rlt_irrefl _ P). }
  have {}Hi : (i < k.+1)%N by apply/ltP.
  rewrite total_big.
  have -> : (\sum_(j < k.+1) Rmult (A i j) ((invmx M *m \col_(i0 < k.+1) b i0) (inord j) 0) =
             (M *m (invmx M *m \col_(i0 < k.+1) b i0)) (inord i) 0)%R.
  { rewrite [RHS]mxE. apply: eq_bigr => j _. by rewrite inord_val [M _ _]mxE inordK. }
  by rewrite mulKVmx // mxE inordK.
Qed.
