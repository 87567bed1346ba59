(** Textbook updates commute: in information form they add up. *)
From Coq Require Import Reals Lra Lia ZArith List Permutation.
From mathcomp Require Import all_ssreflect all_algebra.
From Verif Require Import Base Arith EkfModel KalmanModel SpecKalman SpecFusion RealMatrix KalmanProofs StackProofs KalmanProofs2 KalmanProofs3 SpecSwap.
Set Implicit Arguments.
Unset Strict Implicit.
Unset Printing Implicit Defensive.
Import GRing.Theory.
Local Open Scope ring_scope.
Local Opaque mmul mvec madd msub vadd vsub mtr times apply_to flip plus minus scaled KalmanModel.sum.

(** What a reading adds to the information matrix and vector. *)
Definition gives n (r : reading) : 'M[R]_n := (mx (size r) n (sees r))^T *m invmx (mx (size r) (size r) (fuzz r)) *m mx (size r) n (sees r).
Definition tells n (r : reading) : 'cV[R]_n := (mx (size r) n (sees r))^T *m invmx (mx (size r) (size r) (fuzz r)) *m cv (size r) (reads r).
Definition all_give n (l : list reading) : 'M[R]_n := List.fold_right (fun r A => gives n r + A) 0 l.
Definition all_tell n (l : list reading) : 'cV[R]_n := List.fold_right (fun r b => tells n r + b) 0 l.

Lemma info_step n r s s' : mx (size r) (size r) (fuzz r) \in unitmx -> fused n r s s' ->
  exists L, [/\ L *m (1%:M + mx n n s.2 *m gives n r) = 1%:M,
    (1%:M + mx n n s.2 *m gives n r) *m cv n s'.1 = cv n s.1 + mx n n s.2 *m tells n r &
    (1%:M + mx n n s.2 *m gives n r) *m mx n n s'.2 = mx n n s.2].
Proof.
  move=> HN [V [K [/inverse_mx HV [HK [Hx HP]]]]]. move: HV. rewrite innovation_mx => HV.
  have EK : mx n (size r) K = mx n n s.2 *m (mx (size r) n (sees r))^T *m mx _ _ V by rewrite (mx_ext HK) gain_mx.
  have EP := mx_ext HP. rewrite covariance_mx EK in EP. have Ex := cv_ext Hx. rewrite state_mx EK in Ex. rewrite /gives /tells.
  move: HN HV Ex EP => {EK HK Hx HP}.
  move: (mx _ _ (fuzz r)) (mx _ n (sees r)) (mx n n s.2) (mx _ _ V) (cv _ (reads r)) (cv n s.1) (cv n s'.1) (mx n n s'.2) => N C P W y x x' P' HN HV -> ->.
  set B := 1%:M + _.
  have BK : B *m (P *m C^T *m W) = P *m C^T *m invmx N.
  { rewrite /B mulmxDl mul1mx.
    have E : P *m C^T *m invmx N = P *m C^T *m invmx N *m ((C *m (P *m C^T) + N) *m W) by rewrite HV mulmx1.
    rewrite [RHS]E mulmxDl mulmxDr !mulmxA -[_ *m invmx N *m N]mulmxA (mulVmx HN) mulmx1. by rewrite addrC. }
  have BL : B *m (1%:M - P *m C^T *m W *m C) = 1%:M.
  { rewrite mulmxBr mulmx1 mulmxA BK /B !mulmxA. by rewrite addrK. }
  exists (1%:M - P *m C^T *m W *m C). split.
  - exact: (mulmx1C BL).
  - rewrite mulmxDr mulmxA BK /B mulmxDl mul1mx mulmxBr !mulmxA -addrA. congr (_ + _). by rewrite addrCA subrr addr0.
  - have -> : P - P *m C^T *m W *m (C *m P) = (1%:M - P *m C^T *m W *m C) *m P by rewrite mulmxBl mul1mx !mulmxA.
    by rewrite mulmxA BL mul1mx.
Qed.
Lemma info_turn n l s s' : List.Forall (fun r => mx (size r) (size r) (fuzz r) \in unitmx) l -> in_turn (fused n) l s s' ->
  exists L, [/\ L *m (1%:M + mx n n s.2 *m all_give n l) = 1%:M,
    (1%:M + mx n n s.2 *m all_give n l) *m cv n s'.1 = cv n s.1 + mx n n s.2 *m all_tell n l &
    (1%:M + mx n n s.2 *m all_give n l) *m mx n n s'.2 = mx n n s.2].
Proof.
  move=> F T. elim: T F => {l s s'} [s _|r l s s1 s2 H1 _ IH F].
  - exists 1%:M. by rewrite /= !mulmx0 !addr0 !mul1mx.
  - have [F1 F2] : mx (size r) (size r) (fuzz r) \in unitmx /\ List.Forall (fun r => mx (size r) (size r) (fuzz r) \in unitmx) l by inversion F.
    have [L1 [A1 A2 A3]] := info_step F1 H1. have [L2 [B1 B2 B3]] := IH F2. rewrite /=.
    have E : 1%:M + mx n n s.2 *m (gives n r + all_give n l) = (1%:M + mx n n s.2 *m gives n r) *m (1%:M + mx n n s1.2 *m all_give n l).
    { rewrite [RHS]mulmxDr mulmx1 [_ *m (_ *m all_give n l)]mulmxA A3 mulmxDr addrA. by []. }
    exists (L2 *m L1). rewrite E. split.
    + by rewrite mulmxA -[L2 *m L1 *m _]mulmxA A1 mulmx1.
    + by rewrite -mulmxA B2 mulmxDr A2 mulmxA A3 [in RHS]mulmxDr addrA.
    + by rewrite -mulmxA B3.
Qed.
Lemma all_give_perm n l l' : Permutation l l' -> all_give n l = all_give n l'.
Proof. elim => //= [x a b _ ->|x y a|a b c _ -> _ ->] //. by rewrite addrCA. Qed.
Lemma all_tell_perm n l l' : Permutation l l' -> all_tell n l = all_tell n l'.
Proof. elim => //= [x a b _ ->|x y a|a b c _ -> _ ->] //. by rewrite addrCA. Qed.
Lemma cv_same n x y : cv n x = cv n y -> same_vector n x y.
Proof. move=> E i /ltP Hi. move/matrixP: E => /(_ (Ordinal Hi) ord0). by rewrite !mxE. Qed.
Lemma mx_same m n X Y : mx m n X = mx m n Y -> same_matrix m n X Y.
Proof. move=> E i j /ltP Hi /ltP Hj. move/matrixP: E => /(_ (Ordinal Hi) (Ordinal Hj)). by rewrite !mxE. Qed.
Lemma pd_unit h N : positive_definite h N -> mx h h N \in unitmx.
Proof. move=> H. have [V /inverse_mx HV] := pd_has_inverse H. by have [-> _] := mulmx1_unit HV. Qed.
Lemma info_same n l l' s s' t : List.Forall (fun r => positive_definite (size r) (fuzz r)) l -> List.Forall (fun r => positive_definite (size r) (fuzz r)) l' ->
  all_give n l = all_give n l' -> all_tell n l = all_tell n l' -> in_turn (fused n) l s s' -> in_turn (fused n) l' s t -> same_estimate n s' t.
Proof.
  move=> F F' Eg Et T T'. have U : forall l, List.Forall (fun r => positive_definite (size r) (fuzz r)) l -> List.Forall (fun r => mx (size r) (size r) (fuzz r) \in unitmx) l.
  { move=> k. apply: List.Forall_impl => r. exact: pd_unit. }
  have [L [A1 A2 A3]] := info_turn (U _ F) T. have [L' [B1 B2 B3]] := info_turn (U _ F') T'. rewrite -Eg in B1 B2 B3. rewrite -Et in B2.
  split.
  - apply: cv_same. by rewrite -[LHS]mul1mx -[RHS]mul1mx -A1 -!mulmxA A2 B2.
  - apply: mx_same. by rewrite -[LHS]mul1mx -[RHS]mul1mx -A1 -!mulmxA A3 B3.
Qed.
Lemma turn_permuted n l l' s s' t : Permutation l l' -> List.Forall (fun r => positive_definite (size r) (fuzz r)) l ->
  in_turn (fused n) l s s' -> in_turn (fused n) l' s t -> same_estimate n s' t.
Proof.
  move=> PM F. apply: info_same => //.
  - apply/List.Forall_forall => x Hx. move/List.Forall_forall: F. apply. apply: (Permutation_in x (Permutation_sym PM)). exact: Hx.
  - exact: all_give_perm.
  - exact: all_tell_perm.
Qed.
(** ** Two readings as one *)
Section Together.
Variables (n : nat) (r1 r2 : reading).
Let h1 := size r1. Let h2 := size r2.
Lemma ltb_in (k : 'I_h1) : PeanoNat.Nat.ltb k h1 = true.
Proof. apply/PeanoNat.Nat.ltb_lt. exact: (elimT ltP (ltn_ord k)). Qed.
Lemma ltb_out k : PeanoNat.Nat.ltb (addn h1 k) h1 = false.
Proof. apply/PeanoNat.Nat.ltb_ge. apply/leP. exact: leq_addr. Qed.
Lemma sub_out k : Nat.sub (addn h1 k) h1 = k.
Proof. exact: addKn. Qed.
Lemma together_sees : mx (h1 + h2) n (sees (together r1 r2)) = col_mx (mx h1 n (sees r1)) (mx h2 n (sees r2)).
Proof. apply/matrixP => i j. rewrite !mxE /= -/h1. by case: splitP => k Ek; rewrite !mxE Ek ?ltb_in ?ltb_out ?sub_out. Qed.
Lemma together_reads : cv (h1 + h2) (reads (together r1 r2)) = col_mx (cv h1 (reads r1)) (cv h2 (reads r2)).
Proof. apply/matrixP => i j. rewrite !mxE /= -/h1. by case: splitP => k Ek; rewrite !mxE Ek ?ltb_in ?ltb_out ?sub_out. Qed.
Lemma together_fuzz : mx (h1 + h2) (h1 + h2) (fuzz (together r1 r2)) = block_mx (mx h1 h1 (fuzz r1)) 0 0 (mx h2 h2 (fuzz r2)).
Proof.
  apply/matrixP => i j. rewrite !mxE /= -/h1.
  by case: splitP => k Ek; rewrite !mxE; case: splitP => l El; rewrite !mxE Ek El ?ltb_in ?ltb_out ?sub_out.
Qed.
Hypothesis H1 : positive_definite h1 (fuzz r1).
Hypothesis H2 : positive_definite h2 (fuzz r2).
Lemma together_pd : positive_definite (h1 + h2) (fuzz (together r1 r2)).
Proof.
  apply/pd_mx. rewrite together_fuzz. move/pd_mx: H1 => [s1 p1]. move/pd_mx: H2 => [s2 p2]. split.
  - by rewrite tr_block_mx s1 s2 !trmx0.
  - move=> v Nv. rewrite -[v]vsubmxK. set a := usubmx v. set b := dsubmx v.
    have E : qf (block_mx (mx h1 h1 (fuzz r1)) 0 0 (mx h2 h2 (fuzz r2))) (col_mx a b) = Rplus (qf (mx h1 h1 (fuzz r1)) a) (qf (mx h2 h2 (fuzz r2)) b).
    { rewrite /qf tr_col_mx mul_row_block !mulmx0 addr0 add0r mul_row_col mxE. by []. }
    rewrite E. have Q1 : psd (mx h1 h1 (fuzz r1)) by exact: pd_psd. have Q2 : psd (mx h2 h2 (fuzz r2)) by exact: pd_psd.
    case: (a =P 0) => [Ea|/eqP Na].
    + have Nb : b != 0. { apply/eqP => Eb. move/eqP: Nv; apply. by rewrite -[v]vsubmxK -/a -/b Ea Eb col_mx0. }
      move: (p2 _ Nb). case: Q1 => _ /(_ a). lra.
    + move: (p1 _ Na). case: Q2 => _ /(_ b). lra.
Qed.
Lemma together_inv : invmx (mx (h1 + h2) (h1 + h2) (fuzz (together r1 r2))) = block_mx (invmx (mx h1 h1 (fuzz r1))) 0 0 (invmx (mx h2 h2 (fuzz r2))).
Proof.
  have U := pd_unit together_pd. have U1 := pd_unit H1. have U2 := pd_unit H2.
  rewrite -[RHS]mul1mx -(mulVmx U) -mulmxA together_fuzz mulmx_block !mulmx0 !mul0mx !addr0 !add0r (mulmxV U1) (mulmxV U2). by rewrite -scalar_mx_block mulmx1.
Qed.
Lemma together_gives : gives n (together r1 r2) = gives n r1 + gives n r2.
Proof.
  rewrite /gives. change (size (together r1 r2)) with (addn h1 h2).
  rewrite together_inv together_sees tr_col_mx mul_row_block !mulmx0 addr0 add0r mul_row_col. by [].
Qed.
Lemma together_tells : tells n (together r1 r2) = tells n r1 + tells n r2.
Proof.
  rewrite /tells. change (size (together r1 r2)) with (addn h1 h2).
  rewrite together_inv together_sees together_reads tr_col_mx mul_row_block !mulmx0 addr0 add0r mul_row_col. by [].
Qed.
Lemma together_fused s s' t : in_turn (fused n) [:: r1; r2] s s' -> fused n (together r1 r2) s t -> same_estimate n s' t.
Proof.
  move=> T T'. apply: (@info_same n [:: r1; r2] [:: together r1 r2] s s' t) => //.
  - by do 2 (apply: List.Forall_cons => //).
  - apply: List.Forall_cons => //. exact: together_pd.
  - by rewrite /= together_gives addrA.
  - by rewrite /= together_tells addrA.
  - apply: in_turn_cons; first exact: T'. exact: in_turn_nil.
Qed.
End Together.
