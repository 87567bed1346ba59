(** The real numbers of the standard library as a commutative ring of mathcomp, so that its
    matrices can be used in the proofs about the Kalman filter.  The choice operator that
    mathcomp asks for comes from the standard library's epsilon. *)
From Coq Require Import Reals Lra ClassicalEpsilon FunctionalExtensionality.
From mathcomp Require Import all_ssreflect all_algebra.
Set Implicit Arguments.
Unset Strict Implicit.
Unset Printing Implicit Defensive.
Import GRing.Theory.

Definition R_eqb (x y : R) : bool := if Req_EM_T x y then true else false.
Lemma R_eqP : Equality.axiom R_eqb.
Proof. move=> x y; rewrite /R_eqb; case: Req_EM_T => H; by constructor. Qed.
Definition R_eqMixin := EqMixin R_eqP.
Canonical R_eqType := EqType R R_eqMixin.

Definition R_find (P : pred R) (n : nat) : option R :=
  match excluded_middle_informative (exists x, P x) with
  | left H => Some (proj1_sig (constructive_indefinite_description _ H))
  | right _ => None
  end.
Lemma R_find_correct P n x : R_find P n = Some x -> P x.
Proof.
  rewrite /R_find; case: excluded_middle_informative => [H|//] [<-]. exact: (proj2_sig (constructive_indefinite_description _ H)).
Qed.
Lemma R_find_complete (P : pred R) : (exists x, P x) -> exists n, R_find P n.
Proof. by move=> H; exists 0%N; rewrite /R_find; case: excluded_middle_informative. Qed.
Lemma R_find_ext (P Q : pred R) : P =1 Q -> R_find P =1 R_find Q.
Proof. by move=> E n; have -> : P = Q by apply: functional_extensionality. Qed.
Definition R_choiceMixin := @Choice.Mixin R R_find R_find_correct R_find_complete R_find_ext.
Canonical R_choiceType := ChoiceType R R_choiceMixin.

Lemma RaddA : associative Rplus. Proof. by move=> x y z; rewrite Rplus_assoc. Qed.
Lemma RaddC : commutative Rplus. Proof. exact: Rplus_comm. Qed.
Lemma Radd0 : left_id (IZR 0) Rplus. Proof. exact: Rplus_0_l. Qed.
Lemma RaddN : left_inverse (IZR 0) Ropp Rplus. Proof. exact: Rplus_opp_l. Qed.
Definition R_zmodMixin := ZmodMixin RaddA RaddC Radd0 RaddN.
Canonical R_zmodType := ZmodType R R_zmodMixin.

Lemma RmulA : associative Rmult. Proof. by move=> x y z; rewrite Rmult_assoc. Qed.
Lemma RmulC : commutative Rmult. Proof. exact: Rmult_comm. Qed.
Lemma Rmul1 : left_id (IZR 1) Rmult. Proof. exact: Rmult_1_l. Qed.
Lemma RmulDl : left_distributive Rmult Rplus. Proof. exact: Rmult_plus_distr_r. Qed.
Lemma R1_neq0 : (IZR 1 : R_eqType) != IZR 0. Proof. by apply/eqP; lra. Qed.
Definition R_comRingMixin := ComRingMixin RmulA RmulC Rmul1 RmulDl R1_neq0.
Canonical R_ringType := RingType R R_comRingMixin.
Canonical R_comRingType := ComRingType R RmulC.

Lemma Rinv_mul (x : R) : x != 0%R -> (Rinv x * x)%R = 1%R.
Proof. move=> /eqP H. exact: Rinv_l. Qed.
Lemma Rinv_zero : Rinv (0%R : R) = 0%R.
Proof. exact: Rinv_0. Qed.
Definition R_unitMixin := FieldUnitMixin Rinv_mul Rinv_zero.
Canonical R_unitRingType := UnitRingType R R_unitMixin.
Canonical R_comUnitRingType := [comUnitRingType of R].
Lemma R_field_axiom : GRing.Field.mixin_of R_unitRingType.
Proof. by []. Qed.
Canonical R_idomainType := IdomainType R (FieldIdomainMixin R_field_axiom).
Canonical R_fieldType := FieldType R R_field_axiom.
