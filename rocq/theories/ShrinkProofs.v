(** A textbook update never increases a variance, in the terms of SpecKalman only. *)
From Coq Require Import Reals Lra Lia ZArith List.
From mathcomp Require Import all_ssreflect all_algebra.
From Verif Require Import Base Arith EkfModel KalmanModel SpecKalman RealMatrix KalmanProofs StackProofs KalmanProofs2 KalmanProofs3.
Set Implicit Arguments.
Unset Strict Implicit.
Unset Printing Implicit Defensive.
Import GRing.Theory.
Local Open Scope ring_scope.
Local Opaque mmul mvec madd msub vadd vsub mtr times apply_to flip plus minus scaled total KalmanModel.sum.

Lemma textbook_shrinks n h C N y x P x' P' : positive_semidefinite n P -> positive_definite h N -> textbook_update n h C N y x P x' P' ->
  positive_semidefinite n P' /\ forall v, Rle (variance_along n P' v) (variance_along n P v).
Proof.
  move=> /psd_mx HP /pd_mx HN [V [K [/inverse_mx HV [HK [_ HP']]]]].
  have EV : mx h h V = invmx (inn (mx n n P) (mx h n C) (mx h h N)).
  { move: HV. rewrite innovation_mx addrC -/(inn _ _ _) => HV. have U := inn_inv (mx h n C) HP HN.
    rewrite -[LHS]mul1mx -(mulmx1C U) -mulmxA HV mulmx1. by []. }
  have EK : mx n h K = gainm (mx n n P) (mx h n C) (mx h h N) by rewrite (mx_ext HK) gain_mx EV.
  have EP : mx n n P' = updP (mx n n P) (mx h n C) (mx h h N) by rewrite (mx_ext HP') covariance_mx EK /updP mulmxA.
  split.
  - apply/psd_mx. rewrite EP. exact: updP_psd.
  - move=> v. rewrite !variance_qf EP. exact: updP_less.
Qed.
Lemma predicted_psd a d F Q P P' : (d <= a)%coq_nat -> positive_semidefinite d Q -> positive_semidefinite a P ->
  same_matrix a a P' (plus (times a (times a (stacked_transition d F) P) (flip (stacked_transition d F))) (stacked_noise d Q)) -> positive_semidefinite a P'.
Proof.
  move=> Hd HQ /psd_mx HP E. apply/psd_mx. rewrite (mx_ext E) mx_plus !mx_times mx_flip. apply: psd_add; first exact: psd_congr. exact: stacked_noise_psd.
Qed.
