(** A textbook update is the best use of the measurement, and draws the estimate towards it. *)
From Coq Require Import Reals Lra Lia ZArith List.
From mathcomp Require Import all_ssreflect all_algebra.
From Verif Require Import Base Arith EkfModel KalmanModel SpecKalman RealMatrix KalmanProofs StackProofs KalmanProofs2 KalmanProofs3 SpecBest.
Set Implicit Arguments.
Unset Strict Implicit.
Unset Printing Implicit Defensive.
Import GRing.Theory.
Local Open Scope ring_scope.
Local Opaque mmul mvec madd msub vadd vsub mtr times apply_to flip plus minus scaled KalmanModel.sum.

Section Matrices.
Variables n h : nat.
Variables (P : 'M[R]_n) (C : 'M[R]_(h, n)) (N V : 'M[R]_h).
Hypothesis HP : psd P.
Hypothesis HN : pd N.
Let S := N + C *m (P *m C^T).
Hypothesis HV : S *m V = 1%:M.

Lemma S_sym : S^T = S.
Proof. case: HP => sP _. case: HN => sN _. by rewrite /S linearD /= sN !trmx_mul trmxK sP mulmxA. Qed.
Lemma VS : V *m S = 1%:M.
Proof. exact: mulmx1C. Qed.
Lemma V_sym : V^T = V.
Proof.
  have E : V^T *m S = 1%:M by rewrite -{1}S_sym -trmx_mul HV trmx1.
  by rewrite -[LHS]mulmx1 -HV mulmxA E mul1mx.
Qed.
Lemma qf_S z : qf S z = Rplus (qf N z) (qf P (C^T *m z)).
Proof. by rewrite /S qfD mulmxA qf_congr. Qed.
Lemma S_nonneg z : Rle (IZR 0) (qf S z).
Proof. rewrite qf_S. case: (pd_psd HN) => _ H1. case: HP => _ H2. move: (H1 z) (H2 (C^T *m z)). lra. Qed.

(** completing the square *)
Lemma best_square (v : 'cV[R]_n) (l : 'cV[R]_h) :
  Rplus (qf P (v - C^T *m l)) (qf N l) = Rplus (qf (P - P *m C^T *m V *m (C *m P)) v) (qf S (l - V *m (C *m P *m v))).
Proof.
  rewrite /qf. change (Rplus ?a ?b) with (a + b).
  have E : forall X Y : 'M[R]_1, X = Y -> X ord0 ord0 = Y ord0 ord0 by move=> X Y ->.
  transitivity (((v - C^T *m l)^T *m P *m (v - C^T *m l) + l^T *m N *m l) ord0 ord0); first by rewrite [RHS]mxE.
  transitivity ((v^T *m (P - P *m C^T *m V *m (C *m P)) *m v + (l - V *m (C *m P *m v))^T *m S *m (l - V *m (C *m P *m v))) ord0 ord0); last by rewrite [LHS]mxE.
  apply: E. case: HP => sP _.
  have T1 : (v - C^T *m l)^T = v^T - l^T *m C by rewrite linearB /= trmx_mul trmxK.
  have T2 : (l - V *m (C *m P *m v))^T = l^T - v^T *m P *m C^T *m V by rewrite linearB /= !trmx_mul V_sym sP !mulmxA.
  rewrite T1 T2.
  set b := C *m P *m v. set bt := v^T *m P *m C^T.
  have L : (v^T - l^T *m C) *m P *m (v - C^T *m l) = v^T *m P *m v - bt *m l - l^T *m b + l^T *m (C *m (P *m C^T)) *m l.
  { rewrite !mulmxBl !mulmxBr /b /bt !mulmxA.
    move: (v^T *m P *m v) (v^T *m P *m C^T *m l) (l^T *m C *m P *m v) (l^T *m C *m P *m C^T *m l) => a1 a2 a3 a4.
    apply/matrixP => i j. rewrite !mxE. move: (a1 i j) (a2 i j) (a3 i j) (a4 i j) => r1 r2 r3 r4.
    change (Rplus (Rplus r1 (Ropp r2)) (Ropp (Rplus r3 (Ropp r4))) = Rplus (Rplus (Rplus r1 (Ropp r2)) (Ropp r3)) r4). ring. }
  have Rr : forall (b : 'cV[R]_h) (bt : 'rV[R]_h), (l^T - bt *m V) *m S *m (l - V *m b) = l^T *m S *m l - l^T *m b - bt *m l + bt *m V *m b.
  { move=> {L T1 T2 b bt} b bt. rewrite [(l^T - bt *m V) *m S]mulmxBl -[bt *m V *m S]mulmxA VS mulmx1 mulmxBl !mulmxBr -[l^T *m S *m (V *m b)]mulmxA [S *m (V *m b)]mulmxA HV mul1mx !mulmxA.
    move: (l^T *m S *m l) (l^T *m b) (bt *m l) (bt *m V *m b) => a1 a2 a3 a4.
    apply/matrixP => i j. rewrite !mxE. move: (a1 i j) (a2 i j) (a3 i j) (a4 i j) => r1 r2 r3 r4.
    change (Rplus (Rplus r1 (Ropp r2)) (Ropp (Rplus r3 (Ropp r4))) = Rplus (Rplus (Rplus r1 (Ropp r2)) (Ropp r3)) r4). ring. }
  rewrite L Rr. have -> : v^T *m (P - P *m C^T *m V *m (C *m P)) *m v = v^T *m P *m v - bt *m V *m b.
  { by rewrite mulmxBr mulmxBl /b /bt !mulmxA. }
  have -> : l^T *m S *m l = l^T *m N *m l + l^T *m (C *m (P *m C^T)) *m l by rewrite /S mulmxDr mulmxDl.
  move: (v^T *m P *m v) (bt *m l) (l^T *m b) (l^T *m (C *m (P *m C^T)) *m l) (l^T *m N *m l) (bt *m V *m b) => a1 a2 a3 a4 a5 a6.
  apply/matrixP => i j. rewrite !mxE. move: (a1 i j) (a2 i j) (a3 i j) (a4 i j) (a5 i j) (a6 i j) => r1 r2 r3 r4 r5 r6.
  change (Rplus (Rplus (Rplus (Rplus r1 (Ropp r2)) (Ropp r3)) r4) r5 = Rplus (Rplus r1 (Ropp r6)) (Rplus (Rplus (Rplus (Rplus r5 r4) (Ropp r3)) (Ropp r2)) r6)). ring.
Qed.
End Matrices.

Lemma combination_mx n v x : combination n v x = ((cv n v)^T *m cv n x) ord0 ord0.
Proof. rewrite /combination total_big mxE. apply: eq_bigr => i _. by rewrite !mxE. Qed.
Lemma moved_mx n h C v l : cv n (fun i => Rminus (v i) (total h (fun k => Rmult (C k i) (l k)))) = cv n v - (mx h n C)^T *m cv h l.
Proof.
  apply/matrixP => i j. rewrite !mxE total_big. congr (_ - _). apply: eq_bigr => k _. by rewrite !mxE.
Qed.
Lemma weighted_mx h W a b : weighted h W a b = ((cv h a)^T *m mx h h W *m cv h b) ord0 ord0.
Proof.
  rewrite /weighted total_big mxE.
  transitivity (\sum_(i < h) \sum_(j < h) (Rmult (Rmult (a i) (W i j)) (b j))); first by apply: eq_bigr => i _; exact: total_big.
  rewrite exchange_big /=. apply: eq_bigr => j _. rewrite !mxE big_distrl /=. apply: eq_bigr => i _. by rewrite !mxE.
Qed.
Lemma surprise_mx n h C y x : cv h (surprise n C y x) = cv h y - mx h n C *m cv n x.
Proof. by rewrite /surprise (cv_minus h y) (cv_apply h n C x). Qed.

Lemma textbook_best n h C N y x P x' P' : positive_semidefinite n P -> positive_definite h N -> textbook_update n h C N y x P x' P' ->
  forall v, exists l, combination n v x' = Rplus (combination n v x) (combination h l (surprise n C y x)) /\
    variance_along n P' v = error_variance n h C P N v l /\ forall l2, Rle (variance_along n P' v) (error_variance n h C P N v l2).
Proof.
  move=> /psd_mx HP /pd_mx HN [V [K [/inverse_mx HV [HK [Hx HP']]]]] v.
  move: HV. rewrite innovation_mx addrC => HV.
  have EK : mx n h K = mx n n P *m (mx h n C)^T *m mx h h V by rewrite (mx_ext HK) gain_mx.
  have EP : mx n n P' = mx n n P - mx n n P *m (mx h n C)^T *m mx h h V *m (mx h n C *m mx n n P) by rewrite (mx_ext HP') covariance_mx EK.
  set b := mx h h V *m (mx h n C *m mx n n P *m cv n v).
  have EV : forall l2, error_variance n h C P N v l2 = Rplus (variance_along n P' v) (qf (mx h h N + mx h n C *m (mx n n P *m (mx h n C)^T)) (cv h l2 - b)).
  { move=> l2. rewrite /error_variance !variance_qf moved_mx EP. exact: (best_square HP HN HV). }
  exists (coords_of b). split; [|split].
  - rewrite !combination_mx surprise_mx coords_ofK (cv_ext Hx) state_mx EK mulmxDr mxE. congr Rplus. congr (fun_of_matrix _ _ _).
    rewrite /b !trmx_mul (V_sym HP HN HV). case: HP => -> _. by rewrite !mulmxA.
  - rewrite EV coords_ofK subrr. rewrite [X in Rplus _ X](_ : _ = IZR 0); last by rewrite /qf mulmx0 mxE. lra.
  - move=> l2. rewrite EV. move: (S_nonneg (mx h n C) HP HN (cv h l2 - b)). lra.
Qed.

Section Drawn.
Variables n h : nat.
Variables (P : 'M[R]_n) (C : 'M[R]_(h, n)) (N V W : 'M[R]_h).
Hypothesis HP : psd P.
Hypothesis HN : pd N.
Let S := N + C *m (P *m C^T).
Hypothesis HV : S *m V = 1%:M.
Hypothesis HW : N *m W = 1%:M.

Lemma left_over (r : 'cV[R]_h) : r - C *m (P *m C^T *m V *m r) = N *m V *m r.
Proof.
  have E : N *m V = 1%:M - C *m (P *m C^T) *m V by rewrite -HV /S mulmxDl addrK.
  by rewrite E mulmxBl mul1mx !mulmxA.
Qed.
Lemma W_sym : W^T = W.
Proof.
  case: HN => sN _. have E : W^T *m N = 1%:M by rewrite -{1}sN -trmx_mul HW trmx1.
  by rewrite -[LHS]mulmx1 -HW mulmxA E mul1mx.
Qed.
Lemma W_nonneg u : Rle (IZR 0) (qf W u).
Proof.
  have -> : qf W u = qf N (W *m u).
  { rewrite /qf trmx_mul W_sym. congr (fun_of_matrix _ _ _). by rewrite -!mulmxA [N *m (W *m u)]mulmxA HW mul1mx. }
  case: (pd_psd HN) => _ H. exact: H.
Qed.
Lemma inner_zero (r : 'cV[R]_h) : ((N *m V *m r)^T *m W *m r) ord0 ord0 = Rplus (qf N (V *m r)) (qf P (C^T *m (V *m r))).
Proof.
  rewrite -(qf_S P C N) -/S /qf. congr (fun_of_matrix _ _ _). case: HN => sN _.
  rewrite !trmx_mul (V_sym HP HN HV) sN.
  rewrite -!mulmxA. congr (_ *m (_ *m _)). rewrite [N *m (W *m r)]mulmxA HW mul1mx. by rewrite [S *m (V *m r)]mulmxA HV mul1mx.
Qed.
Lemma inner_self (r : 'cV[R]_h) : qf W (N *m V *m r) = qf N (V *m r).
Proof.
  rewrite /qf. congr (fun_of_matrix _ _ _). case: HN => sN _. rewrite !trmx_mul sN.
  rewrite -[_ *m W]mulmxA -[V^T *m N *m W]mulmxA HW mulmx1 !mulmxA. by [].
Qed.
Lemma inner_whole (r : 'cV[R]_h) : qf W r = Rplus (Rplus (qf N (V *m r)) (Rmult (IZR 2) (qf P (C^T *m (V *m r))))) (qf W (C *m (P *m C^T) *m (V *m r))).
Proof.
  have Er : r = N *m (V *m r) + C *m (P *m C^T) *m (V *m r) by rewrite -mulmxDl mulmxA -/S HV mul1mx.
  set q := V *m r in Er *. rewrite {1}Er. set M := C *m (P *m C^T). case: (HN) => sN _. case: (HP) => sP _.
  have sM : M^T = M by rewrite /M !trmx_mul trmxK sP mulmxA.
  have -> : qf P (C^T *m q) = (q^T *m M *m q) ord0 ord0.
  { rewrite /qf /M trmx_mul trmxK !mulmxA. by []. }
  clearbody M. clearbody q.
  have T1 : (N *m q + M *m q)^T = q^T *m N + q^T *m M by rewrite linearD /= !trmx_mul sN sM.
  have T2 : (M *m q)^T = q^T *m M by rewrite trmx_mul sM.
  rewrite /qf T1 T2 !mulmxDl !mulmxDr.
  have E1 : q^T *m N *m W *m (N *m q) = q^T *m N *m q by rewrite -[q^T *m N *m W]mulmxA HW mulmx1 mulmxA.
  have E2 : q^T *m N *m W *m (M *m q) = q^T *m M *m q by rewrite -[q^T *m N *m W]mulmxA HW mulmx1 mulmxA.
  have E3 : q^T *m M *m W *m (N *m q) = q^T *m M *m q.
  { by rewrite -!mulmxA [W *m (N *m q)]mulmxA (mulmx1C HW) mul1mx. }
  rewrite E1 E2 E3. move: (q^T *m N *m q) (q^T *m M *m q) (q^T *m M *m W *m (M *m q)) => a1 a2 a3. rewrite !mxE.
  move: (a1 ord0 ord0) (a2 ord0 ord0) (a3 ord0 ord0) => r1 r2 r3.
  change (Rplus (Rplus r1 r2) (Rplus r2 r3) = Rplus (Rplus r1 (Rmult (IZR 2) r2)) r3). ring.
Qed.
End Drawn.

Lemma textbook_drawn n h C N y x P x' P' W : positive_semidefinite n P -> positive_definite h N -> is_inverse h N W -> textbook_update n h C N y x P x' P' ->
  drawn h W (surprise n C y x) (surprise n C y x').
Proof.
  move=> /psd_mx HP /pd_mx HN /inverse_mx HW [V [K [/inverse_mx HV [HK [Hx _]]]]].
  move: HV. rewrite innovation_mx addrC => HV.
  have EK : mx n h K = mx n n P *m (mx h n C)^T *m mx h h V by rewrite (mx_ext HK) gain_mx.
  set r := cv h (surprise n C y x).
  have Er : cv h (surprise n C y x') = mx h h N *m mx h h V *m r.
  { rewrite surprise_mx (cv_ext Hx) state_mx EK mulmxDr opprD addrA /r surprise_mx. exact: (left_over HV). }
  rewrite /drawn !weighted_mx Er -/r.
  have I0 := inner_zero HP HN HV HW r. have I1 := inner_self (mx h h V) HN HW r. have I2 := inner_whole HP HN HV HW r.
  rewrite /qf in I1 I2. rewrite I0 I1 I2.
  case: (pd_psd HN) => _ H1. case: (HP) => _ H2.
  move: (H1 (mx h h V *m r)) (H2 ((mx h n C)^T *m (mx h h V *m r))) (W_nonneg HN HW (mx h n C *m (mx n n P *m (mx h n C)^T) *m (mx h h V *m r))). rewrite /qf. lra.
Qed.
(** strictly, if what is measured is uncertain before *)
Lemma textbook_nearer n h C N y x P x' P' W : positive_semidefinite n P -> positive_definite h N -> is_inverse h N W -> textbook_update n h C N y x P x' P' ->
  positive_definite h (times n C (times n P (flip C))) -> (exists k, lt k h /\ surprise n C y x k <> IZR 0) ->
  Rlt (weighted h W (surprise n C y x') (surprise n C y x')) (weighted h W (surprise n C y x) (surprise n C y x)).
Proof.
  move=> /psd_mx HP /pd_mx HN /inverse_mx HW [V [K [/inverse_mx HV [HK [Hx _]]]]] /pd_mx HM /cv_neq0 Hr.
  move: HV. rewrite innovation_mx addrC => HV. move: HM. rewrite mx_times cross_mx => HM.
  have EK : mx n h K = mx n n P *m (mx h n C)^T *m mx h h V by rewrite (mx_ext HK) gain_mx.
  set r := cv h (surprise n C y x) in Hr.
  have Er : cv h (surprise n C y x') = mx h h N *m mx h h V *m r.
  { rewrite surprise_mx (cv_ext Hx) state_mx EK mulmxDr opprD addrA /r surprise_mx. exact: (left_over HV). }
  rewrite !weighted_mx Er -/r.
  have I1 := inner_self (mx h h V) HN HW r. have I2 := inner_whole HP HN HV HW r.
  rewrite /qf in I1 I2. rewrite I1 I2.
  have Z : mx h h V *m r != 0.
  { apply/eqP => E. move/eqP: Hr; apply. by rewrite -[r]mul1mx -HV -mulmxA E mulmx0. }
  have Q : forall z, qf (mx h n C *m (mx n n P *m (mx h n C)^T)) z = qf (mx n n P) ((mx h n C)^T *m z) by move=> z; rewrite mulmxA qf_congr.
  case: HM => _ /(_ _ Z) H. rewrite Q in H.
  move: H (W_nonneg HN HW (mx h n C *m (mx n n P *m (mx h n C)^T) *m (mx h h V *m r))). rewrite /qf. lra.
Qed.
Lemma weighted_nonneg h N W a : positive_definite h N -> is_inverse h N W -> Rle (IZR 0) (weighted h W a a).
Proof. move=> /pd_mx HN /inverse_mx HW. rewrite weighted_mx. exact: (W_nonneg HN HW (cv h a)). Qed.
