(** Proofs about the Kalman filters: matrices given by entries are turned into matrices of
    mathcomp, where the algebra is done. *)
From Coq Require Import Reals Lra ZArith List.
From mathcomp Require Import all_ssreflect all_algebra.
From Verif Require Import Base Arith EkfModel KalmanModel SpecKalman RealMatrix.
Set Implicit Arguments.
Unset Strict Implicit.
Unset Printing Implicit Defensive.
Import GRing.Theory.
Local Open Scope ring_scope.

Notation entries := (nat -> nat -> R).
Notation coords := (nat -> R).

(** ** Bridge *)
Definition mx (m n : nat) (X : entries) : 'M[R]_(m, n) := \matrix_(i, j) X i j.
Definition cv (n : nat) (v : coords) : 'cV[R]_n := \matrix_(i, j) v i.

Lemma mx_eqP m n X Y : mx m n X = mx m n Y <-> same_matrix m n X Y.
Proof.
  split.
  - move=> E i j /ssrnat.ltP Hi /ssrnat.ltP Hj. move/matrixP: E => /(_ (Ordinal Hi) (Ordinal Hj)). by rewrite !mxE.
  - move=> E. apply/matrixP => i j. rewrite !mxE. apply: E; exact/ssrnat.ltP.
Qed.
Lemma cv_eqP n x y : cv n x = cv n y <-> same_vector n x y.
Proof.
  split.
  - move=> E i /ssrnat.ltP Hi. move/matrixP: E => /(_ (Ordinal Hi) ord0). by rewrite !mxE.
  - move=> E. apply/matrixP => i j. rewrite !mxE. apply: E; exact/ssrnat.ltP.
Qed.

Lemma total_big n f : total n f = \sum_(i < n) f i.
Proof. elim: n => [|n IH] /=; first by rewrite big_ord0. by rewrite big_ord_recr /= IH. Qed.
Lemma sum_big n f : @KalmanModel.sum exact n f = \sum_(i < n) f i.
Proof. elim: n => [|n IH] /=; first by rewrite big_ord0. by rewrite big_ord_recr /= IH. Qed.

Lemma mx_times m n k X Y : mx m n (times k X Y) = mx m k X *m mx k n Y.
Proof. apply/matrixP => i j. rewrite !mxE /times total_big. apply: eq_bigr => l _. by rewrite !mxE. Qed.
Lemma mx_mmul m n k X Y : mx m n (mmul exact k X Y) = mx m k X *m mx k n Y.
Proof. apply/matrixP => i j. rewrite !mxE /mmul sum_big. apply: eq_bigr => l _. by rewrite !mxE. Qed.
Lemma cv_apply n k X v : cv n (apply_to k X v) = mx n k X *m cv k v.
Proof. apply/matrixP => i j. rewrite !mxE /apply_to total_big. apply: eq_bigr => l _. by rewrite !mxE. Qed.
Lemma cv_mvec n k X v : cv n (mvec exact k X v) = mx n k X *m cv k v.
Proof. apply/matrixP => i j. rewrite !mxE /mvec sum_big. apply: eq_bigr => l _. by rewrite !mxE. Qed.
Lemma mx_madd m n X Y : mx m n (madd exact X Y) = mx m n X + mx m n Y.
Proof. by apply/matrixP => i j; rewrite !mxE. Qed.
Lemma mx_plus m n X Y : mx m n (plus X Y) = mx m n X + mx m n Y.
Proof. by apply/matrixP => i j; rewrite !mxE. Qed.
Lemma mx_msub m n X Y : mx m n (msub exact X Y) = mx m n X - mx m n Y.
Proof. by apply/matrixP => i j; rewrite !mxE. Qed.
Lemma mx_minus m n X Y : mx m n (minus X Y) = mx m n X - mx m n Y.
Proof. by apply/matrixP => i j; rewrite !mxE. Qed.
Lemma cv_vadd n x y : cv n (vadd exact x y) = cv n x + cv n y.
Proof. by apply/matrixP => i j; rewrite !mxE. Qed.
Lemma cv_plus n (x y : coords) : cv n (fun i => Rplus (x i) (y i)) = cv n x + cv n y.
Proof. by apply/matrixP => i j; rewrite !mxE. Qed.
Lemma cv_vsub n x y : cv n (vsub exact x y) = cv n x - cv n y.
Proof. by apply/matrixP => i j; rewrite !mxE. Qed.
Lemma cv_minus n (x y : coords) : cv n (fun i => Rminus (x i) (y i)) = cv n x - cv n y.
Proof. by apply/matrixP => i j; rewrite !mxE. Qed.
Lemma mx_mtr m n X : mx m n (mtr exact X) = (mx n m X)^T.
Proof. by apply/matrixP => i j; rewrite !mxE. Qed.
Lemma mx_flip m n X : mx m n (flip X) = (mx n m X)^T.
Proof. by apply/matrixP => i j; rewrite !mxE. Qed.
Lemma mx_scaled m n c X : mx m n (scaled c X) = c *: mx m n X.
Proof. by apply/matrixP => i j; rewrite !mxE. Qed.
Lemma mx_identity n : mx n n identity = 1%:M.
Proof.
  apply/matrixP => i j. rewrite !mxE /identity. case E: (Nat.eqb i j).
  - move/Nat.eqb_spec: E => /eqP E. by have -> : i == j by [].
  - case E2: (i == j) => //. exfalso. move/eqP: E2 E => ->. by rewrite Nat.eqb_refl.
Qed.

Lemma variance_mx n P v : variance_along n P v = ((cv n v)^T *m mx n n P *m cv n v) ord0 ord0.
Proof.
  rewrite /variance_along total_big mxE.
  transitivity (\sum_(i < n) \sum_(j < n) (Rmult (Rmult (v i) (P i j)) (v j))); first by apply: eq_bigr => i _; exact: total_big.
  rewrite exchange_big /=. apply: eq_bigr => j _. rewrite !mxE big_distrl /=. apply: eq_bigr => i _. by rewrite !mxE.
Qed.
Lemma symmetric_mx n P : symmetric n P <-> (mx n n P)^T = mx n n P.
Proof.
  split.
  - move=> H. apply/matrixP => i j. rewrite !mxE. apply: H; exact/ssrnat.ltP.
  - move=> /matrixP H i j /ssrnat.ltP Hi /ssrnat.ltP Hj. move: (H (Ordinal Hj) (Ordinal Hi)). by rewrite !mxE.
Qed.
Lemma inverse_mx n S V : is_inverse n S V <-> mx n n S *m mx n n V = 1%:M.
Proof.
  rewrite -mx_identity -mx_times mx_eqP. split; first by case.
  move=> H. split=> //. apply/mx_eqP. rewrite mx_times mx_identity. apply: mulmx1C.
  rewrite -mx_times -mx_identity. exact/mx_eqP.
Qed.

Local Opaque mmul mvec madd msub vadd vsub mtr times apply_to flip plus minus scaled total KalmanModel.sum.

(** ** Positive matrices of mathcomp *)
Section Positive.
Definition qf n (P : 'M[R]_n) (v : 'cV[R]_n) : R := (v^T *m P *m v) ord0 ord0.
Definition psd n (P : 'M[R]_n) : Prop := P^T = P /\ forall v, Rle (IZR 0) (qf P v).
Definition pd n (P : 'M[R]_n) : Prop := P^T = P /\ forall v, v != 0 -> Rlt (IZR 0) (qf P v).

(** Every column vector is given by coordinates. *)
Definition coords_of n (v : 'cV[R]_n) : coords := fun i => if insub i is Some k then v k ord0 else 0.
Lemma coords_ofK n (v : 'cV[R]_n) : cv n (coords_of v) = v.
Proof. apply/matrixP => i j. rewrite !mxE /coords_of valK. by rewrite (ord1 j). Qed.
Definition entries_of m n (X : 'M[R]_(m, n)) : entries :=
  fun i j => if insub i is Some k then (if insub j is Some l then X k l else 0) else 0.
Lemma entries_ofK m n (X : 'M[R]_(m, n)) : mx m n (entries_of X) = X.
Proof. apply/matrixP => i j. by rewrite !mxE /entries_of !valK. Qed.

Lemma psd_mx n P : positive_semidefinite n P <-> psd (mx n n P).
Proof.
  split=> -[Hs Hp]; split; try exact/symmetric_mx.
  - move=> v. rewrite -(coords_ofK v) /qf -variance_mx. exact: Hp.
  - move=> v. rewrite variance_mx. exact: Hp.
Qed.
Lemma cv_neq0 n v : cv n v != 0 <-> exists i, (i < n)%coq_nat /\ v i <> IZR 0.
Proof.
  split.
  - move=> H. case: (pickP (fun i : 'I_n => (v i : R) != 0)) => [i Hi|H0].
    + exists i. split; first exact/ssrnat.ltP. exact/eqP.
    + exfalso. move/eqP: H; apply. apply/matrixP => i j. rewrite !mxE. move: (H0 i) => /= /negbFE /eqP. by [].
  - move=> [i [/ssrnat.ltP Hi Hn]]. apply/eqP => /matrixP /(_ (Ordinal Hi) ord0). by rewrite !mxE.
Qed.
Lemma pd_mx n P : positive_definite n P <-> pd (mx n n P).
Proof.
  split=> -[Hs Hp]; split; try exact/symmetric_mx.
  - move=> v Hv. rewrite -(coords_ofK v) /qf -variance_mx. apply: Hp. apply/cv_neq0. by rewrite coords_ofK.
  - move=> v Hv. rewrite variance_mx. apply: Hp. exact/cv_neq0.
Qed.

Lemma qfD n (P Q : 'M[R]_n) v : qf (P + Q) v = Rplus (qf P v) (qf Q v).
Proof. by rewrite /qf mulmxDr mulmxDl mxE. Qed.
Lemma qf_congr m n (F : 'M[R]_(m, n)) (P : 'M[R]_n) (v : 'cV[R]_m) : qf (F *m P *m F^T) v = qf P (F^T *m v).
Proof. by rewrite /qf trmx_mul trmxK !mulmxA. Qed.
Lemma psd_add n (P Q : 'M[R]_n) : psd P -> psd Q -> psd (P + Q).
Proof.
  move=> [HP PP] [HQ PQ]. split; first by rewrite linearD /= HP HQ.
  move=> v. rewrite qfD. move: (PP v) (PQ v). lra.
Qed.
Lemma psd_congr m n (F : 'M[R]_(m, n)) (P : 'M[R]_n) : psd P -> psd (F *m P *m F^T).
Proof.
  move=> [HP PP]. split; first by rewrite !trmx_mul trmxK HP mulmxA.
  move=> v. rewrite qf_congr. exact: PP.
Qed.
Lemma pd_psd n (P : 'M[R]_n) : pd P -> psd P.
Proof.
  move=> [HP PP]. split=> // v. case: (eqVneq v 0) => [->|H].
  - rewrite /qf mulmx0 mxE. exact: Rle_refl.
  - move: (PP v H). lra.
Qed.
Lemma pd_add n (P Q : 'M[R]_n) : pd P -> psd Q -> pd (P + Q).
Proof.
  move=> [HP PP] [HQ PQ]. split; first by rewrite linearD /= HP HQ.
  move=> v H. rewrite qfD. move: (PP v H) (PQ v). lra.
Qed.
Lemma pd_unit n (P : 'M[R]_n) : pd P -> P \in unitmx.
Proof.
  move=> [HP PP]. rewrite -row_free_unit -kermx_eq0. apply/negP => /negP H.
  move/rowV0Pn: H => [w /sub_kermxP Hw Hn].
  have Hv : w^T != 0 by apply/eqP => E; move/eqP: Hn; apply; rewrite -(trmxK w) E trmx0.
  move: (PP _ Hv). rewrite /qf trmxK Hw mul0mx mxE. exact: Rlt_irrefl.
Qed.
Lemma inv_psd n (S V : 'M[R]_n) : psd S -> S *m V = 1%:M -> psd V.
Proof.
  move=> [HS PS] E. have E2 := mulmx1C E.
  have HV : V^T = V.
  { have A : V^T *m S = 1%:M by rewrite -[S in _ *m S]HS -trmx_mul E trmx1.
    by rewrite -[V^T]mulmx1 -E mulmxA A mul1mx. }
  split=> // v. have -> : V = V *m S *m V^T by rewrite HV E2 mul1mx.
  rewrite qf_congr. exact: PS.
Qed.
End Positive.

(** ** The measurement update *)
Section Update.
Variables n h : nat.
Implicit Types (P : 'M[R]_n) (C : 'M[R]_(h, n)) (N V : 'M[R]_h).

Lemma joseph P C N V : P^T = P -> N^T = N -> (N + C *m (P *m C^T)) *m V = 1%:M ->
  let K := P *m C^T *m V in
  P - K *m C *m P = (1%:M - K *m C) *m P *m (1%:M - K *m C)^T + K *m N *m K^T.
Proof.
  move=> HP HN E K. have E2 := mulmx1C E.
  have KS : K *m (N + C *m (P *m C^T)) = P *m C^T by rewrite /K -[_ *m V *m _]mulmxA E2 mulmx1.
  clearbody K.
  have HK : K *m N + K *m C *m P *m C^T = P *m C^T by rewrite -KS mulmxDr !mulmxA.
  rewrite [(1%:M - K *m C)^T]linearB /= trmx1 trmx_mul.
  have HD : (P - K *m C *m P) *m C^T = K *m N by rewrite mulmxBl -HK addrK.
  by rewrite mulmxBl mul1mx mulmxBr mulmx1 [_ *m (C^T *m K^T)]mulmxA HD subrK.
Qed.

Lemma update_psd P C N V : psd P -> pd N -> (N + C *m (P *m C^T)) *m V = 1%:M ->
  psd (P - P *m C^T *m V *m C *m P).
Proof.
  move=> HP HN E. have [sP _] := HP. have [sN _] := HN.
  rewrite (joseph sP sN E). apply: psd_add; apply: psd_congr => //. exact: pd_psd.
Qed.

Lemma innovation_pd P C N : psd P -> pd N -> pd (N + C *m (P *m C^T)).
Proof. move=> HP HN. apply: pd_add => //. rewrite mulmxA. exact: psd_congr. Qed.

Lemma update_less P C N V : psd P -> pd N -> (N + C *m (P *m C^T)) *m V = 1%:M ->
  psd (P *m C^T *m V *m C *m P).
Proof.
  move=> HP HN E. have HS := pd_psd (innovation_pd C HP HN). have HV := inv_psd HS E. have [sP _] := HP.
  have -> : P *m C^T *m V *m C *m P = (P *m C^T) *m V *m (P *m C^T)^T by rewrite trmx_mul trmxK sP !mulmxA.
  exact: psd_congr.
Qed.

(** Two updates with the same measurement and noises a N, b N are one with the harmonic
    combination. *)
Lemma update_twice P P1 C N V1 V2 V3 (G K1 K2 : 'M[R]_(n, h)) (M S1 S3 : 'M[R]_h) (a b c : R) (x x1 : 'cV[R]_n) (y : 'cV[R]_h) :
  a + b != 0 -> c = a * b / (a + b) ->
  G = P *m C^T -> M = C *m G -> S1 = a *: N + M -> S3 = c *: N + M ->
  S1 *m V1 = 1%:M -> K1 = G *m V1 -> P1 = P - K1 *m C *m P -> x1 = x + K1 *m (y - C *m x) ->
  (b *: N + C *m (P1 *m C^T)) *m V2 = 1%:M -> K2 = P1 *m C^T *m V2 ->
  S3 *m V3 = 1%:M ->
  P1 - K2 *m C *m P1 = P - G *m V3 *m C *m P /\
  x1 + K2 *m (y - C *m x1) = x + G *m V3 *m (y - C *m x).
Proof.
  move=> Hab Hc eG eM eS1 eS3 E1 eK1 eP1 ex1 E2 eK2 E3.
  have F1 := mulmx1C E1. have F3 := mulmx1C E3.
  have D1 : S1 - M = a *: N by rewrite eS1 addrK.
  have HG : P1 *m C^T = a *: (G *m V1 *m N).
  { rewrite eP1 mulmxBl -eG -[K1 *m C *m P *m C^T]mulmxA -eG -[K1 *m C *m G]mulmxA -eM eK1.
    have -> : G - G *m V1 *m M = G *m V1 *m (S1 - M) by rewrite mulmxBr -[G *m V1 *m S1]mulmxA F1 mulmx1.
    by rewrite D1 -scalemxAr. }
  have D2 : 1%:M - M *m V1 = a *: (N *m V1) by rewrite -E1 -mulmxBl D1 scalemxAl.
  have HC : C *m P1 = a *: (N *m V1 *m (C *m P)).
  { rewrite eP1 mulmxBr eK1.
    have -> : C *m P - C *m (G *m V1 *m C *m P) = (1%:M - M *m V1) *m (C *m P) by rewrite mulmxBl mul1mx eM !mulmxA.
    by rewrite D2 -scalemxAl. }
  have HM : C *m (P1 *m C^T) = a *: (M *m V1 *m N) by rewrite HG -scalemxAr eM !mulmxA.
  have HS2 : b *: N + C *m (P1 *m C^T) = (a + b) *: (S3 *m V1 *m N).
  { rewrite HM.
    have -> : b *: N = (b *: S1) *m V1 *m N by rewrite -!scalemxAl E1 mul1mx.
    have -> : a *: (M *m V1 *m N) = (a *: M) *m V1 *m N by rewrite -!scalemxAl.
    rewrite -!mulmxDl !scalemxAl. congr (_ *m _ *m _). rewrite eS3 eS1 Hc !scalerDr !scalerA.
    have -> : (a + b) * (a * b / (a + b)) = b * a.
    { by rewrite mulrCA divff // mulr1 mulrC. }
    by rewrite [(a + b) *: M]scalerDl -!addrA [b *: M + _]addrC. }
  have HN : N *m V2 = (a + b)^-1 *: (S1 *m V3).
  { have H2 : (a + b) *: (S3 *m (V1 *m (N *m V2))) = 1%:M.
    { by rewrite -E2 HS2 -scalemxAl !mulmxA. }
    have H3 : (a + b) *: (V1 *m (N *m V2)) = V3.
    { have : V3 *m ((a + b) *: (S3 *m (V1 *m (N *m V2)))) = V3 by rewrite H2 mulmx1.
      by rewrite -scalemxAr [V3 *m (S3 *m _)]mulmxA F3 mul1mx. }
    by rewrite -H3 -scalemxAr scalerA mulVf // scale1r [S1 *m (V1 *m _)]mulmxA E1 mul1mx. }
  have HK : K2 = (a / (a + b)) *: (G *m V3).
  { rewrite eK2 HG -scalemxAl -[G *m V1 *m N *m V2]mulmxA HN -scalemxAr scalerA. congr (_ *: _).
    by rewrite -[G *m V1 *m _]mulmxA [V1 *m (S1 *m _)]mulmxA F1 mul1mx. }
  have HV : V3 = V1 + (a * (a / (a + b))) *: (V3 *m N *m V1).
  { have H : S1 = S3 + (a * (a / (a + b))) *: N.
    { rewrite eS3 eS1 addrAC -scalerDl Hc. congr (_ *: _ + _).
      have -> : a * b / (a + b) + a * (a / (a + b)) = a * ((b + a) / (a + b)) by rewrite !mulrDl mulrDr !mulrA.
      by rewrite [b + a]addrC divff // mulr1. }
    have H2 : V3 *m S1 *m V1 = V3 by rewrite -mulmxA E1 mulmx1.
    rewrite -{1}H2 H mulmxDr F3 mulmxDl mul1mx -scalemxAr -scalemxAl. by []. }
  split.
  - rewrite -[K2 *m C *m P1]mulmxA HC HK -scalemxAl -scalemxAr scalerA.
    rewrite {1}eP1 -addrA -opprD. congr (_ - _).
    rewrite eK1 {2}HV [a / (a + b) * a]mulrC. rewrite mulmxDr !mulmxDl. congr (_ + _).
    by rewrite -scalemxAr -!scalemxAl !mulmxA.
  - have Hy : y - C *m x1 = a *: (N *m V1 *m (y - C *m x)).
    { have -> : y - C *m x1 = (1%:M - M *m V1) *m (y - C *m x) by rewrite ex1 mulmxDr opprD addrA eK1 mulmxBl mul1mx eM !mulmxA.
      by rewrite D2 -scalemxAl. }
    rewrite Hy HK -scalemxAl -scalemxAr scalerA {1}ex1 -addrA. congr (_ + _).
    move: (y - C *m x) => r. rewrite eK1 {2}HV [a / (a + b) * a]mulrC mulmxDr mulmxDl. congr (_ + _).
    by rewrite -scalemxAr -!scalemxAl !mulmxA.
Qed.
End Update.

(** ** Updates as functions *)
Definition inn n h (P : 'M[R]_n) (C : 'M[R]_(h, n)) (N : 'M[R]_h) : 'M[R]_h := N + C *m (P *m C^T).
Definition gainm n h (P : 'M[R]_n) (C : 'M[R]_(h, n)) (N : 'M[R]_h) : 'M[R]_(n, h) := P *m C^T *m invmx (inn P C N).
Definition updP n h (P : 'M[R]_n) (C : 'M[R]_(h, n)) N : 'M[R]_n := P - gainm P C N *m C *m P.
Definition updx n h (x : 'cV[R]_n) (P : 'M[R]_n) (C : 'M[R]_(h, n)) N (y : 'cV[R]_h) : 'cV[R]_n :=
  x + gainm P C N *m (y - C *m x).

Lemma inn_inv n h (P : 'M[R]_n) (C : 'M[R]_(h, n)) N : psd P -> pd N -> inn P C N *m invmx (inn P C N) = 1%:M.
Proof. move=> HP HN. apply: mulmxV. apply: pd_unit. exact: innovation_pd. Qed.
Lemma pd_scale n (N : 'M[R]_n) (a : R) : Rlt (IZR 0) a -> pd N -> pd (a *: N).
Proof.
  move=> Ha [sN pN]. split; first by rewrite linearZ /= sN.
  move=> v Hv. rewrite /qf -scalemxAr -scalemxAl mxE. apply: Rmult_lt_0_compat => //. exact: pN.
Qed.
Lemma updP_psd n h (P : 'M[R]_n) (C : 'M[R]_(h, n)) N : psd P -> pd N -> psd (updP P C N).
Proof. move=> HP HN. apply: (update_psd HP HN). exact: inn_inv. Qed.
Lemma updP_less n h (P : 'M[R]_n) (C : 'M[R]_(h, n)) N v : psd P -> pd N -> Rle (qf (updP P C N) v) (qf P v).
Proof.
  move=> HP HN. have [_ H] := update_less HP HN (inn_inv C HP HN). move: (H v).
  have E : P = updP P C N + gainm P C N *m C *m P by rewrite /updP subrK.
  have E2 : qf P v = Rplus (qf (updP P C N) v) (qf (gainm P C N *m C *m P) v) by rewrite -qfD -E.
  move: E2. rewrite /gainm. clear. lra.
Qed.

Lemma upd_compose n h (x : 'cV[R]_n) (P : 'M[R]_n) (C : 'M[R]_(h, n)) N y (a b c : R) :
  psd P -> pd N -> Rlt (IZR 0) a -> Rlt (IZR 0) b -> c = Rdiv (Rmult a b) (Rplus a b) ->
  updP (updP P C (a *: N)) C (b *: N) = updP P C (c *: N) /\
  updx (updx x P C (a *: N) y) (updP P C (a *: N)) C (b *: N) y = updx x P C (c *: N) y.
Proof.
  move=> HP HN Ha Hb Hc.
  have c0 : Rlt (IZR 0) c.
  { rewrite Hc. apply: Rdiv_lt_0_compat; last by lra. exact: Rmult_lt_0_compat. }
  have H1 := pd_scale Ha HN. have H2 := pd_scale Hb HN. have H3 := pd_scale c0 HN.
  have HP1 := @updP_psd _ _ P C _ HP H1.
  have ab : a + b != 0 by apply/eqP; rewrite /GRing.add /=; change (Rplus a b <> IZR 0); lra.
  have E1 := inn_inv C HP H1. have E2 := inn_inv C HP1 H2. have E3 := inn_inv C HP H3.
  exact: (@update_twice n h P _ C N _ _ _ _ _ _ _ _ _ a b c x _ y ab Hc erefl erefl erefl erefl E1 erefl erefl erefl E2 erefl E3).
Qed.

(** The pair of estimate and covariance after one update. *)
Definition upd n h (C : 'M[R]_(h, n)) N y (s : 'cV[R]_n * 'M[R]_n) := (updx s.1 s.2 C N y, updP s.2 C N).
Lemma upd_iter n h (C : 'M[R]_(h, n)) N y x P (m : R) k : psd P -> pd N -> Rlt (IZR 0) m ->
  ssrnat.iter k.+1 (upd C (m *: N) y) (x, P) = upd C (Rdiv m (INR k.+1) *: N) y (x, P).
Proof.
  move=> HP HN Hm. elim: k => [|k IH].
  - change (INR 1) with (IZR 1). have -> : Rdiv m (IZR 1) = m by field. by [].
  - rewrite iterS IH. set c := Rdiv m (INR k.+2).
    have k0 : Rlt (IZR 0) (INR k.+1) by apply: lt_0_INR; apply/ssrnat.ltP.
    have a0 : Rlt (IZR 0) (Rdiv m (INR k.+1)) by exact: Rdiv_lt_0_compat.
    have Hc : c = Rdiv (Rmult (Rdiv m (INR k.+1)) m) (Rplus (Rdiv m (INR k.+1)) m).
    { rewrite /c (S_INR k.+1). have : Rlt (IZR 0) (Rmult m (INR k.+1)) by exact: Rmult_lt_0_compat.
      move: k0 Hm. move: (INR k.+1) => q. clear. move=> q0 m0 mq. field. repeat split; lra. }
    have [E1 E2] := @upd_compose _ _ x P C N y (Rdiv m (INR k.+1)) m c HP HN a0 Hm Hc. by rewrite /upd /= E1 E2.
Qed.

(** ** The model's update *)
Section Model.
Variable inverse : nat -> entries -> option entries.
Hypothesis Hinv : inverts inverse.

Lemma finite_exact n h K : finite_matrix exact n h K = true.
Proof.
  rewrite /finite_matrix. apply/forallb_forall => i _. by apply/forallb_forall.
Qed.

Lemma gain_spec n h P C N :
  match gain exact inverse n h P C N with
  | Some K => exists V, is_inverse h (plus (times n C (times n P (flip C))) N) V /\
                        mx n h K = mx n n P *m (mx h n C)^T *m mx h h V /\
                        inn (mx n n P) (mx h n C) (mx h h N) *m mx h h V = 1%:M
  | None => forall V, ~ is_inverse h (plus (times n C (times n P (flip C))) N) V
  end.
Proof.
  have EQ : mx h h (madd exact N (mmul exact n C (mmul exact n P (mtr exact C)))) = mx h h (plus (times n C (times n P (flip C))) N).
  { by rewrite mx_madd mx_plus !mx_mmul mx_mtr   addrC. }
  rewrite /gain. move: (Hinv h (madd exact N (mmul exact n C (mmul exact n P (mtr exact C))))).
  case: (inverse h _) => [V|] H.
  - exists V. have H2 : is_inverse h (plus (times n C (times n P (flip C))) N) V.
    { move/inverse_mx: H; rewrite EQ => H. exact/inverse_mx. }
    split=> //. rewrite !mx_mmul mx_mtr. split=> //.
    move/inverse_mx: H. by rewrite mx_madd !mx_mmul mx_mtr.
  - move=> V /inverse_mx H2. apply: (H V). apply/inverse_mx. by rewrite EQ.
Qed.

Lemma gain_psd n h P C N : psd (mx n n P) -> pd (mx h h N) ->
  exists K, gain exact inverse n h P C N = Some K /\ mx n h K = gainm (mx n n P) (mx h n C) (mx h h N).
Proof.
  move=> HP HN. move: (gain_spec n h P C N). case: (gain _ _ _ _ _ _ _) => [K|] H.
  - case: H => V [_ [E1 E2]]. exists K. split=> //. rewrite E1 /gainm. congr (_ *m _).
    by rewrite -[mx h h V]mul1mx -(mulmx1C (inn_inv (mx h n C) HP HN)) -mulmxA E2 mulmx1.
  - exfalso. apply: (H (entries_of (invmx (inn (mx n n P) (mx h n C) (mx h h N))))). apply/inverse_mx.
    rewrite entries_ofK mx_plus !mx_times mx_flip addrC. exact: inn_inv.
Qed.

Lemma update_state_mx n h x y C K : cv n (update_state exact n h x y C K) = cv n x + mx n h K *m (cv h y - mx h n C *m cv n x).
Proof. by rewrite /update_state cv_vadd cv_mvec cv_vsub cv_mvec. Qed.
Lemma update_covariance_mx n h P C K : mx n n (update_covariance exact n h P C K) = mx n n P - mx n h K *m mx h n C *m mx n n P.
Proof. by rewrite /update_covariance mx_msub !mx_mmul. Qed.

(** The plain filter. *)
Lemma kf_update_ok n h f y C N : psd (mx n n (kf_P exact f)) -> pd (mx h h N) ->
  exists f', kf_update_with exact inverse n h f y C N = (Ok tt, f') /\
    (cv n (kf_x exact f'), mx n n (kf_P exact f')) = upd (mx h n C) (mx h h N) (cv h y) (cv n (kf_x exact f), mx n n (kf_P exact f)).
Proof.
  move=> HP HN. rewrite /kf_update_with. have [K [-> EK]] := gain_psd C HP HN.
  rewrite finite_exact. eexists; split; first reflexivity. 
  by rewrite /= update_state_mx update_covariance_mx EK.
Qed.

(** The filter with delay. *)
Lemma td_update_ok h f y C N z : psd (mx (td_size exact f) (td_size exact f) (td_P exact f)) -> pd (mx h h N) ->
  (0 <= z < td_max exact f)%Z ->
  exists f', td_update exact inverse h f y C N z = (Ok tt, f') /\ td_max exact f' = td_max exact f /\ td_dim exact f' = td_dim exact f /\
    (cv (td_size exact f) (td_x exact f'), mx (td_size exact f) (td_size exact f) (td_P exact f')) =
    upd (mx h (td_size exact f) (make_measurement_matrix exact h (td_dim exact f) C (Z.to_nat (td_max exact f)) (Z.to_nat z)))
        (mx h h N) (cv h y) (cv (td_size exact f) (td_x exact f), mx (td_size exact f) (td_size exact f) (td_P exact f)).
Proof.
  move=> HP HN Hz. rewrite /td_update.
  have -> : (td_max exact f <=? z)%Z = false by apply: (proj2 (Z.leb_gt _ _)); tauto.
  have -> : (z <? 0)%Z = false by apply: (proj2 (Z.ltb_ge _ _)); tauto.
  have [K [-> EK]] := gain_psd (make_measurement_matrix exact h (td_dim exact f) C (Z.to_nat (td_max exact f)) (Z.to_nat z)) HP HN.
  rewrite finite_exact. eexists; split; first reflexivity. 
  by rewrite /= update_state_mx update_covariance_mx EK.
Qed.
End Model.
