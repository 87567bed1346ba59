(** Consequences of KalmanProofs and StackProofs in the terms of SpecKalman. *)
From Coq Require Import Reals Lra Lia ZArith List.
From mathcomp Require Import all_ssreflect all_algebra.
From Verif Require Import Base Arith EkfModel KalmanModel SpecKalman RealMatrix KalmanProofs StackProofs.
Set Implicit Arguments.
Unset Strict Implicit.
Unset Printing Implicit Defensive.
Import GRing.Theory.
Local Open Scope ring_scope.

Lemma mx_ext m n X Y : same_matrix m n X Y -> mx m n X = mx m n Y.
Proof. by move/mx_eqP. Qed.
Lemma cv_ext n x y : same_vector n x y -> cv n x = cv n y.
Proof. by move/cv_eqP. Qed.
Lemma variance_qf n P v : variance_along n P v = qf (mx n n P) (cv n v).
Proof. exact: variance_mx. Qed.

Local Opaque mmul mvec madd msub vadd vsub mtr times apply_to flip plus minus scaled total KalmanModel.sum.

(** ** Prediction *)
Lemma predict_covariance_mx n P F Q : mx n n (predict_covariance exact n P F Q) = mx n n F *m mx n n P *m (mx n n F)^T + mx n n Q.
Proof. by rewrite /predict_covariance mx_madd !mx_mmul mx_mtr. Qed.
Lemma predict_psd n P F Q : positive_semidefinite n P -> positive_semidefinite n Q ->
  positive_semidefinite n (predict_covariance exact n P F Q).
Proof. move=> /psd_mx HP /psd_mx HQ. apply/psd_mx. rewrite predict_covariance_mx. apply: psd_add => //. exact: psd_congr. Qed.

(** ** Prediction of the stack *)
Definition tr d a F : 'M[R]_a := mx a a (stacked_transition d F).
Definition prd a d (F Q : entries) (b : coords) (s : 'cV[R]_a * 'M[R]_a) : 'cV[R]_a * 'M[R]_a :=
  (tr d a F *m s.1 + cv a (stacked_offset d b), tr d a F *m s.2 *m (tr d a F)^T + mx a a (stacked_noise d Q)).

Lemma stacked_noise_psd a d Q : (d <= a)%coq_nat -> positive_semidefinite d Q -> psd (mx a a (stacked_noise d Q)).
Proof. move=> Hd HQ. apply/psd_mx. exact: stacked_noise_entry_psd. Qed.
Lemma prd_psd a d F Q b s : (d <= a)%coq_nat -> positive_semidefinite d Q -> psd s.2 -> psd (@prd a d F Q b s).2.
Proof. move=> Hd HQ Hs. apply: psd_add; first exact: psd_congr. exact: stacked_noise_psd. Qed.

Section Stack.
Variable junk : nat -> nat -> R.
Definition stack (f : tdkf exact) : 'cV[R]_(td_size exact f) * 'M[R]_(td_size exact f) :=
  (cv _ (td_x exact f), mx _ _ (td_P exact f)).
Lemma stack_dim f : (0 < td_max exact f)%Z -> (td_dim exact f <= td_size exact f)%coq_nat.
Proof. move=> H. have := @td_block_bound exact f 0 ltac:(split; [exact: Z.le_refl|exact: H]). by rewrite Nat.mul_0_l. Qed.

Lemma td_predict_mx f xn F Q : (0 < td_max exact f)%Z ->
  let f' := td_predict exact junk f xn F Q in
  (cv (td_size exact f) (td_x exact f'), mx (td_size exact f) (td_size exact f) (td_P exact f')) =
  prd (td_dim exact f) F Q (fun i => Rminus (xn i) (apply_to (td_dim exact f) F (td_x exact f) i)) (stack f).
Proof.
  move=> H f'. have Hd := stack_dim H. rewrite /prd /stack /tr. congr (_, _).
  - rewrite (cv_ext (@update_x_stacked junk _ _ (td_x exact f) xn F Hd)). by rewrite cv_plus cv_apply.
  - rewrite (mx_ext (@update_p_stacked junk _ _ (td_P exact f) F Q Hd)). by rewrite mx_plus !mx_times mx_flip.
Qed.
End Stack.

(** ** Late fusion *)
Section Late.
Variables (h d n : nat).
Hypothesis d0 : (0 < d)%coq_nat.
Let a := (n * d)%coq_nat.
Definition mea C k : 'M[R]_(h, a) := mx h a (stacked_measurement d k C).

Lemma mea_tr C k F : (k.+1 < n)%coq_nat -> mea C k.+1 *m tr d a F = mea C k.
Proof. move=> Hk. rewrite /mea /tr -mx_times. apply: mx_ext. exact: measurement_transition. Qed.
Lemma mea_noise C k Q : mea C k.+1 *m mx a a (stacked_noise d Q) = 0.
Proof. rewrite /mea -mx_times. apply/matrixP => i j. rewrite !mxE. exact: measurement_noise. Qed.
Lemma noise_mea C k Q : mx a a (stacked_noise d Q) *m (mea C k.+1)^T = 0.
Proof. rewrite /mea -mx_flip -mx_times. apply/matrixP => i j. rewrite !mxE. exact: noise_measurement. Qed.
Lemma mea_offset C k b : mea C k.+1 *m cv a (stacked_offset d b) = 0.
Proof. rewrite /mea -cv_apply. apply/matrixP => i j. rewrite !mxE. exact: measurement_offset. Qed.

(** Updating a block after a prediction is predicting after the update. *)
Lemma late C k F Q b N y s : (k.+1 < n)%coq_nat ->
  upd (mea C k.+1) N y (prd d F Q b s) = prd d F Q b (upd (mea C k) N y s).
Proof.
  move=> Hk. case: s => x P. rewrite /upd /prd /=. have E := mea_tr C F Hk.
  set T := tr d a F in E *. set Qs := mx a a _. set D1 := mea C k.+1 in E *. set D0 := mea C k in E *.
  have PD : (T *m P *m T^T + Qs) *m D1^T = T *m (P *m D0^T) by rewrite mulmxDl noise_mea addr0 -E trmx_mul !mulmxA.
  have DP : D1 *m (T *m P *m T^T + Qs) = D0 *m P *m T^T by rewrite mulmxDr mea_noise addr0 -E !mulmxA.
  have I : inn (T *m P *m T^T + Qs) D1 N = inn P D0 N by rewrite /inn PD -E !mulmxA.
  have K : gainm (T *m P *m T^T + Qs) D1 N = T *m gainm P D0 N by rewrite /gainm I PD !mulmxA.
  congr (_, _).
  - rewrite /updx K. have -> : D1 *m (T *m x + cv a (stacked_offset d b)) = D0 *m x by rewrite mulmxDr mea_offset addr0 mulmxA E.
    by rewrite [T *m (x + _)]mulmxDr mulmxA addrAC.
  - rewrite /updP K. rewrite -[T *m _ *m D1 *m _]mulmxA DP. rewrite mulmxBr mulmxBl. rewrite addrAC !mulmxA. by [].
Qed.
End Late.

(** ** The filter with delay as these functions *)
Section Filter.
Variable inverse : nat -> entries -> option entries.
Hypothesis Hinv : inverts inverse.
Variable junk : nat -> nat -> R.
Variables (n d : nat).
Hypothesis d0 : (0 < d)%coq_nat.
Let a := (n * d)%coq_nat.

Definition fits (f : tdkf exact) := Z.to_nat (td_max exact f) = n /\ td_dim exact f = d.
Definition stk (f : tdkf exact) : 'cV[R]_a * 'M[R]_a := (cv a (td_x exact f), mx a a (td_P exact f)).
Definition fuse h y C N z f := snd (td_update exact inverse h f y C N z).
Definition advance F (b : coords) Q f :=
  td_predict exact junk f (fun i => Rplus (apply_to d F (td_latest_x exact f) i) (b i)) F Q.

Lemma stk_update h y C N z f : fits f -> psd (stk f).2 -> pd (mx h h N) -> (0 <= z < td_max exact f)%Z ->
  exists f', td_update exact inverse h f y C N z = (Ok tt, f') /\ fits f' /\ td_max exact f' = td_max exact f /\
             stk f' = upd (mea h d n C (Z.to_nat z)) (mx h h N) (cv h y) (stk f).
Proof.
  move=> [Hn Hd] HP HN Hz.
  have Ha : td_size exact f = a by rewrite /td_size Hn Hd.
  have HP' : psd (mx (td_size exact f) (td_size exact f) (td_P exact f)) by rewrite Ha.
  have [f' [E [E1 [E2 E3]]]] := td_update_ok Hinv y C HP' HN Hz.
  exists f'. split=> //. split; first by rewrite /fits E1 E2. split=> //.
  rewrite Ha Hn Hd in E3. rewrite /stk E3. congr (upd _ _ _ _). apply: mx_ext. apply: measurement_stacked => //.
  rewrite -Hn. lia.
Qed.
Lemma stk_fuse h y C N z f : fits f -> psd (stk f).2 -> pd (mx h h N) -> (0 <= z < td_max exact f)%Z ->
  fits (fuse h y C N z f) /\ td_max exact (fuse h y C N z f) = td_max exact f /\
  stk (fuse h y C N z f) = upd (mea h d n C (Z.to_nat z)) (mx h h N) (cv h y) (stk f).
Proof. move=> Hf HP HN Hz. have [f' [E H]] := stk_update y C Hf HP HN Hz. by rewrite /fuse E. Qed.
Lemma stk_predict f xn F Q : fits f -> (0 < td_max exact f)%Z ->
  fits (td_predict exact junk f xn F Q) /\
  stk (td_predict exact junk f xn F Q) = prd d F Q (fun i => Rminus (xn i) (apply_to d F (td_x exact f) i)) (stk f).
Proof.
  move=> [Hn Hd] Hm. split; first by [].
  have := @td_predict_mx junk f xn F Q Hm. rewrite /stack. 
  have Ha : td_size exact f = a by rewrite /td_size Hn Hd. by rewrite Ha Hd.
Qed.
Lemma stk_advance f F b Q : fits f -> (0 < td_max exact f)%Z ->
  fits (advance F b Q f) /\ td_max exact (advance F b Q f) = td_max exact f /\ stk (advance F b Q f) = prd d F Q b (stk f).
Proof.
  move=> Hf Hm. have [A B] := @stk_predict f (fun i => Rplus (apply_to d F (td_latest_x exact f) i) (b i)) F Q Hf Hm.
  split=> //. split=> //. rewrite /advance B /prd. congr (_ + _, _). apply: cv_ext => i Hi. rewrite /stacked_offset /td_latest_x.
  case: (Nat.ltb i d) => //. lra.
Qed.

(** Repeated updates. *)
Lemma iter_psd h (C : 'M[R]_(h, a)) N y s k : psd s.2 -> pd N -> psd (ssrnat.iter k (upd C N y) s).2.
Proof. move=> Hs HN. elim: k => [//|k IH]. rewrite iterS. exact: updP_psd. Qed.
Lemma nat_iter T k (g : T -> T) x : Nat.iter k g x = ssrnat.iter k g x.
Proof. by elim: k => [//|k /= ->]. Qed.
Lemma stk_iter h y C N z f k : fits f -> psd (stk f).2 -> pd (mx h h N) -> (0 <= z < td_max exact f)%Z ->
  fits (Nat.iter k (fuse h y C N z) f) /\ td_max exact (Nat.iter k (fuse h y C N z) f) = td_max exact f /\
  stk (Nat.iter k (fuse h y C N z) f) = ssrnat.iter k (upd (mea h d n C (Z.to_nat z)) (mx h h N) (cv h y)) (stk f).
Proof.
  move=> Hf HP HN Hz. elim: k => [//|k [A [B E]]].
  have HP2 : psd (stk (Nat.iter k (fuse h y C N z) f)).2 by rewrite E; exact: iter_psd.
  have [X [Y Z]] := @stk_fuse h y C N z _ A HP2 HN ltac:(rewrite B; exact Hz).
  rewrite /= in X Y Z *. rewrite Z Y E. by [].
Qed.

(** Updates spread over predictions. *)
Fixpoint spread h y C N (ms : list (entries * coords * entries)) z f :=
  match ms with
  | nil => fuse h y C N z f
  | (F, b, Q) :: ms' => spread h y C N ms' (z + 1)%Z (advance F b Q (fuse h y C N z f))
  end%list.
Definition forward ms f := fold_left (fun g '(F, b, Q) => advance F b Q g) ms f.
Definition models_ok (ms : list (entries * coords * entries)) := Forall (fun '(_, _, Q) => positive_semidefinite d Q) ms.
Definition pforward (ms : list (entries * coords * entries)) (s : 'cV[R]_a * 'M[R]_a) := fold_left (fun g '(F, b, Q) => prd d F Q b g) ms s.

Lemma dim_le f : fits f -> (0 < td_max exact f)%Z -> (d <= a)%coq_nat.
Proof. move=> [Hn Hd] Hm. have := stack_dim Hm. by rewrite /td_size Hn Hd. Qed.
Lemma stk_forward ms f : fits f -> (0 < td_max exact f)%Z ->
  fits (forward ms f) /\ td_max exact (forward ms f) = td_max exact f /\ stk (forward ms f) = pforward ms (stk f).
Proof.
  elim: ms f => [|[[F b] Q] ms IH] f Hf Hm //=.
  have [A [B E]] := @stk_advance f F b Q Hf Hm. rewrite /forward /pforward /=.
  have [X [Y Z]] := IH _ A ltac:(rewrite B; exact Hm). rewrite /forward /pforward in X Y Z. split=> //. rewrite Y B. split=> //. by rewrite Z E.
Qed.
Lemma late_iter h C k F Q b N y s j : (k.+1 < n)%coq_nat ->
  ssrnat.iter j (upd (mea h d n C k.+1) N y) (prd d F Q b s) = prd d F Q b (ssrnat.iter j (upd (mea h d n C k) N y) s).
Proof. move=> Hk. elim: j => [//|j IH]. by rewrite !iterS IH late. Qed.
Lemma stk_spread h y C N ms z f : fits f -> psd (stk f).2 -> pd (mx h h N) -> models_ok ms ->
  (0 <= z)%Z -> (z + Z.of_nat (length ms) < td_max exact f)%Z ->
  stk (spread h y C N ms z f) = pforward ms (ssrnat.iter (length ms).+1 (upd (mea h d n C (Z.to_nat z)) (mx h h N) (cv h y)) (stk f)).
Proof.
  elim: ms z f => [|[[F b] Q] ms IH] z f Hf HP HN Hms Hz Hl.
  - have [_ [_ E]] := @stk_fuse h y C N z f Hf HP HN ltac:(simpl in Hl; lia). exact: E.
  - have {Hl} Hl : (z + 1 + Z.of_nat (length ms) < td_max exact f)%Z by simpl length in Hl; lia.
    have [A [B E]] := @stk_fuse h y C N z f Hf HP HN ltac:(lia).
    have Hm : (0 < td_max exact (fuse h y C N z f))%Z by rewrite B; lia.
    have [X [Y Z]] := @stk_advance _ F b Q A Hm.
    have HQ := Forall_inv Hms. have Hms' := Forall_inv_tail Hms.
    have HP3 : psd (stk (advance F b Q (fuse h y C N z f))).2.
    { rewrite Z. apply: prd_psd => //; first exact: (dim_le Hf ltac:(lia)). rewrite E. exact: updP_psd. }
    simpl spread. rewrite (IH (z + 1)%Z _ X HP3 HN Hms' ltac:(lia) ltac:(rewrite Y B; exact Hl)).
    rewrite Z E /pforward /=. congr (fold_left _ _ _).
    have -> : Z.to_nat (z + 1) = (Z.to_nat z).+1 by lia.
    rewrite -[upd _ _ _ (ssrnat.iter _ _ _)]iterS late_iter; last by case: (Hf) => Hn _; rewrite -Hn; lia.
    by rewrite -iterSr.
Qed.
End Filter.
