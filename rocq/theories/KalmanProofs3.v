(** The results of KalmanProofs2 in the terms of SpecKalman only. *)
From Coq Require Import Reals Lra Lia ZArith List.
From mathcomp Require Import all_ssreflect all_algebra.
From Verif Require Import Base Arith EkfModel KalmanModel SpecKalman RealMatrix KalmanProofs StackProofs KalmanProofs2.
Set Implicit Arguments.
Unset Strict Implicit.
Unset Printing Implicit Defensive.
Import GRing.Theory.
Local Open Scope ring_scope.
Local Opaque mmul mvec madd msub vadd vsub mtr times apply_to flip plus minus scaled total KalmanModel.sum.

Lemma cross_mx n h P C : mx n h (times n P (flip C)) = mx n n P *m (mx h n C)^T.
Proof. by rewrite (mx_times n h n P (flip C)) (mx_flip n h C). Qed.
Lemma innovation_mx n h P C N : mx h h (plus (times n C (times n P (flip C))) N) = mx h n C *m (mx n n P *m (mx h n C)^T) + mx h h N.
Proof. by rewrite (mx_plus h h) (mx_times h h n C) cross_mx. Qed.
Lemma gain_mx n h P C V : mx n h (times h (times n P (flip C)) V) = mx n n P *m (mx h n C)^T *m mx h h V.
Proof. by rewrite (mx_times n h h) cross_mx. Qed.
Lemma state_mx n h (x y : coords) C K : cv n (fun i => Rplus (x i) (apply_to h K (fun k => Rminus (y k) (apply_to n C x k)) i)) =
  cv n x + mx n h K *m (cv h y - mx h n C *m cv n x).
Proof. by rewrite (cv_plus n x) (cv_apply n h K) (cv_minus h y) (cv_apply h n C x). Qed.
Lemma covariance_mx n h P C K : mx n n (minus P (times h K (times n C P))) = mx n n P - mx n h K *m (mx h n C *m mx n n P).
Proof. by rewrite (mx_minus n n P) (mx_times n n h K) (mx_times h n n C P). Qed.

Section Facts.
Variable inverse : nat -> entries -> option entries.
Hypothesis Hinv : inverts inverse.
Variable junk : nat -> nat -> R.

(** ** Plain filter *)
Lemma kf_update_facts n h f y C N : positive_semidefinite n (kf_P exact f) -> positive_definite h N ->
  exists f', kf_update_with exact inverse n h f y C N = (Ok tt, f') /\ positive_semidefinite n (kf_P exact f') /\
    forall v, Rle (variance_along n (kf_P exact f') v) (variance_along n (kf_P exact f) v).
Proof.
  move=> /psd_mx HP /pd_mx HN. have [f' [E [E1 E2]]] := kf_update_ok Hinv y C HP HN. exists f'. split=> //. split.
  - apply/psd_mx. rewrite E2. exact: updP_psd.
  - move=> v. rewrite !variance_qf E2. exact: updP_less.
Qed.
Lemma gain_textbook n h x y P C N K : gain exact inverse n h P C N = Some K ->
  textbook_update n h C N y x P (update_state exact n h x y C K) (update_covariance exact n h P C K).
Proof.
  move=> E. move: (gain_spec Hinv n h P C N). rewrite E => -[V [HV [EK _]]]. exists V, K. split=> //. split; [|split].
  - apply/mx_eqP. by rewrite EK gain_mx.
  - apply/cv_eqP. exact: (eq_trans (update_state_mx n h x y C K) (esym (state_mx n h x y C K))).
  - apply/mx_eqP. apply: (eq_trans (update_covariance_mx n h P C K)). rewrite -mulmxA. exact: (esym (covariance_mx n h P C K)).
Qed.
Lemma gain_none n h P C N : gain exact inverse n h P C N = None <->
  forall V, ~ is_inverse h (plus (times n C (times n P (flip C))) N) V.
Proof.
  move: (gain_spec Hinv n h P C N). case: (gain _ _ _ _ _ _ _) => [K|] H; split=> //.
  case: H => V [HV _] H. by case: (H V).
Qed.
Lemma kf_update_textbook n h f y C N f' : kf_update_with exact inverse n h f y C N = (Ok tt, f') ->
  textbook_update n h C N y (kf_x exact f) (kf_P exact f) (kf_x exact f') (kf_P exact f').
Proof.
  rewrite /kf_update_with. case E: (gain _ _ _ _ _ _ _) => [K|] //. rewrite finite_exact => -[<-] /=. exact: gain_textbook.
Qed.
Lemma kf_predict_textbook n m f u F B Q :
  textbook_prediction n F Q (apply_to m B u) (kf_x exact f) (kf_P exact f)
    (kf_x exact (kf_predict_with exact n m f u F B Q)) (kf_P exact (kf_predict_with exact n m f u F B Q)).
Proof.
  split.
  - apply/cv_eqP. symmetry. rewrite cv_plus !cv_apply. done.
  - apply/mx_eqP. apply: eq_trans (predict_covariance_mx n (kf_P exact f) F Q) _. symmetry.
    by rewrite (mx_plus n n) (mx_times n n n (times n F (kf_P exact f)) (flip F)) (mx_times n n n F) (mx_flip n n F).
Qed.

(** ** Filter with delay *)
Lemma td_update_facts h f y C N z : (0 < td_dim exact f)%coq_nat ->
  positive_semidefinite (td_size exact f) (td_P exact f) -> positive_definite h N -> (0 <= z < td_max exact f)%Z ->
  exists f', td_update exact inverse h f y C N z = (Ok tt, f') /\ td_max exact f' = td_max exact f /\ td_dim exact f' = td_dim exact f /\
    positive_semidefinite (td_size exact f') (td_P exact f') /\
    forall v, Rle (variance_along (td_size exact f) (td_P exact f') v) (variance_along (td_size exact f) (td_P exact f) v).
Proof.
  move=> d0 /psd_mx HP /pd_mx HN Hz.
  have [f' [E [E1 [E2 [E3 E4]]]]] := td_update_ok Hinv y C HP HN Hz. exists f'.
  have S : td_size exact f' = td_size exact f by rewrite /td_size E1 E2.
  split=> //. split=> //. split=> //. rewrite S. split.
  - apply/psd_mx. rewrite E4. exact: updP_psd.
  - move=> v. rewrite !variance_qf E4. exact: updP_less.
Qed.
Lemma td_predict_facts f xn F Q : (0 < td_max exact f)%Z ->
  positive_semidefinite (td_size exact f) (td_P exact f) -> positive_semidefinite (td_dim exact f) Q ->
  positive_semidefinite (td_size exact f) (td_P exact (td_predict exact junk f xn F Q)).
Proof.
  move=> Hm /psd_mx HP HQ. apply/psd_mx. have [_ E] := @td_predict_mx junk f xn F Q Hm. rewrite E.
  exact: (prd_psd (s := stack f) F _ (stack_dim Hm) HQ HP).
Qed.
Lemma td_predict_textbook f xn F Q : (0 < td_max exact f)%Z ->
  textbook_prediction (td_size exact f) (stacked_transition (td_dim exact f) F) (stacked_noise (td_dim exact f) Q)
    (stacked_offset (td_dim exact f) (fun i => Rminus (xn i) (apply_to (td_dim exact f) F (td_latest_x exact f) i)))
    (td_x exact f) (td_P exact f)
    (td_x exact (td_predict exact junk f xn F Q)) (td_P exact (td_predict exact junk f xn F Q)).
Proof.
  move=> Hm. have Hd := stack_dim Hm. split.
  - exact: (@update_x_stacked junk _ _ (td_x exact f) xn F Hd).
  - exact: (@update_p_stacked junk _ _ (td_P exact f) F Q Hd).
Qed.
Lemma textbook_ext n h C C' N y x P x' P' : same_matrix h n C C' -> textbook_update n h C N y x P x' P' -> textbook_update n h C' N y x P x' P'.
Proof.
  move=> /mx_eqP E [V [K [/inverse_mx H1 [/mx_eqP H2 [/cv_eqP H3 /mx_eqP H4]]]]].
  rewrite innovation_mx in H1. rewrite gain_mx in H2. rewrite state_mx in H3. rewrite covariance_mx in H4.
  exists V, K. split; [|split; [|split]].
  - apply/inverse_mx. by rewrite innovation_mx -E.
  - apply/mx_eqP. by rewrite gain_mx -E.
  - apply/cv_eqP. by rewrite state_mx -E.
  - apply/mx_eqP. by rewrite covariance_mx -E.
Qed.
Lemma inverse_ext n h C C' N P V : same_matrix h n C C' ->
  is_inverse h (plus (times n C (times n P (flip C))) N) V <-> is_inverse h (plus (times n C' (times n P (flip C'))) N) V.
Proof.
  move=> /mx_eqP E. split=> /inverse_mx; rewrite innovation_mx => H; apply/inverse_mx; rewrite innovation_mx; [rewrite -E|rewrite E]; exact: H.
Qed.
Lemma td_update_textbook h f y C N z : (0 < td_dim exact f)%coq_nat -> (0 <= z < td_max exact f)%Z ->
  let D := stacked_measurement (td_dim exact f) (Z.to_nat z) C in
  match td_update exact inverse h f y C N z with
  | (Ok _, f') => textbook_update (td_size exact f) h D N y (td_x exact f) (td_P exact f) (td_x exact f') (td_P exact f') /\
                  td_max exact f' = td_max exact f /\ td_dim exact f' = td_dim exact f
  | (ThrowInvalid, f') => f' = f /\
      forall V, ~ is_inverse h (plus (times (td_size exact f) D (times (td_size exact f) (td_P exact f) (flip D))) N) V
  | _ => False
  end.
Proof.
  move=> d0 Hz D. rewrite /td_update.
  have -> : (td_max exact f <=? z)%Z = false by apply: (proj2 (Z.leb_gt _ _)); tauto.
  have -> : (z <? 0)%Z = false by apply: (proj2 (Z.ltb_ge _ _)); tauto.
  have Hk : (Z.to_nat z < Z.to_nat (td_max exact f))%coq_nat by lia.
  have M := @measurement_stacked h _ C _ _ Hk d0.
  case E: (gain _ _ _ _ _ _ _) => [K|].
  - rewrite finite_exact /=. split=> //. apply: (textbook_ext M). exact: gain_textbook.
  - split=> //. move/gain_none: E => E V /(proj2 (inverse_ext _ _ _ M)). exact: E.
Qed.

(** ** Smoothing *)
Lemma kf_smooth n h f y C N k : positive_semidefinite n (kf_P exact f) -> positive_definite h N -> k <> O ->
  let g := fun N f => snd (kf_update_with exact inverse n h f y C N) in
  let many := Nat.iter k (g (scaled (INR k) N)) f in
  same_vector n (kf_x exact many) (kf_x exact (g N f)) /\ same_matrix n n (kf_P exact many) (kf_P exact (g N f)).
Proof.
  move=> /psd_mx HP /pd_mx HN k0. case: k k0 => [//|k] _ g many.
  have m0 : Rlt (IZR 0) (INR k.+1) by apply: lt_0_INR; apply/ssrnat.ltP.
  have HN' : pd (mx h h (scaled (INR k.+1) N)) by rewrite mx_scaled; exact: pd_scale.
  set st := fun f => (cv n (kf_x exact f), mx n n (kf_P exact f)).
  have ST : forall N f, psd (st f).2 -> pd (mx h h N) -> st (g N f) = upd (mx h n C) (mx h h N) (cv h y) (st f).
  { move=> N0 f0 H1 H2. have [f' [E E2]] := kf_update_ok Hinv y C H1 H2. rewrite /g /st E /=. exact: E2. }
  have IT : forall j, st (Nat.iter j (g (scaled (INR k.+1) N)) f) = ssrnat.iter j (upd (mx h n C) (mx h h (scaled (INR k.+1) N)) (cv h y)) (st f) /\
                      psd (st (Nat.iter j (g (scaled (INR k.+1) N)) f)).2.
  { elim=> [//|j [E H]]. simpl Nat.iter. rewrite ST // E iterS. split=> //. apply: updP_psd => //. by rewrite -E. }
  have E : st many = st (g N f).
  { have [-> _] := IT k.+1. rewrite ST //. rewrite mx_scaled [st f]surjective_pairing upd_iter //.
    have -> : Rdiv (INR k.+1) (INR k.+1) = 1 by transitivity (IZR 1); [field; lra|by []]. by rewrite scale1r. }
  case: E => E1 E2. split; [exact/cv_eqP|exact/mx_eqP].
Qed.

Variable f : tdkf exact.
Variables (h : nat) (y : coords) (C N : entries) (z : Z).
Hypothesis d0 : (0 < td_dim exact f)%coq_nat.
Hypothesis HP : positive_semidefinite (td_size exact f) (td_P exact f).
Hypothesis HN : positive_definite h N.
Hypothesis z0 : (0 <= z)%Z.

Lemma td_smooth k : (z < td_max exact f)%Z -> k <> O ->
  let g := fun N f => snd (td_update exact inverse h f y C N z) in
  let many := Nat.iter k (g (scaled (INR k) N)) f in
  same_vector (td_size exact f) (td_x exact many) (td_x exact (g N f)) /\
  same_matrix (td_size exact f) (td_size exact f) (td_P exact many) (td_P exact (g N f)).
Proof.
  move=> Hz k0. case: k k0 => [//|k] _ g many.
  have m0 : Rlt (IZR 0) (INR k.+1) by apply: lt_0_INR; apply/ssrnat.ltP.
  have HN1 : pd (mx h h N) by exact/pd_mx.
  have HN' : pd (mx h h (scaled (INR k.+1) N)) by rewrite mx_scaled; exact: pd_scale.
  have Hf : fits (Z.to_nat (td_max exact f)) (td_dim exact f) f by [].
  have HP1 : psd (stk (Z.to_nat (td_max exact f)) (td_dim exact f) f).2 by exact/psd_mx.
  have [_ [_ E]] := stk_iter Hinv d0 y C k.+1 Hf HP1 HN' (conj z0 Hz).
  have [_ [_ E2]] := stk_fuse Hinv d0 y C Hf HP1 HN1 (conj z0 Hz).
  rewrite mx_scaled [stk _ _ f]surjective_pairing upd_iter // in E.
  have H1 : Rdiv (INR k.+1) (INR k.+1) = 1 by transitivity (IZR 1); [field; lra|by []].
  rewrite H1 scale1r -surjective_pairing -E2 in E. case: E => EX EP.
  split; [apply/cv_eqP; exact: EX|apply/mx_eqP; exact: EP].
Qed.
Lemma td_commute F b Q : (z + 1 < td_max exact f)%Z -> positive_semidefinite (td_dim exact f) Q ->
  let late := fuse inverse h y C N (z + 1) (advance junk (td_dim exact f) F b Q f) in
  let early := advance junk (td_dim exact f) F b Q (fuse inverse h y C N z f) in
  same_vector (td_size exact f) (td_x exact late) (td_x exact early) /\
  same_matrix (td_size exact f) (td_size exact f) (td_P exact late) (td_P exact early).
Proof.
  move=> Hz HQ late early.
  have HN1 : pd (mx h h N) by exact/pd_mx.
  have Hf : fits (Z.to_nat (td_max exact f)) (td_dim exact f) f by [].
  have HP1 : psd (stk (Z.to_nat (td_max exact f)) (td_dim exact f) f).2 by exact/psd_mx.
  have Hz' : (0 <= z < td_max exact f)%Z by lia.
  have Hm : (0 < td_max exact f)%Z by lia.
  have [A [B E]] := stk_fuse Hinv d0 y C Hf HP1 HN1 Hz'.
  have [_ [_ E1]] := stk_advance junk F b Q A ltac:(rewrite B; exact Hm).
  have [A2 [B2 E2]] := stk_advance junk F b Q Hf Hm.
  have HP2 : psd (stk (Z.to_nat (td_max exact f)) (td_dim exact f) (advance junk (td_dim exact f) F b Q f)).2.
  { rewrite E2. apply: prd_psd => //. exact: (dim_le Hf Hm). }
  have [_ [_ E3]] := stk_fuse Hinv d0 y C A2 HP2 HN1 (z := (z + 1)%Z) ltac:(rewrite B2; lia).
  rewrite E2 in E3. have Hk : ((Z.to_nat z).+1 < Z.to_nat (td_max exact f))%coq_nat by lia.
  have Zs : Z.to_nat (z + 1) = (Z.to_nat z).+1 by lia.
  rewrite Zs KalmanProofs2.late // -E -E1 in E3. case: E3 => EX EP.
  split; [apply/cv_eqP; exact: EX|apply/mx_eqP; exact: EP].
Qed.
Lemma td_spread ms : (z + Z.of_nat (length ms) < td_max exact f)%Z -> models_ok (td_dim exact f) ms ->
  let late := spread inverse junk (td_dim exact f) h y C (scaled (INR (S (length ms))) N) ms z f in
  let early := forward junk (td_dim exact f) ms (fuse inverse h y C N z f) in
  same_vector (td_size exact f) (td_x exact late) (td_x exact early) /\
  same_matrix (td_size exact f) (td_size exact f) (td_P exact late) (td_P exact early).
Proof.
  move=> Hz Hms late early.
  have m0 : Rlt (IZR 0) (INR (length ms).+1) by apply: lt_0_INR; apply/ssrnat.ltP.
  have HN1 : pd (mx h h N) by exact/pd_mx.
  have HN' : pd (mx h h (scaled (INR (length ms).+1) N)) by rewrite mx_scaled; exact: pd_scale.
  have Hf : fits (Z.to_nat (td_max exact f)) (td_dim exact f) f by [].
  have HP1 : psd (stk (Z.to_nat (td_max exact f)) (td_dim exact f) f).2 by exact/psd_mx.
  have E := stk_spread Hinv junk d0 y C Hf HP1 HN' Hms z0 Hz.
  have Hz' : (0 <= z < td_max exact f)%Z by lia.
  have [A [B E2]] := stk_fuse Hinv d0 y C Hf HP1 HN1 Hz'.
  have [_ [_ E3]] := stk_forward junk ms A ltac:(rewrite B; lia).
  rewrite mx_scaled [stk _ _ f]surjective_pairing upd_iter // in E.
  have H1 : Rdiv (INR (length ms).+1) (INR (length ms).+1) = 1 by transitivity (IZR 1); [field; lra|by []].
  rewrite H1 scale1r -surjective_pairing -E2 -E3 in E. case: E => EX EP.
  split; [apply/cv_eqP; exact: EX|apply/mx_eqP; exact: EP].
Qed.
End Facts.

(** ** Mahalanobis distance *)
Lemma pd_inverse n S V : positive_definite n S -> is_inverse n S V -> positive_definite n V.
Proof.
  move=> /pd_mx HS /inverse_mx E. apply/pd_mx. have [sV pV] := inv_psd (pd_psd HS) E. have E2 := mulmx1C E. split=> // v Hv.
  have -> : mx n n V = mx n n V *m mx n n S *m (mx n n V)^T by rewrite sV E2 mul1mx.
  rewrite qf_congr. apply: (proj2 HS). apply/eqP => H. move/eqP: Hv; apply.
  by rewrite -[v]mul1mx -E -mulmxA -[mx n n V]sV H mulmx0.
Qed.
Lemma pd_has_inverse n S : positive_definite n S -> exists V, is_inverse n S V.
Proof.
  move=> /pd_mx HS. exists (entries_of (invmx (mx n n S))). apply/inverse_mx. rewrite entries_ofK. apply: mulmxV. exact: pd_unit.
Qed.
Lemma inverse_unique n S V W : is_inverse n S V -> is_inverse n S W -> same_matrix n n V W.
Proof.
  move=> /inverse_mx A /inverse_mx B. apply/mx_eqP. by rewrite -[mx n n V]mulmx1 -B mulmxA (mulmx1C A) mul1mx.
Qed.
