(** Proofs about the robust loss (localization/src/robust.cpp) over the reals. *)
From Coq Require Import List Reals Lra Lia.
From Coquelicot Require Import Coquelicot.
From Verif Require Import Base Arith LibModel SpecLib AngleProofs SpecReal CurvatureProofs.
Import ListNotations.
Open Scope R_scope.

Definition hub (e k : R) : R := huber exact e k.
Definition hub' (e k : R) : R := huber_derivative exact e k.

Lemma hub_low e k : e < k * k -> hub e k = e.
Proof. intros H. unfold hub, huber. cbn [exact d_ltb d_mul]. rewrite (proj2 (Rltb_spec _ _) H). auto. Qed.
Lemma hub_high e k : k * k <= e -> hub e k = 2 * k * sqrt e - k * k.
Proof.
  intros H. unfold hub, huber. cbn [exact d_ltb d_mul d_sub d_sqrt d_of_Z D].
  destruct (Rltb e (k * k)) eqn:E; auto. apply Rltb_spec in E. lra.
Qed.
Lemma hub'_low e k : e < k * k -> hub' e k = 1.
Proof. intros H. unfold hub', huber_derivative. cbn [exact d_ltb d_mul]. rewrite (proj2 (Rltb_spec _ _) H). auto. Qed.
Lemma hub'_high e k : k * k <= e -> hub' e k = k / sqrt e.
Proof.
  intros H. unfold hub', huber_derivative. cbn [exact d_ltb d_mul d_div d_sqrt D].
  destruct (Rltb e (k * k)) eqn:E; auto. apply Rltb_spec in E. lra.
Qed.
Lemma sqrt_ge e k : 0 < k -> k * k <= e -> k <= sqrt e /\ sqrt e * sqrt e = e.
Proof.
  intros Hk H. split; [|apply sqrt_sqrt; nra].
  rewrite <- (sqrt_square k) by lra. apply sqrt_le_1_alt. auto.
Qed.

Lemma hub_nonneg e k : 0 <= e -> 0 < k -> 0 <= hub e k.
Proof.
  intros He Hk. destruct (Rlt_le_dec e (k * k)) as [H|H]; [rewrite hub_low; auto|].
  rewrite hub_high by auto. destruct (sqrt_ge e k Hk H). nra.
Qed.
Lemma hub_le e k : 0 <= e -> 0 < k -> hub e k <= e.
Proof.
  intros He Hk. destruct (Rlt_le_dec e (k * k)) as [H|H]; [rewrite hub_low; auto; lra|].
  rewrite hub_high by auto. destruct (sqrt_ge e k Hk H). nra.
Qed.
Lemma hub_mono e e' k : 0 < k -> e <= e' -> hub e k <= hub e' k.
Proof.
  intros Hk He.
  destruct (Rlt_le_dec e (k * k)) as [H|H], (Rlt_le_dec e' (k * k)) as [H'|H'].
  - rewrite !hub_low by auto. auto.
  - rewrite hub_low, hub_high by auto. destruct (sqrt_ge e' k Hk H'). nra.
  - lra.
  - rewrite !hub_high by auto. pose proof (sqrt_le_1_alt e e' He). nra.
Qed.
Lemma hub_quadratic e k : 0 <= e -> 0 < k -> (hub e k = e <-> e <= k * k).
Proof.
  intros He Hk. split.
  - intros H. destruct (Rlt_le_dec e (k * k)); [lra|]. rewrite hub_high in H by auto.
    destruct (sqrt_ge e k Hk r). assert (Z : (sqrt e - k) * (sqrt e - k) = 0) by nra.
    apply Rmult_integral in Z. nra.
  - intros [H|H]; [apply hub_low; auto|]. subst. rewrite hub_high by lra. rewrite sqrt_square by lra. ring.
Qed.

Lemma hub'_range e k : 0 < k -> 0 < hub' e k <= 1.
Proof.
  intros Hk. destruct (Rlt_le_dec e (k * k)) as [H|H]; [rewrite hub'_low; auto; lra|].
  rewrite hub'_high by auto. destruct (sqrt_ge e k Hk H). split.
  - apply Rdiv_lt_0_compat; lra.
  - apply (Rmult_le_reg_r (sqrt e)); [lra|]. unfold Rdiv. rewrite Rmult_assoc, Rinv_l by lra. lra.
Qed.
Lemma hub'_mono e e' k : 0 < k -> e <= e' -> hub' e' k <= hub' e k.
Proof.
  intros Hk He. destruct (Rlt_le_dec e (k * k)) as [H|H].
  - rewrite (hub'_low e) by auto. apply hub'_range; auto.
  - rewrite !hub'_high by lra. destruct (sqrt_ge e k Hk H).
    apply Rmult_le_compat_l; [lra|]. apply Rinv_le_contravar; [lra|]. apply sqrt_le_1_alt; auto.
Qed.

Lemma hub_deriv e k : 0 < k -> 0 < e -> is_derive (fun x => hub x k) e (hub' e k).
Proof.
  intros Hk He. destruct (Rtotal_order e (k * k)) as [H|[H|H]].
  - rewrite hub'_low by auto. apply (is_derive_ext_loc (fun x => x)).
    + apply (locally_interval _ e m_infty (k * k)); simpl; auto.
      intros y _ Hy. symmetry. apply hub_low; auto.
    + apply (is_derive_id (K := R_AbsRing)).
  - assert (Hs : hub' e k = 1).
    { rewrite hub'_high by lra. rewrite H, sqrt_square by lra. field. lra. }
    rewrite Hs. subst e. apply is_derive_Reals. intros eps Heps.
    assert (Hd : 0 < Rmin (k * k) (eps * (k * k))).
    { apply Rmin_glb_lt; [nra|]. apply Rmult_lt_0_compat; nra. }
    exists (mkposreal _ Hd). intros h Hh Hlt. simpl in Hlt.
    assert (H1 : Rabs h < k * k) by (eapply Rlt_le_trans; [exact Hlt|apply Rmin_l]).
    assert (H2 : Rabs h < eps * (k * k)) by (eapply Rlt_le_trans; [exact Hlt|apply Rmin_r]).
    rewrite (proj2 (hub_quadratic (k * k) k ltac:(nra) Hk)) by lra.
    destruct (Rlt_le_dec (k * k + h) (k * k)) as [L|L].
    + rewrite hub_low by auto. replace ((k * k + h - k * k) / h - 1) with 0 by (field; auto).
      rewrite Rabs_R0. auto.
    + rewrite hub_high by auto. destruct (sqrt_ge _ k Hk L) as [S1 S2].
      set (s := sqrt (k * k + h)) in *. clearbody s. assert (Hp : 0 < h) by lra.
      replace ((2 * k * s - k * k - k * k) / h - 1) with (- ((s - k) * (s - k) / h)).
      2:{ replace h with (s * s - k * k) at 1 2 by lra. assert (s * s - k * k <> 0) by lra. field. auto. }
      rewrite Rabs_Ropp, Rabs_pos_eq.
      2:{ apply Rmult_le_pos; [nra|]. left. apply Rinv_0_lt_compat; auto. }
      apply Rle_lt_trans with (h / (k * k)).
      * apply (Rmult_le_reg_r (h * (k * k))); [nra|].
        replace ((s - k) * (s - k) / h * (h * (k * k))) with ((s - k) * (s - k) * (k * k)) by (field; lra).
        replace (h / (k * k) * (h * (k * k))) with (h * h) by (field; lra).
        assert (Hh2 : h = (s - k) * (s + k)) by (transitivity (s * s - k * k); [lra|ring]).
        rewrite Hh2. assert (k * k <= (s + k) * (s + k)) by nra.
        replace ((s - k) * (s + k) * ((s - k) * (s + k))) with ((s - k) * (s - k) * ((s + k) * (s + k))) by ring.
        apply Rmult_le_compat_l; auto. apply Rle_0_sqr.
      * rewrite Rabs_pos_eq in H2 by lra. apply (Rmult_lt_reg_r (k * k)); [nra|].
        replace (h / (k * k) * (k * k)) with h by (field; lra). auto.
  - rewrite hub'_high by lra. apply (is_derive_ext_loc (fun x => 2 * k * sqrt x - k * k)).
    + apply (locally_interval _ e (k * k) p_infty); simpl; auto.
      intros y Hy _. symmetry. apply hub_high; lra.
    + destruct (sqrt_ge e k Hk) as [S1 S2]; [lra|]. auto_derive; [lra|]. field. lra.
Qed.
Lemma hub_deriv_reals e k : 0 < k -> 0 < e -> derivable_pt_lim (fun x => hub x k) e (hub' e k).
Proof. intros. apply is_derive_Reals, hub_deriv; auto. Qed.
Lemma hub_continuous e k : 0 < k -> 0 < e -> continuity_pt (fun x => hub x k) e.
Proof. intros. apply derivable_continuous_pt. exists (hub' e k). apply hub_deriv_reals; auto. Qed.

Lemma hub_majorise e0 e k : 0 < k -> 0 <= e0 -> 0 <= e ->
  hub e k <= hub e0 k + hub' e0 k * (e - e0).
Proof.
  intros Hk H0 He. destruct (Rlt_le_dec e0 (k * k)) as [L0|L0].
  - rewrite (hub_low e0), (hub'_low e0) by auto. pose proof (hub_le e k He Hk). lra.
  - rewrite (hub_high e0), (hub'_high e0) by auto. destruct (sqrt_ge e0 k Hk L0) as [S1 S2].
    set (s0 := sqrt e0) in *.
    replace (2 * k * s0 - k * k + k / s0 * (e - e0)) with (k * s0 - k * k + k * e / s0).
    2:{ rewrite <- S2. field. lra. }
    assert (Hs0 : 0 < s0) by lra.
    destruct (Rlt_le_dec e (k * k)) as [L|L].
    + rewrite hub_low by auto.
      apply Rminus_le_0. replace (k * s0 - k * k + k * e / s0 - e) with ((s0 - k) * (k * s0 - e) / s0) by (field; lra).
      apply Rmult_le_pos; [|left; apply Rinv_0_lt_compat; auto]. apply Rmult_le_pos; nra.
    + rewrite hub_high by auto. destruct (sqrt_ge e k Hk L) as [T1 T2]. set (s := sqrt e) in *.
      rewrite <- T2. apply Rminus_le_0.
      replace (k * s0 - k * k + k * (s * s) / s0 - (2 * k * s - k * k)) with (k * ((s0 - s) * (s0 - s)) / s0) by (field; lra).
      apply Rmult_le_pos; [|left; apply Rinv_0_lt_compat; auto]. apply Rmult_le_pos; [lra|]. apply Rle_0_sqr.
Qed.

Lemma rsum_le f g l : (forall x, In x l -> f x <= g x) -> rsum f l <= rsum g l.
Proof.
  induction l as [|a l IH]; intros H; [unfold rsum; simpl; lra|]. rewrite !rsum_cons.
  apply Rplus_le_compat; [apply H; left; auto|apply IH; intros; apply H; right; auto].
Qed.
Lemma hub_descent k e0 e l : 0 < k -> (forall i, In i l -> 0 <= e0 i /\ 0 <= e i) ->
  rsum (fun i => hub' (e0 i) k * e i) l <= rsum (fun i => hub' (e0 i) k * e0 i) l ->
  rsum (fun i => hub (e i) k) l <= rsum (fun i => hub (e0 i) k) l.
Proof.
  intros Hk Hp Hw.
  apply Rle_trans with (rsum (fun i => hub (e0 i) k + (hub' (e0 i) k * e i + (-1) * (hub' (e0 i) k * e0 i))) l).
  - apply rsum_le. intros i Hi. destruct (Hp i Hi). pose proof (hub_majorise (e0 i) (e i) k Hk H H0). lra.
  - rewrite (rsum_plus (fun i => hub (e0 i) k)), (rsum_plus (fun i => hub' (e0 i) k * e i)).
    rewrite (rsum_scale (-1) (fun i => hub' (e0 i) k * e0 i)). lra.
Qed.
