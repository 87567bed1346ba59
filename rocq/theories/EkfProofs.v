(** Proofs about the EKF localizer: yaw, Jacobian, covariances, 1d filters. *)
From Coq Require Import List ZArith Bool Lia Lra Reals.
From Coquelicot Require Import Coquelicot.
From Verif Require Import Base Arith SpecReal AngleProofs EkfModel SpecEkf.
Import ListNotations.
Open Scope R_scope.

(** ** Yaw *)
Notation norm_yaw := (normalize_yaw exact sin cos atan2).
Lemma cos_sin_same a b : cos a = cos b -> sin a = sin b -> exists k : Z, a = b + 2 * PI * IZR k.
Proof.
  intros HC HS. assert (C : cos (a - b) = 1) by (rewrite cos_minus, HC, HS; pose proof (sin2_cos2 b); unfold Rsqr in *; lra).
  assert (S : sin ((a - b) / 2) = 0).
  { pose proof (cos_2a_sin ((a - b) / 2)) as D. replace (2 * ((a - b) / 2)) with (a - b) in D by field. rewrite C in D.
    assert (sin ((a - b) / 2) * sin ((a - b) / 2) = 0) by lra. apply Rmult_integral in H. destruct H; auto. }
  apply sin_eq_0_0 in S. destruct S as [k S]. exists k. lra.
Qed.
Lemma cos_shift a k : cos (a + 2 * PI * IZR k) = cos a /\ sin (a + 2 * PI * IZR k) = sin a.
Proof.
  assert (N : forall n, cos (a + 2 * INR n * PI) = cos a /\ sin (a + 2 * INR n * PI) = sin a) by (intros n; split; [apply cos_period|apply sin_period]).
  assert (M : forall n, cos (a - 2 * INR n * PI) = cos a /\ sin (a - 2 * INR n * PI) = sin a).
  { intros n. split; [rewrite <- (cos_period (a - 2 * INR n * PI) n)|rewrite <- (sin_period (a - 2 * INR n * PI) n)]; f_equal; ring. }
  destruct (Z_le_gt_dec 0 k) as [H|H].
  - destruct (N (Z.to_nat k)) as [N1 N2]. rewrite INR_IZR_INZ, Z2Nat.id in N1, N2 by lia. replace (a + 2 * PI * IZR k) with (a + 2 * IZR k * PI) by ring. auto.
  - destruct (M (Z.to_nat (- k))) as [M1 M2]. rewrite INR_IZR_INZ, Z2Nat.id, opp_IZR in M1, M2 by lia.
    replace (a + 2 * PI * IZR k) with (a - 2 * - IZR k * PI) by ring. auto.
Qed.
Lemma norm_yaw_spec y : - PI < norm_yaw y <= PI /\ exists k : Z, y = norm_yaw y + 2 * PI * IZR k.
Proof.
  unfold normalize_yaw. destruct (atan2_polar (cos y) (sin y)) as [R [HC HS]].
  { destruct (Req_dec (cos y) 0) as [E|E]; auto. right. intros E2. pose proof (sin2_cos2 y) as Q. unfold Rsqr in Q. rewrite E, E2 in Q. lra. }
  split; auto. apply cos_sin_same.
  all: replace (cos y * cos y + sin y * sin y) with 1 in HC, HS by (pose proof (sin2_cos2 y); unfold Rsqr in *; lra); rewrite sqrt_1, Rmult_1_l in HC, HS; auto.
Qed.
Lemma norm_yaw_unique y r k : - PI < r <= PI -> y = r + 2 * PI * IZR k -> norm_yaw y = r.
Proof.
  intros R E. destruct (norm_yaw_spec y) as [R' [k' E']]. pose proof PI_RGT_0 as P.
  assert (K : k = k').
  { assert (D : 2 * PI * (IZR k - IZR k') = norm_yaw y - r) by lra. rewrite <- minus_IZR in D.
    assert (B : - 1 < IZR (k - k') < 1).
    { split; apply Rmult_lt_reg_l with (2 * PI); lra. }
    destruct B as [B1 B2]. apply lt_IZR in B1, B2. lia. }
  subst k'. lra.
Qed.
(** Away from the cut the normalisation moves with its argument. *)
Lemma norm_yaw_derive y : norm_yaw y <> PI -> is_derive norm_yaw y 1.
Proof.
  intros N. destruct (norm_yaw_spec y) as [RG [k E]]. set (r := norm_yaw y) in *.
  assert (B : - PI < r < PI) by lra.
  apply (is_derive_ext_loc (fun v => v - 2 * PI * IZR k)).
  - set (e := Rmin (PI - r) (r + PI)). assert (PE : 0 < e) by (apply Rmin_pos; lra).
    assert (Q : forall v : R, Rabs (v - y) < e -> v - 2 * PI * IZR k = norm_yaw v).
    { intros v Hv. symmetry. apply norm_yaw_unique with k; [|ring]. apply Rabs_def2 in Hv.
      pose proof (Rmin_l (PI - r) (r + PI)). pose proof (Rmin_r (PI - r) (r + PI)). unfold e in Hv. lra. }
    exists (mkposreal e PE). intros v Hv. apply Q. exact Hv.
  - auto_derive; [trivial|ring].
Qed.

(** ** Jacobian *)
Notation predict_raw := (predict_with exact sin cos (fun y => y)).
Notation transition := (create_state_transition_matrix exact sin cos Ropp).
Lemma jacobian_raw (s : state exact) (dt : R) i j : (i < 6)%nat -> (j < 6)%nat ->
  is_derive (fun v => comp (predict_raw (with_comp s j v) dt) i) (comp s j) (transition s dt i j).
Proof.
  intros Hi Hj. destruct s as [x y yaw bias vx wz].
  do 6 (destruct i as [|i]; [clear Hi; do 6 (destruct j as [|j]; [clear Hj; unfold comp, with_comp, predict_with, create_state_transition_matrix; cbn; auto_derive; [trivial|try ring]|]); exfalso; lia|]). lia.
Qed.
Lemma jacobian_full (s : state exact) (dt : R) i j : (i < 6)%nat -> (j < 6)%nat -> norm_yaw (st_yaw exact s + st_wz exact s * dt) <> PI ->
  is_derive (fun v => comp (predict_next_state exact sin cos atan2 (with_comp s j v) dt) i) (comp s j) (transition s dt i j).
Proof.
  intros Hi Hj N. destruct (Nat.eq_dec i 2) as [->|Ni].
  - pose proof (jacobian_raw s dt 2 j ltac:(lia) Hj) as D.
    apply (is_derive_ext (fun v => norm_yaw (comp (predict_raw (with_comp s j v) dt) 2))); [reflexivity|].
    evar_last; [apply (is_derive_comp norm_yaw (fun v => comp (predict_raw (with_comp s j v) dt) 2)); [|exact D]|].
    + apply norm_yaw_derive. replace (comp (predict_raw (with_comp s j (comp s j)) dt) 2) with (st_yaw exact s + st_wz exact s * dt); auto.
      destruct s. do 6 (destruct j as [|j]; [reflexivity|]). lia.
    + unfold scal. cbn. unfold mult. cbn. ring.
  - apply (is_derive_ext (fun v => comp (predict_raw (with_comp s j v) dt) i)); [|apply jacobian_raw; auto].
    intros v. unfold predict_next_state, predict_with, comp. cbn. do 2 (destruct i as [|i]; [reflexivity|]). destruct i as [|i]; [congruence|reflexivity].
Qed.

(** ** One-dimensional filters *)
Lemma f1_step (f : filter1d exact) obs r t : f_init _ f = true -> 0 < f_stddev _ f -> 0 < r ->
  let f' := f1_update exact f obs r t in
  let dt := IZR (t - f_time _ f) / 1000000000 in
  let s2 := Rsqr (f_stddev _ f) + Rsqr (f_proc _ f * dt) in
  f_init _ f' = true /\ f_proc _ f' = f_proc _ f /\ f_time _ f' = t /\ 0 < f_stddev _ f' /\
  f_x _ f' = (Rsqr r * f_x _ f + s2 * obs) / (Rsqr r + s2) /\
  Rsqr (f_stddev _ f') = s2 * Rsqr r / (s2 + Rsqr r) /\ 0 < s2.
Proof.
  intros I S P. cbv zeta. unfold f1_update. rewrite I. cbn [f_init f_x f_stddev f_proc f_time]. unfold seconds. cbn [exact d_div d_of_Z d_mul d_add d_sqrt d_sub D].
  set (pd := f_proc exact f * (IZR (t - f_time exact f) / 1000000000)). set (v := f_stddev exact f) in *. change (D exact) with R in *.
  assert (V : 0 < v * v + pd * pd) by (pose proof (Rle_0_sqr pd); unfold Rsqr in *; nra).
  rewrite sqrt_sqrt by lra. set (s2 := v * v + pd * pd) in *. unfold Rsqr. fold s2.
  assert (P2 : 0 < r * r) by nra.
  assert (G : 0 < 1 - s2 / (s2 + r * r)).
  { replace (1 - s2 / (s2 + r * r)) with (r * r / (s2 + r * r)) by (field; lra). apply Rdiv_lt_0_compat; lra. }
  split; auto. split; auto. split; auto. split; [apply Rmult_lt_0_compat; apply sqrt_lt_R0; auto|]. split; [field; lra|]. split; auto.
  replace (sqrt (1 - s2 / (s2 + r * r)) * sqrt s2 * (sqrt (1 - s2 / (s2 + r * r)) * sqrt s2)) with
    ((sqrt (1 - s2 / (s2 + r * r)) * sqrt (1 - s2 / (s2 + r * r))) * (sqrt s2 * sqrt s2)) by ring.
  rewrite !sqrt_sqrt by lra. field. lra.
Qed.

(** ** Covariances *)
Lemma forall6 (P : nat -> Prop) : P 0%nat -> P 1%nat -> P 2%nat -> P 3%nat -> P 4%nat -> P 5%nat -> forall i, (i < 6)%nat -> P i.
Proof. intros. do 6 (destruct i as [|i]; [assumption|]). lia. Qed.
