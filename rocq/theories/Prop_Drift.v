(** C133: small errors of the orientation while the scans say nothing about the pose. *)
From Coq Require Import List ZArith Bool Lia Lra Reals Psatz SpecFloat.
From Flocq Require Import Core IEEE754.BinarySingleNaN.
From Verif Require Import Base Arith LibModel SpecLib LibProofs LocModel PoseModel OptModel SpecPose SpecOpt AngleProofs WitnessProofs SpecIeee RoundTripModel SpecDrift DriftProofs DriftFloatProofs.
From Verif Require Prop_Optimizer.
Import ListNotations.
Open Scope R_scope.

(** ** Doubles: refuted.  The localizer is initialised with the pose of a vehicle facing 100
    degrees to the left, a rotation up to rounding.  From the 95th scan without features on,
    it reports a pose that faces more than 25 degrees elsewhere and enlarges distances by a
    factor of more than 1.2. *)
Section Doubles.
Variable acosf : b64 -> b64.
Notation A := (ieee acosf).
Variable sum_right : bool.
Variable Jac Res : Type.
Variable dot : Res -> D A.
Variable calc_update : dquat A -> list (D A) -> list Jac -> list Res -> outcome (dquat A * dvec A).
Variable qmul : dquat A -> dquat A -> dquat A.
Variable vadd : dvec A -> dvec A -> dvec A.
Variable converged : dquat A -> dvec A -> bool.
Variable sel : selector A.
Variable b_scale k_huber tiny dmax : D A.
Notation updates := (d_updates A sum_right Jac Res dot calc_update qmul vadd converged sel b_scale k_huber tiny dmax).

Lemma square_turn a b : placed_length2 (Iso (M3 a (- b) 0 b a 0 0 0 1) (V3 0 0 0)) = fun p => (a * a + b * b) * (vx p * vx p + vy p * vy p) + vz p * vz p.
Proof. apply FunctionalExtensionality.functional_extensionality. intros [x y z]. unfold placed_length2, mapply, vdot. cbn. ring. Qed.

Theorem C133_doubles_refuted : forall t, exists T0,
  rigid_up_to (/ 1000000000000000) (real_pose acosf T0) /\
  turned_beyond (- (173 / 1000)) (V3 1 0 0) (forward (real_pose acosf T0)) /\
  dtra _ T0 = t /\
  forall max_iter scans, (1 <= max_iter)%Z -> Forall featureless scans -> (95 <= length scans)%nat ->
  exists T, updates max_iter scans T0 = Ok (T, map (fun _ => false) scans) /\
    turned_beyond (9 / 10) (forward (real_pose acosf T0)) (forward (real_pose acosf T)) /\
    enlarges (12 / 10 * (12 / 10)) (real_pose acosf T).
Proof.
  intros t. exists (DP A (d_to_rotation A (hundred acosf)) t). set (T0 := DP A _ t).
  set (a0 := - (6256334945874824 / 36028797018963968)). set (b0 := 8870359658994712 / 9007199254740992).
  set (a1 := - (6488918948641984 / 9007199254740992)). set (b1 := 8870359658994711 / 9007199254740992).
  assert (M0 : lin (real_pose acosf T0) = M3 a0 (- b0) 0 b0 a0 0 0 0 1).
  { rewrite real_shown. unfold T0. cbn [dlin]. rewrite shown_first. unfold matrix_of, at_first, a0, b0. cbn [nth SF2R]. unfold F2R. cbn [Fnum Fexp cond_Zopp]. cbn [bpow radix_val radix2 Z.pow_pos Pos.iter Z.mul Pos.mul]. f_equal; try reflexivity; rewrite ?opp_IZR; lra. }
  assert (M1 : forall n, (95 <= n)%nat -> lin (real_pose acosf (DP A (Nat.iter n (ftrip acosf sum_right) (d_to_rotation A (hundred acosf))) t)) = M3 a1 (- b1) 0 b1 a1 0 0 0 1).
  { intros n Hn. rewrite real_shown. cbn [dlin]. rewrite stays by exact Hn. unfold matrix_of, at_last, a1, b1. cbn [nth SF2R]. unfold F2R. cbn [Fnum Fexp cond_Zopp]. cbn [bpow radix_val radix2 Z.pow_pos Pos.iter Z.mul Pos.mul]. f_equal; try reflexivity; rewrite ?opp_IZR; lra. }
  assert (P : forall T a b, lin T = M3 a (- b) 0 b a 0 0 0 1 -> placed_length2 T = (fun p => (a * a + b * b) * (vx p * vx p + vy p * vy p) + vz p * vz p) /\ forward T = V3 a b 0).
  { intros T a b E. split; [rewrite <- square_turn; unfold placed_length2; cbn [lin]; rewrite E; reflexivity|]. unfold forward. rewrite E. unfold mapply. cbn. f_equal; ring. }
  destruct (P _ _ _ M0) as [P0 F0].
  assert (N0 : vnorm (V3 1 0 0) = 1) by (unfold vnorm, vdot; cbn [vx vy vz]; replace (1 * 1 + 0 * 0 + 0 * 0) with 1 by ring; apply sqrt_1).
  assert (S0 : Rabs (a0 * a0 + b0 * b0 - 1) <= / 1000000000000000) by (apply Rabs_le; unfold a0, b0; lra).
  split; [|split; [|split; [reflexivity|]]].
  - intros p. rewrite P0. unfold length2, vdot. replace (_ - _) with ((a0 * a0 + b0 * b0 - 1) * (vx p * vx p + vy p * vy p)) by ring.
    rewrite Rabs_mult, (Rabs_pos_eq (vx p * vx p + vy p * vy p)) by nra. assert (0 <= vx p * vx p + vy p * vy p) by nra. assert (0 <= vz p * vz p) by nra. nra.
  - unfold turned_beyond. rewrite F0, N0. unfold vdot, vnorm, vdot. cbn [vx vy vz].
    assert (sqrt (a0 * a0 + b0 * b0 + 0 * 0) <= 1001 / 1000). { rewrite <- (sqrt_square (1001 / 1000)) by lra. apply sqrt_le_1_alt. apply Rabs_le in S0 || idtac. unfold a0, b0. lra. }
    assert (0 <= sqrt (a0 * a0 + b0 * b0 + 0 * 0)) by apply sqrt_pos. unfold a0 at 1. lra.
  - intros max_iter scans HM F L. exists (DP A (Nat.iter (length scans) (ftrip acosf sum_right) (d_to_rotation A (hundred acosf))) t).
    split; [apply featureless_updates; assumption|]. specialize (M1 _ L). destruct (P _ _ _ M1) as [P1 F1]. split.
    + unfold turned_beyond. rewrite F0, F1. unfold vnorm. rewrite <- sqrt_mult by (unfold vdot; cbn [vx vy vz]; nra).
      apply Rlt_le_trans with (9 / 10 * (122 / 100)); [unfold vdot, a0, b0, a1, b1; cbn [vx vy vz]; lra|]. apply Rmult_le_compat_l; [lra|].
      rewrite <- (sqrt_square (122 / 100)) by lra. apply sqrt_le_1_alt. unfold vdot, a0, b0, a1, b1. cbn [vx vy vz]. lra.
    + exists (V3 1 0 0). rewrite P1. unfold length2, vdot, a1, b1. cbn [vx vy vz]. lra.
Qed.
End Doubles.
Print Assumptions C133_doubles_refuted.

Section Exact.
Variable eig : nat -> (nat -> nat -> R) -> list R.
Variable llt : nat -> (nat -> nat -> R) -> (nat -> R) -> (nat -> R).
Variable sel : selector exact.
Variable max_iter : Z.
Hypothesis HN : valid_nth exact sel.
Hypothesis HM : (1 <= max_iter)%Z.
Notation after := (after_scans eig llt sel max_iter).

(** ** It is not the size of the rounding errors: with exact arithmetic any excess of the
    quaternion over norm one, however small, builds up to the same effect.  The vehicle is
    turned by an angle a with sin^2 (a/2) between 0.6 and 0.625, that is about 101.6 to 104.4 degrees, about any axis. *)
Theorem C133_builds_up_refuted : forall q t, 0 < qw q -> 3 / 5 <= vdot (qvec q) (qvec q) <= 5 / 8 -> 1 < qnorm2 q ->
  exists n, forall scans, Forall (uninformative eig) scans -> (n <= length scans)%nat ->
  exists T, after scans (make_pose q t) = Ok T /\ enlarges (115 / 100) T.
Proof.
  intros q t W S N. change (vdot (qvec q) (qvec q)) with (svec q) in S. set (s0 := svec q) in *. set (e0 := excess q).
  assert (P : 0 < e0) by (unfold e0, excess, svec; unfold qnorm2 in N; lra).
  assert (G : growing s0 e0 q) by (unfold growing; fold s0 e0; repeat split; try lra; unfold Rminus; rewrite Rplus_opp_r; apply Rmult_le_pos; [lra|apply Rlt_le, Rdiv_lt_0_compat; lra]).
  destruct (archimed_cor1 e0 P) as (k & K1 & K2). assert (KP : 0 < INR k) by (apply lt_0_INR; lia).
  destruct (leaves s0 ltac:(lra) e0 P k q G ltac:(fold s0; lra)) as (n & (G1 & G2 & G3) & B).
  { fold s0. apply Rle_trans with 1; [lra|]. apply Rlt_le. apply (Rmult_lt_reg_l (/ INR k)); [apply Rinv_0_lt_compat; lra|]. rewrite <- Rmult_assoc, Rinv_l by lra. lra. }
  exists n. intros scans F L. eexists. split; [apply uninformative_scans; assumption|].
  replace (length scans) with ((length scans - n) + n)%nat by lia. rewrite iter_add. set (q1 := Nat.iter n trip q) in *.
  unfold make_pose. rewrite (proj2 (iter_back q1 B _)). fold (make_pose q1 t).
  assert (E1 : / 20 <= excess q1).
  { assert (C : 0 < 2 * s0 - 1) by lra. apply (Rmult_le_reg_r (s0 / (2 * s0 - 1))); [apply Rdiv_lt_0_compat; lra|]. apply Rle_trans with (svec q1 - s0); [|exact G3].
    apply Rle_trans with (3 / 4 - s0); [|lra]. apply (Rmult_le_reg_r (2 * s0 - 1)); [lra|]. replace (/ 20 * (s0 / (2 * s0 - 1)) * (2 * s0 - 1)) with (/ 20 * s0) by (field; lra). nra. }
  apply (enlarges_weaken _ (1 + 4 * excess q1 * svec q1)); [nra|]. apply enlarges_excess. lra.
Qed.

(** In other words: however close to a rigid motion the initial pose is required to be, one
    of them gets enlarged by seven percent. *)
Theorem C133_unstable_refuted : forall eps t, 0 < eps -> exists q, rigid_up_to eps (make_pose q t) /\
  exists n, forall scans, Forall (uninformative eig) scans -> (n <= length scans)%nat ->
  exists T, after scans (make_pose q t) = Ok T /\ enlarges (115 / 100) T.
Proof.
  intros eps t E. set (d := Rmin (eps / 4) 1). assert (D0 : 0 < d <= 1) by (unfold d; split; [apply Rmin_pos; lra|apply Rmin_r]). assert (D1 : d <= eps / 4) by apply Rmin_l.
  set (q := Qn (sqrt (2 / 5 + d)) 0 0 (sqrt (3 / 5))). exists q.
  assert (Z : svec q = 3 / 5) by (unfold svec, q; cbn [qx qy qz]; rewrite sqrt_sqrt by lra; ring).
  assert (X : excess q = d) by (unfold excess; rewrite Z; unfold q; cbn [qw]; rewrite sqrt_sqrt by lra; field).
  split.
  - intros p. eapply Rle_trans; [apply rigid_excess|]. rewrite X, Z, Rabs_pos_eq by lra. assert (0 <= length2 p) by (unfold length2, vdot; nra). nra.
  - apply C133_builds_up_refuted; [unfold q; cbn [qw]; apply sqrt_lt_R0; lra|change (vdot (qvec q) (qvec q)) with (svec q); rewrite Z; lra|].
    assert (qnorm2 q = 1 + excess q) by (unfold qnorm2, excess, svec; ring). lra.
Qed.

(** ** What holds: below a right angle errors die out, by a factor for each scan. *)
Theorem C133_below_90_partial : forall K q t eps, 0 <= K < / 2 -> vdot (qvec q) (qvec q) + Rabs (qnorm2 q - 1) * (K / (1 - 2 * K)) <= K ->
  rigid_up_to eps (make_pose q t) -> forall scans, Forall (uninformative eig) scans ->
  exists T, after scans (make_pose q t) = Ok T /\ tra T = t /\ rigid_up_to (eps * (K / (1 - K)) ^ length scans) T.
Proof.
  intros K q t eps HK HQ HR scans F. eexists. split; [apply uninformative_scans; assumption|]. split; [reflexivity|].
  change (vdot (qvec q) (qvec q)) with (svec q) in HQ. replace (qnorm2 q - 1) with (excess q) in HQ by (unfold qnorm2, excess, svec; ring). apply excess_rigid in HR.
  assert (R0 : 0 <= K / (1 - K)) by (apply Rmult_le_pos; [lra|left; apply Rinv_0_lt_compat; lra]).
  assert (I : forall n, svec (Nat.iter n trip q) + Rabs (excess (Nat.iter n trip q)) * (K / (1 - 2 * K)) <= K /\
    4 * Rabs (excess (Nat.iter n trip q)) * svec (Nat.iter n trip q) <= eps * (K / (1 - K)) ^ n).
  { induction n as [|n [I1 I2]]; [cbn; split; [exact HQ|lra]|]. change (Nat.iter (S n) trip q) with (trip (Nat.iter n trip q)).
    destruct (shrink_step K _ HK I1) as [S1 S2]. split; [exact S1|]. cbn [pow]. nra. }
  intros p. eapply Rle_trans; [apply rigid_excess|]. apply Rmult_le_compat_r; [unfold length2, vdot; nra|]. apply I.
Qed.

(** Beyond 120 degrees nothing changes. *)
Theorem C133_beyond_120_partial : forall q t, 3 / 4 <= vdot (qvec q) (qvec q) -> forall scans, Forall (uninformative eig) scans ->
  after scans (make_pose q t) = Ok (make_pose q t).
Proof.
  intros q t H scans F. rewrite uninformative_scans by assumption. unfold make_pose. rewrite (proj2 (iter_back q H _)). reflexivity.
Qed.
End Exact.
Print Assumptions C133_builds_up_refuted.
Print Assumptions C133_unstable_refuted.
Print Assumptions C133_below_90_partial.
Print Assumptions C133_beyond_120_partial.

(** ** Cases: a scan without features and a degenerate one. *)
Example C133_case : Forall (uninformative Prop_Optimizer.diag_eig) [fun _ => Ok ([], []); fun _ => Ok ([[[0; 0; 0; 0; 0; 0; 0]]], [[5]])] /\ valid_nth exact sel_sort /\
  Forall featureless [fun _ : dpose (ieee (fun x => x)) => Ok (@nil nat, @nil nat)].
Proof.
  split; [|split; [exact sel_sort_valid|repeat constructor; intros T; eauto]]. repeat constructor; intros T; do 2 eexists; (split; [reflexivity|]); [left; reflexivity|right; exact Prop_Optimizer.ex_C41].
Qed.
(** Turned by 60 degrees: the squared length of the vector part is 1/4; the norm is off by 0.1 percent. *)
Example C133_below_case : let q := Qn (sqrt (3 / 4 + / 1000)) 0 0 (/ 2) in
  vdot (qvec q) (qvec q) + Rabs (qnorm2 q - 1) * (1 / 3 / (1 - 2 * (1 / 3))) <= 1 / 3 /\ qnorm2 q <> 1.
Proof.
  cbn zeta. unfold vdot, qvec, qnorm2. cbn [qw qx qy qz vx vy vz]. rewrite sqrt_sqrt by lra. rewrite Rabs_pos_eq by lra. split; lra.
Qed.
