(** Matrix to quaternion and back, for matrices that are not exactly rotations. *)
From Coq Require Import List ZArith Bool Lia Lra Reals Psatz.
From Verif Require Import Base Arith LibModel SpecLib LibProofs LocModel PoseModel OptModel SpecPose SpecOpt AngleProofs RotProofs OptProofs WitnessProofs SpecDrift.
Import ListNotations.
Open Scope R_scope.

(** Squared length of the vector part, and excess of the squared norm over one. *)
Definition svec (q : quat) : R := qx q * qx q + qy q * qy q + qz q * qz q.
Definition excess (q : quat) : R := qw q * qw q + svec q - 1.
Definition trip (q : quat) : quat := quat_of (to_rotation q).

Lemma trace_of w x y z : m00 (to_rotation (Qn w x y z)) + m11 (to_rotation (Qn w x y z)) + m22 (to_rotation (Qn w x y z)) = 3 - 4 * svec (Qn w x y z).
Proof. unfold svec. cbn. ring. Qed.

Lemma trip_front q : svec q < 3 / 4 ->
  trip q = Qn (sqrt (1 - svec q)) (qx q * (qw q / sqrt (1 - svec q))) (qy q * (qw q / sqrt (1 - svec q))) (qz q * (qw q / sqrt (1 - svec q))).
Proof.
  destruct q as [w x y z]. intros H. unfold trip, quat_of. rewrite trace_of. rewrite lt_true by lra.
  set (s := svec (Qn w x y z)) in *. assert (P : 0 < sqrt (1 - s)) by (apply sqrt_lt_R0; lra).
  replace (sqrt (3 - 4 * s + 1)) with (2 * sqrt (1 - s)).
  2: { replace (3 - 4 * s + 1) with (2 * 2 * (1 - s)) by ring. rewrite sqrt_mult by lra. rewrite sqrt_square by lra. reflexivity. }
  cbn [qw qx qy qz]. unfold to_rotation. cbn [m21 m12 m02 m20 m10 m01]. f_equal; field; lra.
Qed.

Lemma trip_svec q : 0 <= svec q < 3 / 4 -> svec (trip q) = svec q + excess q * (svec q / (1 - svec q)).
Proof.
  intros H. rewrite trip_front by lra. unfold svec at 1. cbn [qx qy qz]. assert (P : 0 < sqrt (1 - svec q)) by (apply sqrt_lt_R0; lra).
  assert (Q : sqrt (1 - svec q) * sqrt (1 - svec q) = 1 - svec q) by (apply sqrt_sqrt; lra).
  transitivity (svec q * (qw q * qw q) / (sqrt (1 - svec q) * sqrt (1 - svec q))). { unfold svec. field. unfold svec in P. lra. }
  rewrite Q. unfold excess. field. lra.
Qed.
Lemma trip_excess q : 0 <= svec q < 3 / 4 -> excess (trip q) = excess q * (svec q / (1 - svec q)).
Proof.
  intros H. unfold excess at 1. rewrite trip_svec by exact H. rewrite trip_front by lra. cbn [qw]. rewrite sqrt_sqrt by lra. ring.
Qed.
Lemma trip_qw q : svec q < 3 / 4 -> 0 < qw (trip q).
Proof. intros H. rewrite trip_front by exact H. cbn [qw]. apply sqrt_lt_R0. lra. Qed.
Lemma svec_pos q : 0 <= svec q. Proof. unfold svec. nra. Qed.

(** Beyond 120 degrees the way there and back changes at most the sign. *)
Lemma trip_back q : 3 / 4 <= svec q -> trip q = q \/ trip q = Qn (- qw q) (- qx q) (- qy q) (- qz q).
Proof.
  destruct q as [w x y z]. intros H. unfold trip, quat_of. rewrite trace_of. rewrite lt_false by lra. unfold svec in H. cbn [qx qy qz] in H.
  assert (Z : forall a, a <> 0 -> forall d, d = 4 * (a * a) -> sqrt d = 2 * Rabs a).
  { intros a Ha d ->. replace (4 * (a * a)) with (2 * a * (2 * a)) by ring. rewrite <- (Rabs_pos_eq 2) at 3 by lra. rewrite <- Rabs_mult. change (2 * a * (2 * a)) with (Rsqr (2 * a)). apply sqrt_Rsqr_abs. }
  assert (G : forall a, a <> 0 -> Rabs a = a /\ 0 < a \/ Rabs a = - a /\ a < 0).
  { intros a Ha. destruct (Rle_lt_dec 0 a); [left; rewrite Rabs_pos_eq; lra|right; rewrite Rabs_left; lra]. }
  unfold to_rotation. cbn [m00 m01 m02 m10 m11 m12 m20 m21 m22]. cbn [qw qx qy qz].
  destruct (Rltb _ _) eqn:E1.
  - assert (Hz : z <> 0). { intros ->. destruct (Rltb (1 - (2 * y * y + 2 * 0 * 0)) (1 - (2 * x * x + 2 * 0 * 0))) eqn:E2; apply Rltb_spec in E1; nra. }
    rewrite (Z z Hz) by ring. destruct (G z Hz) as [[-> P]|[-> P]]; [left|right]; f_equal; field; lra.
  - destruct (Rltb (1 - (2 * y * y + 2 * z * z)) (1 - (2 * x * x + 2 * z * z))) eqn:E2.
    + apply rltb_false in E1. apply Rltb_spec in E2. assert (Hy : y <> 0) by (intros ->; nra).
      rewrite (Z y Hy) by ring. destruct (G y Hy) as [[-> P]|[-> P]]; [left|right]; f_equal; field; lra.
    + apply rltb_false in E1. apply rltb_false in E2. assert (Hx : x <> 0) by (intros ->; nra).
      rewrite (Z x Hx) by ring. destruct (G x Hx) as [[-> P]|[-> P]]; [left|right]; f_equal; field; lra.
Qed.
Lemma rotation_opp q : to_rotation (Qn (- qw q) (- qx q) (- qy q) (- qz q)) = to_rotation q.
Proof. destruct q as [w x y z]. unfold to_rotation. cbn [qw qx qy qz]. f_equal; ring. Qed.
Lemma trip_back_rotation q : 3 / 4 <= svec q -> to_rotation (trip q) = to_rotation q.
Proof. intros H. destruct (trip_back q H) as [->| ->]; [reflexivity|apply rotation_opp]. Qed.

(** How such a matrix changes lengths. *)
Lemma placed_excess q t p : placed_length2 (make_pose q t) p = length2 p + 4 * excess q * (svec q * length2 p - vdot (qvec q) p * vdot (qvec q) p).
Proof. destruct q as [w x y z], p as [a b c]. unfold placed_length2, length2, excess, svec, make_pose, to_rotation, mapply, vdot, qvec. cbn. ring. Qed.
Lemma cauchy a b : vdot a b * vdot a b <= vdot a a * vdot b b.
Proof.
  destruct a as [a1 a2 a3], b as [b1 b2 b3]. unfold vdot. cbn [vx vy vz].
  pose proof (Rle_0_sqr (a1 * b2 - a2 * b1)). pose proof (Rle_0_sqr (a1 * b3 - a3 * b1)). pose proof (Rle_0_sqr (a2 * b3 - a3 * b2)). unfold Rsqr in *. lra.
Qed.
Lemma perpendicular v : exists p, 0 < length2 p /\ vdot v p = 0.
Proof.
  destruct v as [x y z]. destruct (Req_EM_T x 0) as [->|Hx].
  - exists (V3 1 0 0). unfold length2, vdot. cbn [vx vy vz]. split; lra.
  - exists (V3 (- y) x 0). unfold length2, vdot. cbn [vx vy vz]. split; [nra|ring].
Qed.
Lemma enlarges_excess q t : 0 <= excess q -> enlarges (1 + 4 * excess q * svec q) (make_pose q t).
Proof.
  intros H. destruct (perpendicular (qvec q)) as (p & P & O). exists p. split; [exact P|]. rewrite placed_excess, O. right. ring.
Qed.
Lemma enlarges_weaken a b T : a <= b -> enlarges b T -> enlarges a T.
Proof. intros H (p & P & E). exists p. split; [exact P|]. nra. Qed.
Lemma rigid_excess q t : rigid_up_to (4 * Rabs (excess q) * svec q) (make_pose q t).
Proof.
  intros p. rewrite placed_excess. pose proof (cauchy (qvec q) p) as C. change (vdot (qvec q) (qvec q)) with (svec q) in C. fold (length2 p) in C.
  replace (length2 p + _ - length2 p) with (4 * (excess q * (svec q * length2 p - vdot (qvec q) p * vdot (qvec q) p))) by ring.
  rewrite Rabs_mult, Rabs_mult, (Rabs_pos_eq 4) by lra. rewrite (Rabs_pos_eq (svec q * length2 p - _)) by lra.
  pose proof (Rabs_pos (excess q)). assert (0 <= vdot (qvec q) p * vdot (qvec q) p) by nra. nra.
Qed.
Lemma excess_rigid q t eps : rigid_up_to eps (make_pose q t) -> 4 * Rabs (excess q) * svec q <= eps.
Proof.
  intros H. destruct (perpendicular (qvec q)) as (p & P & O). specialize (H p). rewrite placed_excess, O in H.
  replace (length2 p + _ - length2 p) with (4 * svec q * excess q * length2 p) in H by ring.
  rewrite Rabs_mult, Rabs_mult, (Rabs_pos_eq (4 * svec q)), (Rabs_pos_eq (length2 p)) in H by (pose proof (svec_pos q); lra). nra.
Qed.

(** ** Updates that learn nothing *)
Section Chain.
Variable eig : nat -> (nat -> nat -> R) -> list R.
Variable llt : nat -> (nat -> nat -> R) -> (nat -> R) -> (nat -> R).
Variable sel : selector exact.
Variable max_iter : Z.
Hypothesis HN : valid_nth exact sel.
Hypothesis HM : (1 <= max_iter)%Z.

Lemma uninformative_update scan T : uninformative eig scan -> exists b, update_pose eig llt sel scan max_iter T = Ok (make_pose (quat_of (lin T)) (tra T), b).
Proof.
  intros U. unfold update_pose, localizer_update, opt_run. unfold of_pose. set (q := quat_of (lin T)). set (t := tra T).
  destruct (U (make_pose q t)) as (J & res & E & C).
  replace (Z.to_nat max_iter) with (S (Z.to_nat (max_iter - 1))) by lia. replace (max_iter <? 0)%Z with false by (symmetry; apply Z.ltb_ge; lia).
  cbn [opt_loop]. rewrite E. cbn [bind]. destruct res as [|x res]; [eexists; reflexivity|]. destruct C as [C|[W HD]]; [discriminate|].
  unfold normalize_error_scale. rewrite (scale_defined sel (compute_errors exact (list R) rdot (x :: res)) HN) by discriminate. cbn [bind].
  destruct (d_ltb exact dbl_max _); [eexists; reflexivity|].
  destruct (d_ltb exact dbl_max _); [eexists; reflexivity|].
  rewrite (degenerate_step eig llt q _ J (x :: res) W); auto.
  2: { unfold compute_weights, compute_errors. rewrite !map_length. reflexivity. }
  cbn [bind]. rewrite converged_zero, qmul_id, vadd_zero. eexists. reflexivity.
Qed.
Lemma uninformative_scans scans q t : Forall (uninformative eig) scans ->
  after_scans eig llt sel max_iter scans (make_pose q t) = Ok (make_pose (Nat.iter (length scans) trip q) t).
Proof.
  intros F. revert q. induction F as [|scan scans U F IH]; intros q; [reflexivity|]. unfold after_scans in *. cbn [foldM length Nat.iter].
  destruct (uninformative_update scan (make_pose q t) U) as [b ->]. cbn [bind]. cbn [make_pose lin tra]. fold (trip q). rewrite IH.
  f_equal. f_equal. clear. induction scans as [|s l IH]; cbn; [reflexivity|]. f_equal. exact IH.
Qed.
End Chain.

(** ** The excess grows between 90 and 120 degrees *)
Section Grow.
Variable s0 : R.
Hypothesis H0 : / 2 < s0 < 3 / 4.
Let r := s0 / (1 - s0).
Let c := s0 / (2 * s0 - 1).
Lemma r_big : 1 < r. Proof. unfold r. apply (Rmult_lt_reg_r (1 - s0)); [lra|]. field_simplify; lra. Qed.
Lemma c_pos : 0 < c. Proof. unfold c. apply Rdiv_lt_0_compat; lra. Qed.
Lemma c_r : c = c / r + 1. Proof. unfold c, r. field. lra. Qed.
Definition growing (e0 : R) (q : quat) : Prop := s0 <= svec q /\ e0 <= excess q /\ svec q - s0 <= excess q * c.
Lemma grow_step e0 q : 0 < e0 -> growing e0 q -> svec q < 3 / 4 -> growing e0 (trip q) /\ svec q + e0 <= svec (trip q).
Proof.
  intros P (A & B & C) L. pose proof r_big as RB. pose proof c_pos as CP. pose proof c_r as CR. unfold growing.
  rewrite trip_svec, trip_excess by lra. set (e := excess q) in *. set (s := svec q) in *.
  assert (R1 : r <= s / (1 - s)). { unfold r. apply (Rmult_le_reg_r ((1 - s0) * (1 - s))); [nra|]. replace (s0 / (1 - s0) * ((1 - s0) * (1 - s))) with (s0 * (1 - s)) by (field; lra). replace (s / (1 - s) * ((1 - s0) * (1 - s))) with (s * (1 - s0)) by (field; lra). nra. }
  set (k := s / (1 - s)) in *. assert (e <= e * k) by nra.
  assert (D : c / r * (e * k) >= e * c). { replace (c / r * (e * k)) with (e * c * (k / r)) by (field; lra). assert (1 <= k / r) by (apply (Rmult_le_reg_r r); [lra|]; unfold Rdiv; rewrite Rmult_assoc, Rinv_l by lra; lra). assert (0 < e * c) by nra. nra. }
  repeat split; try lra. rewrite CR, Rmult_plus_distr_l. lra.
Qed.
Lemma leaves e0 : 0 < e0 -> forall k q, growing e0 q -> svec q < 3 / 4 -> 3 / 4 - svec q <= INR k * e0 ->
  exists n, growing e0 (Nat.iter n trip q) /\ 3 / 4 <= svec (Nat.iter n trip q).
Proof.
  intros P. induction k as [|k IH]; intros q G L K; [cbn in K; lra|]. destruct (grow_step e0 q P G L) as [G' GS].
  destruct (Rle_lt_dec (3 / 4) (svec (trip q))) as [X|X]; [exists 1%nat; split; assumption|].
  destruct (IH (trip q) G' X) as (n & A & B). { rewrite S_INR in K. lra. }
  exists (S n). replace (Nat.iter (S n) trip q) with (Nat.iter n trip (trip q)); [split; assumption|].
  clear. induction n; cbn; [reflexivity|]. f_equal. exact IHn.
Qed.
End Grow.

Lemma iter_back q : 3 / 4 <= svec q -> forall n, svec (Nat.iter n trip q) = svec q /\ to_rotation (Nat.iter n trip q) = to_rotation q.
Proof.
  intros H. induction n as [|n [A B]]; [split; reflexivity|]. change (Nat.iter (S n) trip q) with (trip (Nat.iter n trip q)). rewrite <- A in H. split; [|rewrite trip_back_rotation by exact H; exact B].
  destruct (trip_back _ H) as [->| ->]; [exact A|]. rewrite <- A. unfold svec. cbn [qx qy qz]. ring.
Qed.
Lemma iter_add {X} (f : X -> X) a b x : Nat.iter (a + b) f x = Nat.iter a f (Nat.iter b f x).
Proof. induction a; cbn; [reflexivity|]. f_equal. exact IHa. Qed.

(** It shrinks below 90 degrees. *)
Lemma shrink_step K q : 0 <= K < / 2 -> svec q + Rabs (excess q) * (K / (1 - 2 * K)) <= K ->
  svec (trip q) + Rabs (excess (trip q)) * (K / (1 - 2 * K)) <= K /\
  Rabs (excess (trip q)) * svec (trip q) <= K / (1 - K) * (Rabs (excess q) * svec q).
Proof.
  intros HK H. pose proof (svec_pos q) as S0. pose proof (svec_pos (trip q)) as S1. pose proof (Rabs_pos (excess q)) as E0.
  assert (C0 : 0 <= K / (1 - 2 * K)) by (apply Rmult_le_pos; [lra|left; apply Rinv_0_lt_compat; lra]).
  assert (SK : svec q <= K) by nra. rewrite trip_excess by lra. rewrite trip_svec in * by lra.
  set (s := svec q) in *. set (e := excess q) in *. set (k := s / (1 - s)).
  assert (K1 : 0 <= k) by (apply Rmult_le_pos; [lra|left; apply Rinv_0_lt_compat; lra]).
  assert (K2 : k <= K / (1 - K)). { unfold k. apply (Rmult_le_reg_r ((1 - s) * (1 - K))); [nra|]. replace (s / (1 - s) * ((1 - s) * (1 - K))) with (s * (1 - K)) by (field; lra). replace (K / (1 - K) * ((1 - s) * (1 - K))) with (K * (1 - s)) by (field; lra). nra. }
  rewrite Rabs_mult, (Rabs_pos_eq k K1). pose proof (Rle_abs e) as EA. fold k in S1.
  assert (A : s + e * k + Rabs e * k * (K / (1 - 2 * K)) <= K).
  { apply Rle_trans with (s + Rabs e * (K / (1 - 2 * K))); [|exact H].
    replace (K / (1 - 2 * K)) with (K / (1 - K) + K / (1 - K) * (K / (1 - 2 * K))) at 2 by (field; lra).
    assert (Y : Rabs e * k <= Rabs e * (K / (1 - K))) by (apply Rmult_le_compat_l; lra). assert (X : e * k <= Rabs e * k) by (apply Rmult_le_compat_r; lra).
    pose proof (Rmult_le_compat_r _ _ _ C0 Y) as X2. rewrite Rmult_plus_distr_l, <- Rmult_assoc. lra. }
  split; [exact A|]. assert (B : s + e * k <= K) by (assert (0 <= Rabs e * k * (K / (1 - 2 * K))) by (apply Rmult_le_pos; [apply Rmult_le_pos; lra|lra]); lra).
  assert (X : k * (s + e * k) <= K / (1 - K) * s).
  { unfold k at 1. replace (s / (1 - s) * (s + e * k)) with (s * ((s + e * k) / (1 - s))) by (field; lra). rewrite (Rmult_comm (K / (1 - K))).
    apply Rmult_le_compat_l; [lra|]. apply Rle_trans with (K / (1 - s)); [apply Rmult_le_compat_r; [left; apply Rinv_0_lt_compat; lra|lra]|].
    apply Rmult_le_compat_l; [lra|]. apply Rinv_le_contravar; lra. }
  replace (Rabs e * k * (s + e * k)) with (Rabs e * (k * (s + e * k))) by ring. replace (K / (1 - K) * (Rabs e * s)) with (Rabs e * (K / (1 - K) * s)) by ring.
  apply Rmult_le_compat_l; [lra|exact X].
Qed.
