(** Properties C65 and C66: the update interval and the delay step. *)
From Coq Require Import List ZArith Bool Lia Lra Reals.
From Flocq Require Import Core IEEE754.BinarySingleNaN.
From Verif Require Import Base Arith FloatLemmas AngleProofs EkfModel IntervalProofs.
Open Scope R_scope.

(** ** C65 *)
(** [val] is the real value of a double, [fin] says that it is neither NaN nor infinite. *)

(** For every last time and every current time at least 2^-1022 s later (or no last time
    and a default frequency that is a number): 0 < dt <= 10 and the time is remembered. *)
Theorem C65_bounds_partial acosf df last (now : b64) : fin now ->
  match last with
  | None => is_nan df = false /\ df <> B754_infinity false
  | Some l => fin l /\ bpow radix2 (-1022) <= val now - val l <= bpow radix2 1023
  end ->
  exists dt, interval_compute (ieee acosf) df last now = (Ok dt, Some now) /\ fin dt /\ 0 < val dt <= 10.
Proof.
  destruct last as [l|]; [intros Fn [Fl G]; apply gap_ok; auto|].
  intros _ [H1 H2]. eexists. split; [reflexivity|]. apply interval_ok; auto.
Qed.
Print Assumptions C65_bounds_partial.
(** In terms of the clock: two readings at least two microseconds apart (up to the year
    2043). *)
Theorem C65_clock_partial acosf df t0 t1 : (0 <= t0)%Z -> (t0 + 2000 <= t1)%Z -> (t1 < 2 ^ 61)%Z ->
  exists dt, interval_compute (ieee acosf) df (Some (seconds (ieee acosf) t0)) (seconds (ieee acosf) t1)
      = (Ok dt, Some (seconds (ieee acosf) t1)) /\ fin dt /\ 0 < val dt <= 10.
Proof. apply clock_ok. Qed.
Print Assumptions C65_clock_partial.
(** invalid_argument is raised exactly if time went backwards, and nothing changes then. *)
Theorem C65_backwards acosf df (l now : b64) : fin l -> fin now ->
  (val now < val l -> interval_compute (ieee acosf) df (Some l) now = (ThrowInvalid, Some l)) /\
  (val l <= val now -> exists dt, interval_compute (ieee acosf) df (Some l) now = (Ok dt, Some now)).
Proof.
  intros Fl Fn. unfold interval_compute. change (d_ltb (ieee acosf)) with (@Bltb 53 1024). rewrite ltb64_ok by auto. split; intros H.
  - rewrite Rlt_bool_true by auto. reflexivity.
  - rewrite Rlt_bool_false by auto. eexists. reflexivity.
Qed.
Print Assumptions C65_backwards.
(** Refuted: two calls with the same time give an interval of zero, at every time. *)
Theorem C65_same_time_refuted acosf df (t : b64) : fin t ->
  exists dt, interval_compute (ieee acosf) df (Some t) t = (Ok dt, Some t) /\ val dt = 0.
Proof. intros F. exists (B754_zero false). split; [apply zero_gap; auto|reflexivity]. Qed.
Print Assumptions C65_same_time_refuted.
(** Clock readings that differ by 100 ns are the same time in doubles in 2023. *)
Theorem C65_collapsing_clock_refuted acosf df :
  interval_compute (ieee acosf) df (Some (seconds (ieee acosf) 1700000000000000000)) (seconds (ieee acosf) 1700000000000000100)
  = (Ok (B754_zero false), Some (seconds (ieee acosf) 1700000000000000100)).
Proof.
  assert (E : seconds (ieee acosf) 1700000000000000000 = seconds (ieee acosf) 1700000000000000100) by (apply B2SF_inj; vm_compute; reflexivity).
  rewrite E. apply zero_gap. vm_compute. reflexivity.
Qed.
Print Assumptions C65_collapsing_clock_refuted.
(** In exact arithmetic the interval is the time since the last call, at most ten seconds. *)
Theorem C65_is_elapsed_time df l now : l < now -> interval_compute exact df (Some l) now = (Ok (Rmin (now - l) 10), Some now).
Proof.
  intros H. unfold interval_compute, compute_interval, d_max, tenth. cbn [D exact d_ltb d_div d_of_Z d_sub] in *.
  destruct (Rltb now l) eqn:L0; [apply Rltb_spec in L0; lra|]. cbv zeta. do 2 f_equal.
  assert (P : 0 < 1 / (now - l)) by (apply Rdiv_lt_0_compat; lra).
  destruct (Rltb (1 / (now - l)) (1 / 10)) eqn:L.
  - apply Rltb_spec in L. rewrite Rmin_right; [field|].
    left; apply Rmult_lt_reg_l with (/ (now - l)); [apply Rinv_0_lt_compat; lra|]. rewrite Rinv_l by lra. unfold Rdiv in L. lra.
  - assert (NL : ~ 1 / (now - l) < 1 / 10) by (intros C; apply Rltb_spec in C; congruence). rewrite Rmin_left; [field; lra|].
    apply Rnot_lt_le in NL. apply Rmult_le_reg_l with (/ (now - l)); [apply Rinv_0_lt_compat; lra|]. rewrite Rinv_l by lra. unfold Rdiv in NL. lra.
Qed.
Print Assumptions C65_is_elapsed_time.
Example ex_C65 : match interval_compute (ieee (fun x => x)) (of_Z64 50) (Some (of_Z64 100)) (of_Z64 102) with
  | (Ok dt, Some t) => Beqb dt (of_Z64 2) && Beqb t (of_Z64 102) | _ => false end = true.
Proof. vm_compute. reflexivity. Qed.
Example ex_C65_clock : (0 <= 1700000000000000000)%Z /\ (1700000000000000000 + 2000 <= 1700000000020000000)%Z /\ (1700000000020000000 < 2 ^ 61)%Z.
Proof. repeat split; vm_compute; congruence. Qed.

(** ** C66 *)
(** Exact arithmetic: [roundf] rounds halves away from zero. *)
Definition roundf_exact (x : R) : option Z := Some (ZnearestA x).
(** The step is an integer nearest to delay / dt (0 for negative delays) ... *)
Theorem C66_nearest_exact delay dt z : 0 < dt -> compute_delay_step exact roundf_exact delay dt = Ok z ->
  (0 <= z < 2 ^ 31)%Z /\ Rabs (IZR z - Rmax delay 0 / dt) <= / 2.
Proof.
  intros P. unfold compute_delay_step, roundf_exact, d_max. cbn [exact d_of_Z d_ltb d_div D].
  replace (if Rltb delay 0 then 0 else delay) with (Rmax delay 0).
  2: { destruct (Rltb delay 0) eqn:E; [apply Rltb_spec in E; apply Rmax_right; lra|]. apply Rmax_left. destruct (Rle_or_lt 0 delay); auto. apply Rltb_spec in H. congruence. }
  destruct (_ && _) eqn:C; [|discriminate]. intros E. injection E as <-. apply andb_true_iff in C. destruct C as [_ C]. apply Z.ltb_lt in C. split.
  - split; auto. apply Z.le_trans with (ZnearestA (IZR 0)); [rewrite ZnearestA_IZR; lia|]. apply ZnearestA_mono. apply quot_nonneg. auto.
  - rewrite Rabs_minus_sym. apply (Znearest_half (Z.leb 0)).
Qed.
Print Assumptions C66_nearest_exact.
(** ... monotone in the delay ... *)
Theorem C66_monotone_exact d1 d2 dt z1 z2 : 0 < dt -> d1 <= d2 ->
  compute_delay_step exact roundf_exact d1 dt = Ok z1 -> compute_delay_step exact roundf_exact d2 dt = Ok z2 -> (z1 <= z2)%Z.
Proof.
  intros P L. unfold compute_delay_step, roundf_exact, d_max. cbn [exact d_of_Z d_ltb d_div D]. do 2 (destruct (_ && _); [|discriminate]).
  intros E1 E2. injection E1 as <-. injection E2 as <-. apply ZnearestA_mono. apply Rmult_le_compat_r; [left; apply Rinv_0_lt_compat; auto|].
  destruct (Rltb d1 0) eqn:A1, (Rltb d2 0) eqn:A2; try lra.
  - destruct (Rle_or_lt 0 d2) as [G|G]; auto. apply Rltb_spec in G. congruence.
  - apply Rltb_spec in A2. destruct (Rlt_or_le d1 0) as [G|G]; [apply Rltb_spec in G; congruence|lra].
Qed.
Print Assumptions C66_monotone_exact.
(** ... and defined as long as it fits into an int. *)
Theorem C66_defined_exact delay dt : 0 < dt -> delay / dt <= IZR (2 ^ 31 - 1) -> exists z, compute_delay_step exact roundf_exact delay dt = Ok z.
Proof.
  intros P L. unfold compute_delay_step, roundf_exact, d_max. cbn [exact d_of_Z d_ltb d_div D].
  set (q := (if Rltb delay 0 then 0 else delay) / dt).
  assert (Q : 0 <= q <= IZR (2 ^ 31 - 1)).
  { unfold q. destruct (Rltb delay 0) eqn:E.
    - unfold Rdiv. rewrite Rmult_0_l. split; [lra|apply IZR_le; lia].
    - split; auto. apply Rmult_le_pos; [|left; apply Rinv_0_lt_compat; auto]. destruct (Rle_or_lt 0 delay) as [G|G]; auto. apply Rltb_spec in G. congruence. }
  assert (Z0 : (0 <= ZnearestA q)%Z) by (apply Z.le_trans with (ZnearestA (IZR 0)); [rewrite ZnearestA_IZR; lia|apply ZnearestA_mono; apply Q]).
  assert (Z1 : (ZnearestA q <= 2 ^ 31 - 1)%Z) by (apply Z.le_trans with (ZnearestA (IZR (2 ^ 31 - 1))); [apply ZnearestA_mono; apply Q|rewrite ZnearestA_IZR; lia]).
  replace ((- 2 ^ 31 <=? ZnearestA q)%Z && (ZnearestA q <? 2 ^ 31)%Z) with true; [eauto|].
  symmetry. apply andb_true_iff. split; [apply Z.leb_le|apply Z.ltb_lt]; lia.
Qed.
Print Assumptions C66_defined_exact.

(** IEEE arithmetic, with the detour through float: non-negative, monotone, and nearest up
    to the rounding error of the float. *)
Theorem C66_ieee acosf (delay dt : b64) z : fin delay -> 0 < val dt -> compute_delay_step (ieee acosf) roundf64 delay dt = Ok z ->
  (0 <= z)%Z /\
  (forall k, (0 <= k <= 31)%Z -> Rmax (val delay) 0 / val dt <= bpow radix2 k -> Rabs (IZR z - Rmax (val delay) 0 / val dt) <= / 2 + bpow radix2 (k - 23)) /\
  (forall (delay' : b64) z', fin delay' -> val delay <= val delay' -> compute_delay_step (ieee acosf) roundf64 delay' dt = Ok z' -> (z <= z')%Z).
Proof.
  intros F P E. split; [eapply delay_nonneg; eauto|]. split; intros; [eapply delay_near; eauto|eapply (delay_mono acosf delay delay'); eauto].
Qed.
Print Assumptions C66_ieee.
Theorem C66_ieee_defined_partial acosf (delay dt : b64) : fin delay -> 0 < val dt -> Rmax (val delay) 0 / val dt <= bpow radix2 30 ->
  exists z, compute_delay_step (ieee acosf) roundf64 delay dt = Ok z.
Proof. apply delay_defined. Qed.
Print Assumptions C66_ieee_defined_partial.
(** Refuted: a message with stamp 0 against a clock of 2023 and an update interval of 20 ms:
    the step does not fit into an int, the conversion is undefined. *)
Theorem C66_stale_refuted acosf :
  compute_delay_step (ieee acosf) roundf64 (compute_delay_time (ieee acosf) 1700000000000000000 0) (div64 (of_Z64 1) (of_Z64 50)) = UB.
Proof. vm_compute. reflexivity. Qed.
Print Assumptions C66_stale_refuted.
(** Refuted: with the interval of zero that the interval computation can return (C65), the
    step of every delay is undefined. *)
Theorem C66_zero_interval_refuted acosf df (t delay : b64) : fin t -> fin delay ->
  exists dt, interval_compute (ieee acosf) df (Some t) t = (Ok dt, Some t) /\ compute_delay_step (ieee acosf) roundf64 delay dt = UB.
Proof. intros F1 F2. exists (B754_zero false). split; [apply zero_gap; auto|apply delay_zero_dt; auto]. Qed.
Print Assumptions C66_zero_interval_refuted.
Example ex_C66 : compute_delay_step (ieee (fun x => x)) roundf64 (div64 (of_Z64 7) (of_Z64 100)) (div64 (of_Z64 1) (of_Z64 50)) = Ok 4%Z.
Proof. vm_compute. reflexivity. Qed.

(** Only measurements with a step inside the buffer are fused: the filter returned by the
    handler of a message is either unchanged or the result of an update at such a step. *)
Section Fused.
Variable A : arith.
Variable roundf : D A -> option Z.
Variable sin cos : D A -> D A.
Variable atan2 : D A -> D A -> D A.
Variable Orient : Type.
Variable get_yaw : Orient -> D A.
Variable K : kalman A.
Theorem C66_pose_fused_inside p now dt f (m : pose_msg A Orient) f' :
  pose_body A roundf sin cos atan2 Orient get_yaw K p now dt f m = Ok f' ->
  f' = f \/ exists step y C R, compute_delay_step A roundf (compute_delay_time A now (p_stamp _ _ m)) dt = Ok step /\
    (step < m_extend A p)%Z /\ kf_update A K f y C R step = Ok f'.
Proof.
  unfold pose_body. cbv zeta. unfold time_of. destruct (p_stamp A Orient m <? 0)%Z; [discriminate|]. cbn [bind].
  destruct (compute_delay_step A roundf _ dt) as [step| | | | |] eqn:ED; try discriminate. cbn [bind].
  unfold check_delay_step. destruct (step <? m_extend A p)%Z eqn:CS; cbn [negb]; [|intros H; injection H as ->; auto].
  destruct (all_finite _ _); cbn [negb]; [|intros H; injection H as ->; auto].
  destruct (kf_get_x A K f step) as [x| | | | |]; try discriminate. cbn [bind].
  destruct (gate A K _ _ _ _); cbn [negb]; [|intros H; injection H as ->; auto].
  destruct (pose_measurement_covariance _ _ _) as [R| | | | |]; try discriminate. cbn [bind]. unfold try_update.
  destruct (kf_update A K f _ _ R step) as [f2| | | | |] eqn:EU; try discriminate; intros H; injection H as <-; auto.
  right. do 4 eexists. split; [reflexivity|]. split; [apply Z.ltb_lt; exact CS|exact EU].
Qed.
Theorem C66_twist_fused_inside p now dt f (m : twist_msg A) f' :
  twist_body A roundf K p now dt f m = Ok f' ->
  f' = f \/ exists step y C R, compute_delay_step A roundf (compute_delay_time A now (t_stamp _ m)) dt = Ok step /\
    (step < m_extend A p)%Z /\ kf_update A K f y C R step = Ok f'.
Proof.
  unfold twist_body. cbv zeta. unfold time_of. destruct (t_stamp A m <? 0)%Z; [discriminate|]. cbn [bind].
  destruct (compute_delay_step A roundf _ dt) as [step| | | | |] eqn:ED; try discriminate. cbn [bind].
  unfold check_delay_step. destruct (step <? m_extend A p)%Z eqn:CS; cbn [negb]; [|intros H; injection H as ->; auto].
  destruct (all_finite _ _); cbn [negb]; [|intros H; injection H as ->; auto].
  destruct (kf_get_x A K f step) as [x| | | | |]; try discriminate. cbn [bind].
  destruct (gate A K _ _ _ _); cbn [negb]; [|intros H; injection H as ->; auto].
  destruct (twist_measurement_covariance _ _ _) as [R| | | | |]; try discriminate. cbn [bind]. unfold try_update.
  destruct (kf_update A K f _ _ R step) as [f2| | | | |] eqn:EU; try discriminate; intros H; injection H as <-; auto.
  right. do 4 eexists. split; [reflexivity|]. split; [apply Z.ltb_lt; exact CS|exact EU].
Qed.
End Fused.
Print Assumptions C66_pose_fused_inside.
Print Assumptions C66_twist_fused_inside.
