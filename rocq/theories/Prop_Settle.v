(** Property C122: height, roll and pitch as the EKF localizer publishes them settle on what
    the poses report.  The vocabulary is in SpecHeight.v and SpecSettle.v: [given] and
    [variance] are the reported value and its variance, entries 2, 3 and 4 of a published
    pose are height, roll and pitch. *)
From Coq Require Import List ZArith Bool Lia Lra Reals Psatz String.
From Verif Require Import Base Arith AngleProofs EkfModel SpecEkf SpecHeight SpecSettle KalmanModel Prop_Kalman Prop_Interval Prop_EkfNode HeightProofs HeightExactProofs Prop_Height.
Import ListNotations.
Local Open Scope R_scope.

(** ** One filter *)
Section Filter.
Variable q c eps : R.
Lemma fuse_step s z v t : 0 < snd (fst s) -> 0 < v ->
  exists p', p' = snd (fst s) + (q * (IZR (t - snd s) / 1000000000)) ^ 2 /\ snd (fst s) <= p' /\
    snd (fst (fuse q s (z, v, t))) = v * p' / (p' + v) /\ snd (fuse q s (z, v, t)) = t /\ 0 < v / (p' + v) < 1 /\
    (Rabs (z - c) <= eps -> Rabs (mean (fuse q s (z, v, t)) - c) - eps <= v / (p' + v) * (Rabs (mean s - c) - eps)).
Proof.
  destruct s as [[x p] t0]. cbn [fst snd]. intros P V. unfold fuse, mean. cbn [fst snd].
  set (p' := p + (q * (IZR (t - t0) / 1000000000)) ^ 2). assert (PP : p <= p') by (unfold p'; pose proof (pow2_ge_0 (q * (IZR (t - t0) / 1000000000))); lra).
  exists p'. assert (S : p' / (p' + v) = 1 - v / (p' + v)) by (field; lra). 
  assert (R0 : 0 < v / (p' + v)) by (apply Rdiv_lt_0_compat; lra). assert (R1 : v / (p' + v) < 1).
  { apply Rmult_lt_reg_r with (p' + v); [lra|]. unfold Rdiv. rewrite Rmult_assoc, Rinv_l by lra. lra. }
  split; [reflexivity|]. split; [exact PP|]. split; [field; lra|]. split; [reflexivity|]. split; [lra|]. intros Z.
  rewrite S. set (r := v / (p' + v)) in *. replace (x + (1 - r) * (z - x) - c) with (r * (x - c) + (1 - r) * (z - c)) by ring.
  pose proof (Rabs_triang (r * (x - c)) ((1 - r) * (z - c))) as T. rewrite !Rabs_mult in T. rewrite (Rabs_pos_eq r), (Rabs_pos_eq (1 - r)) in T by lra.
  assert ((1 - r) * Rabs (z - c) <= (1 - r) * eps) by (apply Rmult_le_compat_l; lra). lra.
Qed.
(** With weight W so far the variance is at least 1/W, and a pose of variance v leaves at
    most the share W / (W + 1/v) of a deviation. *)
Lemma keeps s z v t W : 0 < snd (fst s) -> 0 < v -> 0 < W -> 1 <= W * snd (fst s) ->
  0 < snd (fst (fuse q s (z, v, t))) /\ 1 <= (W + / v) * snd (fst (fuse q s (z, v, t))) /\
  (Rabs (z - c) <= eps -> forall b, 0 <= b -> Rabs (mean s - c) <= eps + b -> Rabs (mean (fuse q s (z, v, t)) - c) <= eps + b * (W / (W + / v))).
Proof.
  intros P V W0 F. destruct (fuse_step s z v t P V) as (p' & _ & L & E & _ & R & M). set (s' := fuse q s (z, v, t)) in *. rewrite E.
  assert (IV : 0 < / v) by (apply Rinv_0_lt_compat; exact V). assert (G : 1 <= W * p') by nra.
  split; [apply Rdiv_lt_0_compat; [apply Rmult_lt_0_compat; lra|lra]|]. split.
  - replace ((W + / v) * (v * p' / (p' + v))) with ((v * (W * p') + p') / (p' + v)) by (field; lra).
    apply Rmult_le_reg_r with (p' + v); [lra|]. unfold Rdiv. rewrite Rmult_assoc, Rinv_l, Rmult_1_r by lra. nra.
  - intros Z b B H. specialize (M Z). assert (S : v / (p' + v) <= W / (W + / v)).
    { replace (W / (W + / v)) with (v * W / (v * W + 1)) by (field; split; nra). apply Rmult_le_reg_r with ((p' + v) * (v * W + 1)); [apply Rmult_lt_0_compat; nra|].
      replace (v / (p' + v) * ((p' + v) * (v * W + 1))) with (v * (v * W + 1)) by (field; nra). replace (v * W / (v * W + 1) * ((p' + v) * (v * W + 1))) with (v * W * (p' + v)) by (field; nra). nra. }
    assert (v / (p' + v) * (Rabs (mean s - c) - eps) <= v / (p' + v) * b) by (apply Rmult_le_compat_l; lra).
    assert (v / (p' + v) * b <= W / (W + / v) * b) by (apply Rmult_le_compat_r; lra). lra.
Qed.
(** A pose at least [gap] seconds apart. *)
Lemma forgets s z v t vmax gap : 0 < snd (fst s) -> 0 < v <= vmax -> 0 <= gap -> gap <= Rabs (IZR (t - snd s) / 1000000000) -> Rabs (z - c) <= eps ->
  forall b, 0 <= b -> Rabs (mean s - c) <= eps + b -> Rabs (mean (fuse q s (z, v, t)) - c) <= eps + b * (vmax / (vmax + (q * gap) ^ 2)).
Proof.
  intros P [V VM] G0 G Z b B H. destruct (fuse_step s z v t P V) as (p' & E & L & _ & _ & R & M). specialize (M Z).
  assert (Q : (q * gap) ^ 2 <= p').
  { rewrite E. set (dt := IZR (t - snd s) / 1000000000) in *. replace ((q * dt) ^ 2) with (q ^ 2 * Rabs dt ^ 2) by (rewrite (pow2_abs dt); ring).
    replace ((q * gap) ^ 2) with (q ^ 2 * gap ^ 2) by ring. assert (gap ^ 2 <= Rabs dt ^ 2) by (apply pow_incr; lra). pose proof (pow2_ge_0 q). assert (q ^ 2 * gap ^ 2 <= q ^ 2 * Rabs dt ^ 2) by (apply Rmult_le_compat_l; assumption). lra. }
  set (g2 := (q * gap) ^ 2) in *. assert (Q0 : 0 <= g2) by apply pow2_ge_0. clearbody g2.
  assert (S : v / (p' + v) <= vmax / (vmax + g2)).
  { apply Rmult_le_reg_r with ((p' + v) * (vmax + g2)); [apply Rmult_lt_0_compat; lra|].
    replace (v / (p' + v) * ((p' + v) * (vmax + g2))) with (v * (vmax + g2)) by (field; lra). replace (vmax / (vmax + g2) * ((p' + v) * (vmax + g2))) with (vmax * (p' + v)) by (field; lra). assert (v * g2 <= vmax * p') by (apply Rmult_le_compat; lra). lra. }
  assert (v / (p' + v) * (Rabs (mean s - c) - eps) <= v / (p' + v) * b) by (apply Rmult_le_compat_l; lra).
  assert (v / (p' + v) * b <= vmax / (vmax + g2) * b) by (apply Rmult_le_compat_r; lra). lra.
Qed.
End Filter.

(** ** The localizer *)
Section Node.
Variable sin cos : R -> R.
Variable atan2 : R -> R -> R.
Variable neg : R -> R.
Variable Orient : Type.
Variable get_yaw get_roll get_pitch : Orient -> R.
Variable K : kalman exact.
Variable prm : params exact.
Notation step := (node_step exact roundf_exact sin cos atan2 neg Orient get_yaw get_roll get_pitch K prm).
Notation run := (node_run exact roundf_exact sin cos atan2 neg Orient get_yaw get_roll get_pitch K prm).
Notation given := (given exact Orient get_roll get_pitch).
Notation variance := (variance exact Orient).
Notation measured := (measured Orient get_roll get_pitch).
Notation uncertain := (uncertain Orient).
Notation poses_of := (poses_of exact Orient).
Notation weight_of := (weight_of Orient).
Notation apart := (apart Orient).

Lemma weight_app k a b : weight_of k (a ++ b) = weight_of k a + weight_of k b.
Proof. unfold SpecSettle.weight_of. induction a as [|m a IH]; cbn [app fold_right]; [ring|]. rewrite IH. ring. Qed.
Lemma weight_pos k l : (2 <= k <= 4)%nat -> Forall uncertain l -> 0 <= weight_of k l /\ (l <> [] -> 0 < weight_of k l).
Proof.
  intros Hk F. induction F as [|m l U F IH]; cbn; [split; [lra|congruence]|]. pose proof (Rinv_0_lt_compat _ (U k Hk)) as I. destruct IH as [IH _]. unfold SpecSettle.weight_of in IH. split; intros; lra.
Qed.
(** The invariant over a list of poses after the first. *)
Lemma tracks_share k c eps b l : (2 <= k <= 4)%nat -> 0 <= b -> Forall uncertain l -> Forall (fun m => Rabs (given k m - c) <= eps) l ->
  forall s W, 0 < W -> 0 < snd (fst s) -> 1 <= W * snd (fst s) -> Rabs (mean s - c) <= eps + b ->
  let s' := fold_left (fuse (drift k)) (map (measured k) l) s in
  0 < snd (fst s') /\ 1 <= (W + weight_of k l) * snd (fst s') /\ Rabs (mean s' - c) <= eps + b * (W / (W + weight_of k l)).
Proof.
  intros Hk B U F. revert b B. induction l as [|m l IH]; intros b B s W W0 P G H.
  - cbn. rewrite Rplus_0_r. split; [exact P|]. split; [exact G|]. unfold Rdiv. rewrite Rinv_r by lra. lra.
  - inversion U as [|? ? Um Ul]; subst. inversion F as [|? ? Fm Fl]; subst. cbn [map fold_left]. set (v := variance k m). pose proof (Um k Hk : 0 < v) as V.
    destruct (keeps (drift k) c eps s (given k m) v (p_stamp _ _ m) W P V W0 G) as (P1 & G1 & H1). specialize (H1 Fm b B H).
    assert (IV : 0 < / v) by (apply Rinv_0_lt_compat; exact V). change (fuse (drift k) s (measured k m)) with (fuse (drift k) s (given k m, v, p_stamp _ _ m)).
    assert (B1 : 0 <= b * (W / (W + / v))) by (apply Rmult_le_pos; [exact B|apply Rlt_le, Rdiv_lt_0_compat; lra]).
    destruct (IH Ul Fl _ B1 _ (W + / v) ltac:(lra) P1 G1 H1) as (P2 & G2 & H2). pose proof (proj1 (weight_pos k l Hk Ul)) as WL.
    change (weight_of k (m :: l)) with (/ v + weight_of k l). split; [exact P2|]. split; [rewrite <- Rplus_assoc; exact G2|].
    replace (b * (W / (W + (/ v + weight_of k l)))) with (b * (W / (W + / v)) * ((W + / v) / (W + / v + weight_of k l))); [exact H2|]. set (i := / v) in *. field. split; lra.
Qed.
Lemma tracks_forget k c eps b vmax gap l : (2 <= k <= 4)%nat -> 0 <= b -> 0 <= gap -> Forall uncertain l -> Forall (fun m => Rabs (given k m - c) <= eps /\ variance k m <= vmax) l ->
  forall s m0, apart gap m0 l -> snd s = p_stamp _ _ m0 -> 0 < snd (fst s) -> Rabs (mean s - c) <= eps + b ->
  Rabs (mean (fold_left (fuse (drift k)) (map (measured k) l) s) - c) <= eps + b * (vmax / (vmax + (drift k * gap) ^ 2)) ^ length l.
Proof.
  intros Hk B G0 U F. revert b B. induction l as [|m l IH]; intros b B s m0 AP ST P H; [cbn; lra|].
  inversion U as [|? ? Um Ul]; subst. inversion F as [|? ? [Fm Vm] Fl]; subst. cbn [map fold_left length]. destruct AP as [AP1 AP2]. set (v := variance k m) in *. pose proof (Um k Hk : 0 < v) as V.
  change (fuse (drift k) s (measured k m)) with (fuse (drift k) s (given k m, v, p_stamp _ _ m)). set (rho := vmax / (vmax + (drift k * gap) ^ 2)) in *.
  assert (R0 : 0 <= rho) by (unfold rho; pose proof (pow2_ge_0 (drift k * gap)); apply Rlt_le, Rdiv_lt_0_compat; lra).
  rewrite <- ST in AP1. pose proof (forgets (drift k) c eps s (given k m) v (p_stamp _ _ m) vmax gap P (conj V Vm) G0 AP1 Fm b B H) as H1. fold rho in H1.
  destruct (fuse_step (drift k) c eps s (given k m) v (p_stamp _ _ m) P V) as (p' & _ & L & E & T & _ & _).
  replace (b * rho ^ S (length l)) with (b * rho * rho ^ length l) by (cbn; ring). apply (IH Ul Fl (b * rho) (Rmult_le_pos _ _ B R0) _ m); [exact AP2|exact T| |exact H1].
  change (0 < snd (fst (fuse (drift k) s (given k m, v, p_stamp _ _ m)))). change (D exact) with R in *. rewrite E. apply Rdiv_lt_0_compat; [apply Rmult_lt_0_compat; lra|lra].
Qed.
(** What the filter holds after the older poses. *)
Lemma after_old k c d old : (2 <= k <= 4)%nat -> old <> [] -> Forall uncertain old -> Forall (fun m => Rabs (given k m - c) <= d) old ->
  exists m0 l, old = m0 :: l /\ let s := fold_left (fuse (drift k)) (map (measured k) l) (measured k m0) in
    0 < snd (fst s) /\ 1 <= weight_of k old * snd (fst s) /\ Rabs (mean s - c) <= d /\ snd s = p_stamp _ _ (last old m0).
Proof.
  intros Hk NE U F. destruct old as [|m0 l]; [congruence|]. exists m0, l. split; [reflexivity|]. inversion U as [|? ? U0 Ul]; subst. inversion F as [|? ? F0 Fl]; subst. pose proof (U0 k Hk) as V.
  assert (G : 1 <= / variance k m0 * snd (fst (measured k m0))) by (cbn; rewrite Rinv_l by lra; lra).
  assert (H0 : Rabs (mean (measured k m0) - c) <= d + 0) by (rewrite Rplus_0_r; exact F0).
  destruct (tracks_share k c d 0 l Hk (Rle_refl 0) Ul Fl (measured k m0) (/ variance k m0) (Rinv_0_lt_compat _ V) V G H0) as (P & W & H). cbv zeta. split; [exact P|]. split; [exact W|]. split; [lra|].
  clear. destruct l as [|m1 l] using rev_ind; [reflexivity|]. rewrite map_app, fold_left_app. cbn [map fold_left]. rewrite app_comm_cons, last_last.
  destruct (fold_left _ _ _) as [[x p] t]. reflexivity.
Qed.

(** C122: if the recent poses report a height (roll, pitch) within [eps] of [c], the published
    one deviates from [c] by no more than [eps] and the share of the older poses in the total
    weight of what they deviate, whatever the stamps. *)
Theorem C122_share : forall k c eps d h old recent n t1 t2 t3 t4 t5 n', (2 <= k <= 4)%nat -> 0 <= d ->
  poses_of h = old ++ recent -> old <> [] -> Forall uncertain (old ++ recent) ->
  Forall (fun m => Rabs (given k m - c) <= eps + d) old -> Forall (fun m => Rabs (given k m - c) <= eps) recent ->
  run h = Ok n -> step n (EvTimer _ _ t1 t2 t3 t4 t5) = Ok n' ->
  exists published, n_out _ _ _ n' = n_out _ _ _ n ++ published /\
    Forall (fun o => Rabs (entry exact k o - c) <= eps + d * (weight_of k old / (weight_of k old + weight_of k recent))) published.
Proof.
  intros k c eps d h old recent n t1 t2 t3 t4 t5 n' Hk D0 EP NE U FO FR E T. rewrite <- EP in U.
  destruct (C98_textbook sin cos atan2 neg Orient get_yaw get_roll get_pitch K prm k h n t1 t2 t3 t4 t5 n' Hk U E T) as (pub & O & FP). exists pub. split; [exact O|].
  eapply Forall_impl; [|exact FP]. intros o (s & TR & ->). rewrite EP in U, TR. apply Forall_app in U. destruct U as [UO UR].
  destruct (after_old k c (eps + d) old Hk NE UO FO) as (m0 & l & -> & P & W & H & _). cbn [app map tracks] in TR. rewrite map_app, fold_left_app in TR. subst s.
  destruct (tracks_share k c eps d recent Hk D0 UR FR _ _ (proj2 (weight_pos k (m0 :: l) Hk UO) NE) P W H) as (_ & _ & R). exact R.
Qed.
(** C122: they are forgotten by a fixed factor per pose if time passes between the poses. *)
Theorem C122_forgotten : forall k c eps d vmax gap h old recent m0 n t1 t2 t3 t4 t5 n', (2 <= k <= 4)%nat -> 0 <= d -> 0 <= gap ->
  poses_of h = (old ++ [m0]) ++ recent -> Forall uncertain (poses_of h) -> apart gap m0 recent ->
  Forall (fun m => Rabs (given k m - c) <= eps + d) (old ++ [m0]) -> Forall (fun m => Rabs (given k m - c) <= eps /\ variance k m <= vmax) recent ->
  run h = Ok n -> step n (EvTimer _ _ t1 t2 t3 t4 t5) = Ok n' ->
  exists published, n_out _ _ _ n' = n_out _ _ _ n ++ published /\
    Forall (fun o => Rabs (entry exact k o - c) <= eps + d * (vmax / (vmax + (drift k * gap) ^ 2)) ^ length recent) published.
Proof.
  intros k c eps d vmax gap h old recent m0 n t1 t2 t3 t4 t5 n' Hk D0 G0 EP U AP FO FR E T.
  destruct (C98_textbook sin cos atan2 neg Orient get_yaw get_roll get_pitch K prm k h n t1 t2 t3 t4 t5 n' Hk U E T) as (pub & O & FP). exists pub. split; [exact O|].
  eapply Forall_impl; [|exact FP]. intros o (s & TR & ->). rewrite EP in U, TR. apply Forall_app in U. destruct U as [UO UR].
  assert (NE : old ++ [m0] <> []) by (destruct old; discriminate).
  destruct (after_old k c (eps + d) (old ++ [m0]) Hk NE UO FO) as (m1 & l & EO & P & _ & H & S). rewrite last_last in S. rewrite EO in TR. cbn [app map tracks] in TR. rewrite map_app, fold_left_app in TR. subst s.
  exact (tracks_forget k c eps d vmax gap recent Hk D0 G0 UR FR _ m0 AP S P H).
Qed.
(** C122: sooner or later, in number of poses, the older poses have no influence to speak of,
    however wrong they are, if the variances of the recent ones are bounded. *)
Theorem C122_settles : forall k d W vmax e, (2 <= k <= 4)%nat -> 0 <= d -> 0 < e -> 0 < vmax -> exists N, forall c eps h old recent n t1 t2 t3 t4 t5 n',
  poses_of h = old ++ recent -> old <> [] -> Forall uncertain (old ++ recent) -> weight_of k old <= W -> (N <= length recent)%nat ->
  Forall (fun m => Rabs (given k m - c) <= eps + d) old -> Forall (fun m => Rabs (given k m - c) <= eps /\ variance k m <= vmax) recent ->
  run h = Ok n -> step n (EvTimer _ _ t1 t2 t3 t4 t5) = Ok n' ->
  exists published, n_out _ _ _ n' = n_out _ _ _ n ++ published /\ Forall (fun o => Rabs (entry exact k o - c) <= eps + e) published.
Proof.
  intros k d W vmax e Hk D0 E0 V0. destruct (archimed (d * W * vmax / e)) as [AR _]. exists (Z.to_nat (up (d * W * vmax / e))).
  intros c eps h old recent n t1 t2 t3 t4 t5 n' EP NE U WO LN FO FR E T.
  destruct (C122_share k c eps d h old recent n t1 t2 t3 t4 t5 n' Hk D0 EP NE U FO) as (pub & O & FP); auto; [eapply Forall_impl; [|exact FR]; intros m [H _]; exact H|].
  exists pub. split; [exact O|]. eapply Forall_impl; [|exact FP]. intros o H. cbn beta in H. eapply Rle_trans; [exact H|]. apply Rplus_le_compat_l.
  apply Forall_app in U. destruct U as [UO UR]. pose proof (proj2 (weight_pos k old Hk UO) NE) as W0. set (w := weight_of k old) in *.
  assert (WR : INR (length recent) / vmax <= weight_of k recent).
  { clear - UR FR Hk V0. induction recent as [|m l IH]; [cbn; lra|]. inversion UR as [|? ? Um Ul]; subst. inversion FR as [|? ? [_ Vm] Fl]; subst. specialize (IH Ul Fl).
    change (weight_of k (m :: l)) with (/ variance k m + weight_of k l). cbn [length]. rewrite S_INR. pose proof (Rinv_le_contravar _ _ (Um k Hk) Vm). unfold Rdiv in *. lra. }
  assert (NR : d * W * vmax / e <= INR (length recent)).
  { apply Rle_trans with (IZR (up (d * W * vmax / e))); [lra|]. rewrite INR_IZR_INZ. apply IZR_le. lia. }
  pose proof (proj1 (weight_pos k recent Hk UR)) as R0. set (r := weight_of k recent) in *.
  apply Rmult_le_reg_r with (w + r); [lra|]. replace (d * (w / (w + r)) * (w + r)) with (d * w) by (field; lra).
  assert (d * W <= e * r).
  { apply Rle_trans with (e * (INR (length recent) / vmax)); [|apply Rmult_le_compat_l; lra]. apply Rmult_le_reg_r with (vmax / e); [apply Rdiv_lt_0_compat; lra|].
    replace (e * (INR (length recent) / vmax) * (vmax / e)) with (INR (length recent)) by (field; lra). replace (d * W * (vmax / e)) with (d * W * vmax / e) by (field; lra). exact NR. }
  assert (d * w <= d * W) by (apply Rmult_le_compat_l; assumption). nra.
Qed.
End Node.

(** ** A concrete case *)
(** The initial pose and one more report height 9, the next two, two and four seconds later,
    height 3, all with variance 1. *)
Definition settling : list (event exact R) :=
  [EvInitialPose _ _ (high_pose 0 9) (Some ex_tf); tick_at 20000000; EvPose _ _ (high_pose 1000000000 9); tick_at 1000000000;
   EvPose _ _ (high_pose 3000000000 3); EvPose _ _ (high_pose 5000000000 3); tick_at 5000000000].
Notation rr := (fun r : R => r).
Definition olds := [high_pose 0 9; high_pose 1000000000 9].
Definition recents := [high_pose 3000000000 3; high_pose 5000000000 3].
Example ex_C122 : (exists n, ex_run (removelast settling) = Ok n) /\ (exists n, ex_run settling = Ok n) /\ poses_of _ _ settling = olds ++ recents /\ Forall (uncertain R) (olds ++ recents) /\
  apart R 2 (high_pose 1000000000 9) recents /\
  Forall (fun m => Rabs (given exact R rr rr 2 m - 3) <= 0 + 6) olds /\ Forall (fun m => Rabs (given exact R rr rr 2 m - 3) <= 0 /\ variance exact R 2 m <= 1) recents /\
  weight_of R 2 olds / (weight_of R 2 olds + weight_of R 2 recents) = 1 / 2 /\ (1 / (1 + (drift 2 * 2) ^ 2)) ^ length recents = 1 / 25.
Proof.
  split; [|split].
  1,2: apply ex_accepts; cbn; unfold good_pose; cbn; repeat split; try lia; discriminate.
  split; [reflexivity|]. split; [repeat constructor; apply ones_uncertain|]. split; [|split; [|split; [|split]]].
  - cbn [apart recents p_stamp high_pose]. replace (3000000000 - 1000000000)%Z with 2000000000%Z by lia. replace (5000000000 - 3000000000)%Z with 2000000000%Z by lia.
    replace (2000000000 / 1000000000) with 2 by field. rewrite Rabs_pos_eq by lra. repeat split; lra.
  - repeat constructor; cbn; rewrite Rabs_pos_eq; lra.
  - assert (Z : Rabs (3 - 3) <= 0) by (rewrite Rminus_diag_eq by reflexivity; rewrite Rabs_R0; lra). unfold recents. repeat (apply Forall_cons; [split; [exact Z|cbn; lra]|]). apply Forall_nil.
  - cbn. field.
  - cbn. field.
Qed.
Print Assumptions C122_share.
Print Assumptions C122_forgotten.
Print Assumptions C122_settles.
