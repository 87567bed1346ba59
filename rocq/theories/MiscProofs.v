(** Range over an interval, colours. *)
From Coq Require Import List ZArith Reals Bool Lia Lra.
From Verif Require Import Base Arith ExtractModel Spec FillProofs NeighborProofs AngleProofs OcclusionProofs.
Import ListNotations.
Open Scope Z_scope.

Lemma range_interval_from_zero A m e rs : 0 <= e ->
  range_interval A m 0 e = Ok rs ->
  zlen rs = e /\ forall k, 0 <= k < e -> exists v, get rs k = Some v /\ range_at A m k = Ok v.
Proof.
  intros He H. unfold range_interval in H. rewrite Z.sub_0_r in H.
  destruct (e <? 0) eqn:E; [discriminate|]. apply mapM_spec in H. destruct H as [HL H].
  unfold zrange in HL. rewrite map_length, seq_length in HL.
  split; [unfold zlen; lia|]. intros k Hk.
  destruct (H (Z.to_nat k) k) as [v [H1 H2]].
  - unfold zrange. rewrite nth_error_map, nth_error_nth' with (d := O) by (rewrite seq_length; lia).
    rewrite seq_nth by lia. simpl. f_equal. lia.
  - exists v. split; auto. unfold get. destruct (k <? 0) eqn:E2; [lia|]. auto.
Qed.

Open Scope R_scope.

Lemma Int_part_mono x y : x <= y -> (Int_part x <= Int_part y)%Z.
Proof.
  intros H. destruct (base_Int_part x) as [A1 A2], (base_Int_part y) as [B1 B2].
  apply Z.lt_succ_r. apply lt_IZR. unfold Z.succ. rewrite plus_IZR. lra.
Qed.
Lemma Int_part_IZR z : Int_part (IZR z) = z.
Proof.
  destruct (base_Int_part (IZR z)) as [A1 A2].
  apply Z.le_antisymm.
  - apply le_IZR. auto.
  - apply Z.lt_succ_r. apply lt_IZR. unfold Z.succ. rewrite plus_IZR. lra.
Qed.

Lemma Rtrunc_nonneg x : 0 <= x -> Rtrunc x = Int_part x.
Proof. intros H. unfold Rtrunc. destruct (Rlt_dec x 0); [lra|auto]. Qed.

(** with min = 0 the colour is as intended *)
Lemma value_to_color_zero (v mx : R) : 0 < mx ->
  exists c, value_to_color exact v 0 mx = Ok c /\ (0 <= c <= 255)%Z /\
    c = Int_part (255 * (Rmax 0 (Rmin v mx)) / mx).
Proof.
  intros Hm. unfold value_to_color. cbn [exact d_ltb d_trunc d_div d_mul d_of_Z d_sub D].
  destruct (Rltb mx 0) eqn:E; [apply Rltb_spec in E; lra|].
  replace (mx - 0) with mx by lra.
  assert (E2 : (if Rltb v 0 then 0 else if Rltb mx v then mx else v) = Rmax 0 (Rmin v mx)).
  { destruct (Rltb v 0) eqn:E1; [apply Rltb_spec in E1|apply rltb_false in E1].
    - rewrite Rmin_left, Rmax_left by lra. auto.
    - destruct (Rltb mx v) eqn:E3; [apply Rltb_spec in E3|apply rltb_false in E3].
      + rewrite Rmin_right, Rmax_right by lra. auto.
      + rewrite Rmin_left, Rmax_right by lra. auto. }
  cbv zeta. rewrite E2.
  assert (Hv : 0 <= Rmax 0 (Rmin v mx) <= mx).
  { split; [apply Rmax_l|]. apply Rmax_lub; [lra|apply Rmin_r]. }
  revert Hv. generalize (Rmax 0 (Rmin v mx)). intros w Hw.
  assert (Hq : 0 <= 255 * w / mx <= 255).
  { split; [apply Rmult_le_pos; [lra|left; apply Rinv_0_lt_compat; lra]|].
    apply (Rmult_le_reg_r mx); auto. unfold Rdiv. rewrite Rmult_assoc, Rinv_l by lra. lra. }
  rewrite Rtrunc_nonneg by apply Hq.
  assert (Hc : (0 <= Int_part (255 * w / mx) <= 255)%Z).
  { split.
    - apply Z.le_trans with (Int_part (IZR 0)); [rewrite Int_part_IZR; lia|apply Int_part_mono; apply Hq].
    - apply Z.le_trans with (Int_part (IZR 255)); [apply Int_part_mono; apply Hq|rewrite Int_part_IZR; lia]. }
  exists (Int_part (255 * w / mx)). split; [|split; auto].
  destruct ((0 <=? _)%Z && _) eqn:Eb; auto.
  apply andb_false_iff in Eb. destruct Eb as [Eb|Eb]; apply Z.leb_gt in Eb; lia.
Qed.

Lemma value_to_color_min (mx : R) : 0 < mx -> value_to_color exact 0 0 mx = Ok 0%Z.
Proof.
  intros H. destruct (value_to_color_zero 0 mx H) as [c [-> [_ ->]]]. f_equal.
  rewrite Rmin_left, Rmax_left by lra. replace (255 * 0 / mx) with 0 by (field; lra). apply (Int_part_IZR 0).
Qed.
Lemma value_to_color_max (mx : R) : 0 < mx -> value_to_color exact mx 0 mx = Ok 255%Z.
Proof.
  intros H. destruct (value_to_color_zero mx mx H) as [c [-> [_ ->]]]. f_equal.
  rewrite Rmin_left, Rmax_right by lra. replace (255 * mx / mx) with 255 by (field; lra). apply (Int_part_IZR 255).
Qed.
Lemma value_to_color_mono (v w mx : R) : 0 < mx -> v <= w -> exists a b,
  value_to_color exact v 0 mx = Ok a /\ value_to_color exact w 0 mx = Ok b /\ (0 <= a <= b)%Z /\ (b <= 255)%Z.
Proof.
  intros H Hvw. destruct (value_to_color_zero v mx H) as [a [Ha [Ha1 Ha2]]].
  destruct (value_to_color_zero w mx H) as [b [Hb [Hb1 Hb2]]].
  exists a, b. repeat split; auto; try lia. subst. apply Int_part_mono.
  unfold Rdiv. apply Rmult_le_compat_r; [left; apply Rinv_0_lt_compat; auto|].
  apply Rmult_le_compat_l; [lra|]. apply Rle_max_compat_l. apply Rle_min_compat_r. auto.
Qed.
