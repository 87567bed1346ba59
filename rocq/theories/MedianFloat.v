(** The median in double arithmetic. *)
From Coq Require Import List ZArith Bool Arith Lia Lra Permutation Reals.
From Flocq Require Import Core IEEE754.BinarySingleNaN.
From Verif Require Import Base Arith Spec LibModel SpecLib LibProofs FloatLemmas NanFree.
Import ListNotations.
Open Scope nat_scope.

Lemma median_double_halves acosf (sel : selector (ieee acosf)) (v : list b64) :
  valid_nth (ieee acosf) sel -> v <> [] ->
  Forall (fun x : b64 => is_finite x = true /\ (Rabs (B2R x) <= bpow radix2 1022)%R) v ->
  exists m : b64, median (ieee acosf) sel v = Ok m /\ is_finite m = true /\
    2 * count (fun y : b64 => Bltb y m) v <= length v /\ 2 * count (fun y : b64 => Bltb m y) v <= length v.
Proof.
  intros H Hv HF. rewrite Forall_forall in HF.
  assert (HN : Forall (fun x => is_nan x = false) v).
  { apply Forall_forall. intros x Hx. destruct (HF x Hx) as [F _]. destruct x; simpl in *; congruence. }
  assert (L : forall x y : b64, is_finite x = true -> is_finite y = true -> (Bltb x y = true <-> (val x < val y)%R)).
  { intros x y Fx Fy. rewrite (ltb64_ok x y Fx Fy). destruct (Rlt_bool_spec (val x) (val y)); split; intros; auto; try discriminate.
    exfalso; lra. }
  destruct (median_cases (ieee acosf) sel H v (nan_free_swo v HN)) as
    [[E _]|[[n [x [HL [E [I [H1 H2]]]]]]|[n [e0 [e1 [HL [Hn [E [I0 [I1 [H1 [H2 [H3 H4]]]]]]]]]]]]].
  - contradiction.
  - exists x. split; auto. split; [apply HF; auto|].
    assert (HL' : @length b64 v = 2 * n + 1) by exact HL.
    assert (H1' : count (fun y : b64 => Bltb y x) v <= n) by exact H1.
    assert (H2' : count (fun y : b64 => Bltb x y) v <= n) by exact H2. split; lia.
  - destruct (HF e0 I0) as [F0 B0]. destruct (HF e1 I1) as [F1 B1].
    exists (div64 (add64 e0 e1) (of_Z64 2)). split; auto.
    assert (HL' : @length b64 v = 2 * n) by exact HL.
    assert (H1' : count (fun y : b64 => Bltb y e0) v <= n) by exact H1.
    assert (H2' : count (fun y : b64 => Bltb e0 y) v <= n - 1) by exact H2.
    assert (H3' : count (fun y : b64 => Bltb y e1) v <= n - 1) by exact H3.
    assert (H4' : count (fun y : b64 => Bltb e1 y) v <= n) by exact H4.
    assert (C : forall lo hi : b64, is_finite lo = true -> is_finite hi = true ->
      forall m : b64, is_finite m = true -> (val lo <= val m <= val hi)%R ->
      count (fun y : b64 => Bltb y m) v <= count (fun y : b64 => Bltb y hi) v /\
      count (fun y : b64 => Bltb m y) v <= count (fun y : b64 => Bltb lo y) v).
    { intros lo hi Fl Fh m Fm Hm. split; apply count_mono; intros y Hy Hlt; destruct (HF y Hy) as [Fy _].
      - apply L in Hlt; auto. apply L; auto. lra.
      - apply L in Hlt; auto. apply L; auto. lra. }
    destruct (Rle_lt_dec (val e0) (val e1)) as [Hc|Hc].
    + destruct (mean_between e0 e1 F0 F1 B0 B1 Hc) as [Fm [Bm _]].
      destruct (C e0 e1 F0 F1 _ Fm Bm). split; auto. lia.
    + destruct (mean_between e1 e0 F1 F0 B1 B0 ltac:(lra)) as [_ [_ [Fm Bm]]].
      destruct (C e1 e0 F1 F0 _ Fm Bm). split; auto. lia.
Qed.
