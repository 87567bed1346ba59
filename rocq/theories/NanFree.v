(** The order of doubles is a strict weak order away from NaN. *)
From Coq Require Import ZArith Reals List Bool Lia Lra.
From Flocq Require Import Core IEEE754.BinarySingleNaN Mult_error.
From Verif Require Import Base Arith Spec FloatLemmas.
Import ListNotations.
Open Scope R_scope.

(** A real with the same order: infinities beyond every finite value. *)
Definition key (x : b64) : R :=
  match x with B754_infinity s => if s then - bpow radix2 1024 else bpow radix2 1024 | _ => val x end.

Lemma key_fin x : is_finite x = true -> key x = val x.
Proof. destruct x; simpl; intros; auto; discriminate. Qed.

Lemma key_ltb x y : is_nan x = false -> is_nan y = false ->
  Bltb x y = Rlt_bool (key x) (key y).
Proof.
  intros Hx Hy.
  assert (B : forall z : b64, is_finite z = true -> - bpow radix2 1024 < val z < bpow radix2 1024).
  { intros z Hz. pose proof (abs_B2R_lt_emax 53 1024 z) as G. apply Rabs_def2 in G. unfold val. lra. }
  pose proof (bpow_gt_0 radix2 1024) as P.
  destruct (is_finite x) eqn:Fx, (is_finite y) eqn:Fy.
  - rewrite (key_fin x Fx), (key_fin y Fy). apply ltb64_ok; auto.
  - rewrite (key_fin x Fx). destruct (B x Fx).
    destruct y as [|[]| |]; try discriminate; cbn [key].
    + rewrite Rlt_bool_false by lra. destruct x; try discriminate; reflexivity.
    + rewrite Rlt_bool_true by lra. destruct x; try discriminate; reflexivity.
  - rewrite (key_fin y Fy). destruct (B y Fy).
    destruct x as [|[]| |]; try discriminate; cbn [key].
    + rewrite Rlt_bool_true by lra. destruct y; try discriminate; reflexivity.
    + rewrite Rlt_bool_false by lra. destruct y; try discriminate; reflexivity.
  - destruct x as [|[]| |]; try discriminate; destruct y as [|[]| |]; try discriminate; cbn [key];
      first [rewrite Rlt_bool_true by lra | rewrite Rlt_bool_false by lra]; reflexivity.
Qed.

Lemma nan_free_swo (l : list b64) : Forall (fun x => is_nan x = false) l ->
  strict_weak_order (fun x y : b64 => Bltb x y) l.
Proof.
  rewrite Forall_forall. intros H. unfold strict_weak_order.
  assert (T : forall a b, In a l -> In b l -> (Bltb a b = true <-> key a < key b)).
  { intros a b Ha Hb. rewrite key_ltb by auto. destruct (Rlt_bool_spec (key a) (key b)); split; intros; auto; try discriminate. lra. }
  assert (Fa : forall a b, In a l -> In b l -> (Bltb a b = false <-> key b <= key a)).
  { intros a b Ha Hb. rewrite key_ltb by auto. destruct (Rlt_bool_spec (key a) (key b)); split; intros; auto; try discriminate. lra. }
  split; [|split].
  - intros a Ha. apply Fa; auto. lra.
  - intros a b c Ha Hb Hc H1 H2. apply T in H1, H2; auto. apply T; auto. lra.
  - intros a b c Ha Hb Hc H1 H2 H3 H4. apply Fa in H1, H2, H3, H4; auto. split; apply Fa; auto; lra.
Qed.


Lemma fmt_double x : fmt x -> fmt (2 * x).
Proof.
  unfold fmt. rewrite fexp_eq. intros H. replace (2 * x) with (x * bpow radix2 1) by (simpl; lra).
  apply mult_bpow_pos_exact_FLT; auto. lia.
Qed.

(** The double mean of two doubles below 2^1022 in magnitude lies between them. *)
Lemma mean_between (a b : b64) : fin a -> fin b ->
  Rabs (val a) <= bpow radix2 1022 -> Rabs (val b) <= bpow radix2 1022 -> val a <= val b ->
  let m := div64 (add64 a b) (of_Z64 2) in
  let m' := div64 (add64 b a) (of_Z64 2) in
  fin m /\ val a <= val m <= val b /\ fin m' /\ val a <= val m' <= val b.
Proof.
  intros Ha Hb Ba Bb Hab.
  assert (P : bpow radix2 1023 = 2 * bpow radix2 1022).
  { change 1023%Z with (1 + 1022)%Z. rewrite bpow_plus. reflexivity. }
  assert (P2 : 0 < bpow radix2 1022) by apply bpow_gt_0.
  apply Rabs_le_inv in Ba, Bb.
  assert (G : forall x y, fin x -> fin y -> (val x = val a /\ val y = val b \/ val x = val b /\ val y = val a) ->
    fin (div64 (add64 x y) (of_Z64 2)) /\ val a <= val (div64 (add64 x y) (of_Z64 2)) <= val b).
  { intros x y Fx Fy Hxy.
    assert (S : val x + val y = val a + val b) by (destruct Hxy as [[-> ->]|[-> ->]]; lra).
    destruct (add64_ok x y 1023 Fx Fy) as [A1 A2]; [lia|rewrite S, P; apply Rabs_le; lra|].
    assert (A3 : 2 * val a <= val (add64 x y) <= 2 * val b).
    { rewrite A1, S. apply rnd_between; [apply fmt_double, fmt_val|apply fmt_double, fmt_val|lra]. }
    destruct (of_Z64_ok 2) as [T1 T2]; [simpl; lia|].
    destruct (div64_ok (add64 x y) (of_Z64 2) 1022 A2) as [D1 D2].
    - rewrite T1. lra.
    - lia.
    - rewrite T1. apply Rabs_le. lra.
    - split; auto. rewrite D1, T1. apply rnd_between; try apply fmt_val. lra. }
  cbv zeta. destruct (G a b Ha Hb ltac:(auto)). destruct (G b a Hb Ha ltac:(auto)). auto.
Qed.
