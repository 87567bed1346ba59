(** Block boundaries in double arithmetic (extraction/src/index_range.cpp). *)
From Coq Require Import ZArith Reals Bool Lia Lra Psatz List.
From Flocq Require Import Core.
From Verif Require Import Base Arith ExtractModel FloatLemmas.
Open Scope R_scope.

Section Boundary.
Variable acosf : b64 -> b64.
Notation A := (ieee acosf).

(** the double computed by Boundary before the cast *)
Definition bval (s e n j : Z) : b64 :=
  add64 (mul64 (of_Z64 s) (sub64 (of_Z64 1) (div64 (of_Z64 j) (of_Z64 n))))
        (div64 (mul64 (of_Z64 e) (of_Z64 j)) (of_Z64 n)).

Definition ideal (s e n j : Z) : R := IZR s + IZR (e - s) * IZR j / IZR n.

Lemma frac01 j n : (0 <= j <= n)%Z -> (1 <= n)%Z -> 0 <= IZR j / IZR n <= 1.
Proof.
  intros Hj Hn. assert (0 < IZR n) by (apply IZR_lt; lia).
  assert (0 <= IZR j) by (apply IZR_le; lia). assert (IZR j <= IZR n) by (apply IZR_le; lia).
  split.
  - apply Rmult_le_pos; [auto|]. left. apply Rinv_0_lt_compat; auto.
  - apply Rmult_le_reg_r with (IZR n); auto. unfold Rdiv. rewrite Rmult_assoc, Rinv_l by lra. lra.
Qed.

Lemma bval_spec s e n j :
  (0 <= s <= e)%Z -> (e < 2 ^ 31)%Z -> (1 <= n)%Z -> (e * n <= 2 ^ 53)%Z -> (n <= 2 ^ 31)%Z ->
  (0 <= j <= n)%Z ->
  fin (bval s e n j) /\
  Rabs (val (bval s e n j) - ideal s e n j) <= bpow radix2 (-19) /\
  (j = 0%Z -> val (bval s e n j) = IZR s) /\
  (j = n -> val (bval s e n j) = IZR e).
Proof.
  intros Hs He Hn Hen Hn2 Hj.
  destruct (of_Z64_ok s) as [Vs Fs]; [lia|]. destruct (of_Z64_ok e) as [Ve Fe]; [lia|].
  destruct (of_Z64_ok n) as [Vn Fn]; [lia|]. destruct (of_Z64_ok j) as [Vj Fj]; [lia|].
  destruct (of_Z64_ok 1) as [V1 F1]; [lia|].
  pose proof (frac01 j n Hj Hn) as Hf.
  assert (Hn0 : 0 < IZR n) by (apply IZR_lt; lia).
  assert (Hs0 : 0 <= IZR s) by (apply IZR_le; lia).
  assert (Hse : IZR s <= IZR e) by (apply IZR_le; lia).
  assert (He31 : IZR e <= 2147483648) by (apply IZR_le; lia).
  assert (B0 : bpow radix2 0 = 1) by reflexivity.
  assert (B31 : bpow radix2 31 = 2147483648) by reflexivity.
  assert (B32 : bpow radix2 32 = 4294967296) by reflexivity.
  assert (B53 : bpow radix2 53 = 9007199254740992) by reflexivity.
  assert (Bm53 : bpow radix2 (0 - 53) = / 9007199254740992) by reflexivity.
  assert (Bm22 : bpow radix2 (31 - 53) = / 4194304) by reflexivity.
  assert (Bm21 : bpow radix2 (32 - 53) = / 2097152) by reflexivity.
  assert (Bm19 : bpow radix2 (-19) = / 524288) by reflexivity.
  (* a = j/n *)
  destruct (div64_ok (of_Z64 j) (of_Z64 n) 0) as [Va Fa]; auto; try lia.
  { rewrite Vn. lra. } { rewrite Vj, Vn, B0, Rabs_pos_eq; lra. }
  rewrite Vj, Vn in Va.
  assert (Ea : Rabs (rnd (IZR j / IZR n) - IZR j / IZR n) <= / 9007199254740992).
  { rewrite <- Bm53. apply rnd_err; [lia|]. rewrite B0, Rabs_pos_eq; lra. }
  assert (Ha01 : 0 <= rnd (IZR j / IZR n) <= 1).
  { apply rnd_between; [apply (fmt_IZR 0); lia|apply (fmt_IZR 1); lia|lra]. }
  set (a := rnd (IZR j / IZR n)) in *.
  (* b = 1 - a *)
  destruct (sub64_ok (of_Z64 1) (div64 (of_Z64 j) (of_Z64 n)) 0) as [Vb Fb]; auto; try lia.
  { rewrite V1, Va, B0, Rabs_pos_eq; lra. }
  rewrite V1, Va in Vb.
  assert (Eb : Rabs (rnd (1 - a) - (1 - a)) <= / 9007199254740992).
  { rewrite <- Bm53. apply rnd_err; [lia|]. rewrite B0, Rabs_pos_eq; lra. }
  assert (Hb01 : 0 <= rnd (1 - a) <= 1).
  { apply rnd_between; [apply (fmt_IZR 0); lia|apply (fmt_IZR 1); lia|lra]. }
  set (b := rnd (1 - a)) in *.
  (* c = s * b *)
  assert (Hsb : 0 <= IZR s * b <= 2147483648) by nra.
  destruct (mul64_ok (of_Z64 s) (sub64 (of_Z64 1) (div64 (of_Z64 j) (of_Z64 n))) 31) as [Vc Fc]; auto; try lia.
  { rewrite Vs, Vb, B31, Rabs_pos_eq; lra. }
  rewrite Vs, Vb in Vc.
  assert (Ec : Rabs (rnd (IZR s * b) - IZR s * b) <= / 4194304).
  { rewrite <- Bm22. apply rnd_err; [lia|]. rewrite B31, Rabs_pos_eq; lra. }
  assert (Hc : 0 <= rnd (IZR s * b) <= 2147483648).
  { apply rnd_between; [apply (fmt_IZR 0); lia|apply (fmt_IZR 2147483648); lia|lra]. }
  set (c := rnd (IZR s * b)) in *.
  (* p = e * j exactly *)
  assert (Hejz : (0 <= e * j <= 2 ^ 53)%Z) by nia.
  assert (Hej : 0 <= IZR e * IZR j <= 9007199254740992).
  { rewrite <- mult_IZR. split; apply IZR_le; lia. }
  destruct (mul64_ok (of_Z64 e) (of_Z64 j) 53) as [Vp Fp]; auto; try lia.
  { rewrite Ve, Vj, B53, Rabs_pos_eq; lra. }
  rewrite Ve, Vj in Vp. rewrite rnd_exact in Vp.
  2: { rewrite <- mult_IZR. apply fmt_IZR. lia. }
  (* q = p / n *)
  assert (Hq0 : IZR e * IZR j / IZR n = IZR e * (IZR j / IZR n)) by (unfold Rdiv; ring).
  assert (He0 : 0 <= IZR e) by lra.
  assert (Hqb : 0 <= IZR e * IZR j / IZR n <= 2147483648) by (rewrite Hq0; nra).
  destruct (div64_ok (mul64 (of_Z64 e) (of_Z64 j)) (of_Z64 n) 31) as [Vq Fq]; auto; try lia.
  { rewrite Vn; lra. } { rewrite Vp, Vn, B31, Rabs_pos_eq; lra. }
  rewrite Vp, Vn in Vq.
  assert (Eq_ : Rabs (rnd (IZR e * IZR j / IZR n) - IZR e * IZR j / IZR n) <= / 4194304).
  { rewrite <- Bm22. apply rnd_err; [lia|]. rewrite B31, Rabs_pos_eq; lra. }
  assert (Hq : 0 <= rnd (IZR e * IZR j / IZR n) <= 2147483648).
  { apply rnd_between; [apply (fmt_IZR 0); lia|apply (fmt_IZR 2147483648); lia|lra]. }
  set (q := rnd (IZR e * IZR j / IZR n)) in *.
  (* v = c + q *)
  destruct (add64_ok _ _ 32 Fc Fq) as [Vv Fv]; [lia| |].
  { rewrite Vc, Vq, B32, Rabs_pos_eq; lra. }
  rewrite Vc, Vq in Vv. fold (bval s e n j) in Vv, Fv.
  assert (Ev : Rabs (rnd (c + q) - (c + q)) <= / 2097152).
  { rewrite <- Bm21. apply rnd_err; [lia|]. rewrite B32, Rabs_pos_eq; lra. }
  split; [exact Fv|]. split; [|split].
  - rewrite Vv, Bm19. unfold ideal. rewrite minus_IZR.
    replace (IZR s + (IZR e - IZR s) * IZR j / IZR n)
      with (IZR s * (1 - IZR j / IZR n) + IZR e * IZR j / IZR n) by (unfold Rdiv; ring).
    set (f := IZR j / IZR n) in *.
    assert (Hsb2 : Rabs (IZR s * b - IZR s * (1 - f)) <= / 2097152).
    { replace (IZR s * b - IZR s * (1 - f)) with (IZR s * ((b - (1 - a)) + (f - a))) by ring.
      rewrite Rabs_mult, (Rabs_pos_eq (IZR s)) by auto.
      assert (Rabs (b - (1 - a) + (f - a)) <= / 9007199254740992 + / 9007199254740992).
      { eapply Rle_trans; [apply Rabs_triang|]. rewrite (Rabs_minus_sym f a). lra. }
      pose proof (Rabs_pos (b - (1 - a) + (f - a))).
      apply Rle_trans with (2147483648 * (/ 9007199254740992 + / 9007199254740992)); [nra|lra]. }
    apply Rabs_le. apply Rabs_le_inv in Ec. apply Rabs_le_inv in Eq_.
    apply Rabs_le_inv in Ev. apply Rabs_le_inv in Hsb2. lra.
  - intros ->. rewrite Vv. unfold c, q, b, a.
    replace (0 / IZR n) with 0 by (unfold Rdiv; ring).
    rewrite (rnd_exact 0) by (apply (fmt_IZR 0); lia).
    rewrite Rminus_0_r, (rnd_exact 1) by (apply (fmt_IZR 1); lia).
    rewrite Rmult_1_r, (rnd_exact (IZR s)) by (apply fmt_IZR; lia).
    replace (IZR e * 0 / IZR n) with 0 by (unfold Rdiv; ring).
    rewrite (rnd_exact 0) by (apply (fmt_IZR 0); lia).
    rewrite Rplus_0_r. apply rnd_exact. apply fmt_IZR; lia.
  - intros ->. rewrite Vv. unfold c, q, b, a.
    replace (IZR n / IZR n) with 1 by (field; lra).
    rewrite (rnd_exact 1) by (apply (fmt_IZR 1); lia).
    replace (1 - 1) with 0 by ring. rewrite (rnd_exact 0) by (apply (fmt_IZR 0); lia).
    rewrite Rmult_0_r, (rnd_exact 0) by (apply (fmt_IZR 0); lia).
    replace (IZR e * IZR n / IZR n) with (IZR e) by (field; lra).
    rewrite (rnd_exact (IZR e)) by (apply fmt_IZR; lia).
    rewrite Rplus_0_l. apply rnd_exact. apply fmt_IZR; lia.
Qed.

(** bounds on the value *)
Lemma bval_bounds s e n j :
  (0 <= s)%Z -> (e < 2 ^ 31)%Z -> (1 <= n <= e - s)%Z -> (e * n <= 2 ^ 53)%Z ->
  (0 <= j <= n)%Z ->
  IZR s <= val (bval s e n j) <= IZR e.
Proof.
  intros Hs He Hn Hen Hj.
  destruct (bval_spec s e n j) as [F [E [E0 E1]]]; try lia.
  destruct (Z.eq_dec j 0) as [->|Hj0]; [rewrite E0 by auto; split; [lra|apply IZR_le; lia]|].
  destruct (Z.eq_dec j n) as [->|Hjn]; [rewrite E1 by auto; split; [apply IZR_le; lia|lra]|].
  apply Rabs_le_inv in E. change (bpow radix2 (-19)) with (/ 524288) in E.
  assert (Hn0 : 0 < IZR n) by (apply IZR_lt; lia).
  assert (Hw : 1 <= IZR (e - s) / IZR n).
  { apply Rmult_le_reg_r with (IZR n); auto. unfold Rdiv. rewrite Rmult_assoc, Rinv_l by lra.
    rewrite Rmult_1_l, Rmult_1_r. apply IZR_le; lia. }
  assert (Hi : ideal s e n j = IZR s + IZR (e - s) / IZR n * IZR j) by (unfold ideal, Rdiv; ring).
  assert (Hi2 : ideal s e n j = IZR e - IZR (e - s) / IZR n * IZR (n - j)).
  { unfold ideal. rewrite !minus_IZR. field. lra. }
  assert (1 <= IZR j) by (apply IZR_le; lia).
  assert (1 <= IZR (n - j)) by (apply IZR_le; lia).
  split; nra.
Qed.

Lemma boundary_eq r j :
  boundary A r j =
  match trunc64 (bval (ir_start r) (ir_end r) (ir_n r) j) with
  | Some z => if ((- 2 ^ 31 <=? z) && (z <? 2 ^ 31))%Z then Ok z else UB
  | None => UB
  end.
Proof. reflexivity. Qed.

Lemma boundary_ok s e n j :
  (0 <= s)%Z -> (e < 2 ^ 31)%Z -> (1 <= n <= e - s)%Z -> (e * n <= 2 ^ 53)%Z ->
  (0 <= j <= n)%Z ->
  boundary A {| ir_start := s; ir_end := e; ir_n := n |} j
    = Ok (Zfloor (val (bval s e n j))) /\
  (s <= Zfloor (val (bval s e n j)) <= e)%Z.
Proof.
  intros Hs He Hn Hen Hj. pose proof (bval_bounds s e n j Hs He Hn Hen Hj) as Hb.
  destruct (bval_spec s e n j) as [F _]; try lia.
  assert (Hfl : (s <= Zfloor (val (bval s e n j)) <= e)%Z).
  { split.
    - apply Zfloor_lub. apply Hb.
    - eapply Z.le_trans; [apply Zfloor_le; apply Hb|]. rewrite Zfloor_IZR. lia. }
  split; auto. rewrite boundary_eq. simpl ir_start; simpl ir_end; simpl ir_n.
  rewrite trunc64_ok by auto.
  rewrite Ztrunc_floor. 2: { apply Rle_trans with (IZR s); [apply IZR_le; lia|apply Hb]. }
  set (z := Zfloor _) in *. clearbody z.
  destruct ((- 2 ^ 31 <=? z)%Z && (z <? 2 ^ 31)%Z) eqn:E; auto.
  exfalso. apply andb_false_iff in E. destruct E as [E|E].
  - apply Z.leb_gt in E. lia.
  - apply Z.ltb_ge in E. lia.
Qed.

(** consecutive boundaries: at least m-1 apart when the nominal width is at least m,
    at most m+1 apart when it is at most m *)
Lemma boundary_step s e n j m :
  (0 <= s)%Z -> (e < 2 ^ 31)%Z -> (1 <= n <= e - s)%Z -> (e * n <= 2 ^ 53)%Z ->
  (0 <= j < n)%Z -> (1 <= m)%Z ->
  let w := (Zfloor (val (bval s e n (j + 1))) - Zfloor (val (bval s e n j)))%Z in
  ((m * n <= e - s)%Z -> (m - 1 <= w)%Z) /\
  ((e - s <= m * n)%Z -> (w <= m + 1)%Z).
Proof.
  intros Hs He Hn Hen Hj Hm w.
  destruct (bval_spec s e n j) as [_ [E1 _]]; try lia.
  destruct (bval_spec s e n (j + 1)) as [_ [E2 _]]; try lia.
  apply Rabs_le_inv in E1. apply Rabs_le_inv in E2.
  change (bpow radix2 (-19)) with (/ 524288) in E1, E2.
  assert (Hn0 : 0 < IZR n) by (apply IZR_lt; lia).
  assert (Hd : ideal s e n (j + 1) - ideal s e n j = IZR (e - s) / IZR n).
  { unfold ideal. rewrite plus_IZR. field. lra. }
  pose proof (Zfloor_lb (val (bval s e n j))) as L1.
  pose proof (Zfloor_ub (val (bval s e n j))) as U1.
  pose proof (Zfloor_lb (val (bval s e n (j + 1)))) as L2.
  pose proof (Zfloor_ub (val (bval s e n (j + 1)))) as U2.
  set (v1 := val (bval s e n j)) in *. set (v2 := val (bval s e n (j + 1))) in *.
  set (z1 := Zfloor v1) in *. set (z2 := Zfloor v2) in *. subst w.
  split; intros Hw.
  - assert (IZR m <= IZR (e - s) / IZR n).
    { apply Rmult_le_reg_r with (IZR n); auto. unfold Rdiv. rewrite Rmult_assoc, Rinv_l by lra.
      rewrite Rmult_1_r, <- mult_IZR. apply IZR_le; lia. }
    assert (IZR (m - 2) < IZR (z2 - z1)).
    { rewrite !minus_IZR. lra. }
    apply lt_IZR in H0. lia.
  - assert (IZR (e - s) / IZR n <= IZR m).
    { apply Rmult_le_reg_r with (IZR n); auto. unfold Rdiv. rewrite Rmult_assoc, Rinv_l by lra.
      rewrite Rmult_1_r, <- mult_IZR. apply IZR_le; lia. }
    assert (IZR (z2 - z1) < IZR (m + 2)).
    { rewrite minus_IZR, plus_IZR. lra. }
    apply lt_IZR in H0. lia.
Qed.

(** distance to the ideal boundary s + (e-s)*j/n *)
Lemma boundary_ideal s e n j :
  (0 <= s)%Z -> (e < 2 ^ 31)%Z -> (1 <= n <= e - s)%Z -> (e * n <= 2 ^ 53)%Z ->
  (0 <= j <= n)%Z ->
  let q := ((e - s) * j / n)%Z in
  (s + q - 1 <= Zfloor (val (bval s e n j)) <= s + q + 1)%Z.
Proof.
  intros Hs He Hn Hen Hj q.
  destruct (bval_spec s e n j) as [_ [E1 _]]; try lia.
  apply Rabs_le_inv in E1. change (bpow radix2 (-19)) with (/ 524288) in E1.
  assert (Hn0 : 0 < IZR n) by (apply IZR_lt; lia).
  assert (Hq : IZR q <= IZR ((e - s) * j) / IZR n < IZR q + 1).
  { pose proof (Z.div_mod ((e - s) * j) n ltac:(lia)) as Hdm. fold q in Hdm.
    pose proof (Z.mod_pos_bound ((e - s) * j) n ltac:(lia)) as Hmb.
    split.
    - apply Rmult_le_reg_r with (IZR n); auto. unfold Rdiv. rewrite Rmult_assoc, Rinv_l by lra.
      rewrite Rmult_1_r, <- mult_IZR. apply IZR_le; nia.
    - apply Rmult_lt_reg_r with (IZR n); auto. unfold Rdiv. rewrite Rmult_assoc, Rinv_l by lra.
      rewrite Rmult_1_r. rewrite <- (plus_IZR q 1), <- mult_IZR. apply IZR_lt; nia. }
  unfold ideal in E1. rewrite <- mult_IZR in E1.
  pose proof (Zfloor_lb (val (bval s e n j))) as L1.
  pose proof (Zfloor_ub (val (bval s e n j))) as U1.
  set (z := Zfloor _) in *.
  split.
  - assert (IZR (s + q - 2) < IZR z) by (rewrite minus_IZR, plus_IZR; lra).
    apply lt_IZR in H. lia.
  - assert (IZR z < IZR (s + q + 2)) by (rewrite !plus_IZR; lra).
    apply lt_IZR in H. lia.
Qed.

End Boundary.

(** ** Partition *)
Open Scope Z_scope.

Lemma monotone_partition (B : Z -> Z) n :
  0 <= n -> (forall j, 0 <= j < n -> B j <= B (j + 1)) ->
  forall i, B 0 <= i < B n -> exists! j, 0 <= j < n /\ B j <= i < B (j + 1).
Proof.
  intros Hn Hm i Hi.
  assert (Hmono : forall a d, 0 <= a -> (a + Z.of_nat d <= n) -> B a <= B (a + Z.of_nat d)).
  { intros a d Ha. induction d as [|d IH]; intros Hd.
    - rewrite Nat2Z.inj_0, Z.add_0_r. lia.
    - rewrite Nat2Z.inj_succ in *. replace (a + Z.succ (Z.of_nat d)) with (a + Z.of_nat d + 1) by lia.
      specialize (Hm (a + Z.of_nat d) ltac:(lia)). lia. }
  assert (Hex : forall k, (Z.of_nat k <= n) -> i < B (Z.of_nat k) ->
     exists j, 0 <= j < n /\ B j <= i < B (j + 1)).
  { induction k as [|k IH]; intros Hk Hb.
    - simpl in Hb. lia.
    - rewrite Nat2Z.inj_succ in *. destruct (Z_lt_le_dec i (B (Z.of_nat k))).
      + apply IH; lia.
      + exists (Z.of_nat k). rewrite <- Z.add_1_r in Hb. lia. }
  destruct (Hex (Z.to_nat n)) as [j [Hj Hb]]; try (rewrite Z2Nat.id by lia; lia).
  exists j. split; auto. intros j' [Hj' Hb'].
  destruct (Z.lt_trichotomy j j') as [H|[H|H]]; auto; exfalso.
  - specialize (Hmono (j + 1) (Z.to_nat (j' - (j + 1))) ltac:(lia)).
    rewrite Z2Nat.id in Hmono by lia. replace (j + 1 + (j' - (j + 1))) with j' in Hmono by lia. lia.
  - specialize (Hmono (j' + 1) (Z.to_nat (j - (j' + 1))) ltac:(lia)).
    rewrite Z2Nat.id in Hmono by lia. replace (j' + 1 + (j - (j' + 1))) with j in Hmono by lia. lia.
Qed.

Lemma blocks_partition acosf s e n r :
  0 <= s -> e < 2 ^ 31 -> 1 <= n -> e * n <= 2 ^ 53 ->
  make_index_range s e n = Ok r ->
  exists B : Z -> Z,
    B 0 = s /\ B n = e /\
    (forall j, 0 <= j < n -> ir_begin (ieee acosf) r j = Ok (B j) /\
                             ir_finish (ieee acosf) r j = Ok (B (j + 1)) /\ B j <= B (j + 1)) /\
    (forall i, s <= i < e -> exists! j, 0 <= j < n /\ B j <= i < B (j + 1)).
Proof.
  intros Hs He Hn Hen H. unfold make_index_range in H.
  destruct (e - s <? n) eqn:E; [discriminate|]. apply Z.ltb_ge in E.
  inversion H; subst r; clear H.
  exists (fun j => Zfloor (val (bval s e n j))).
  destruct (bval_spec s e n 0) as [_ [_ [E0 _]]]; try lia.
  destruct (bval_spec s e n n) as [_ [_ [_ E1]]]; try lia.
  rewrite E0, E1 by auto. rewrite !Zfloor_IZR.
  assert (Hm : forall j, 0 <= j < n ->
     Zfloor (val (bval s e n j)) <= Zfloor (val (bval s e n (j + 1)))).
  { intros j Hj. destruct (boundary_step s e n j 1) as [Hb _]; try lia. }
  split; auto. split; auto. split.
  - intros j Hj.
    destruct (boundary_ok acosf s e n j) as [B1 _]; try lia.
    destruct (boundary_ok acosf s e n (j + 1)) as [B2 _]; try lia.
    unfold ir_begin, ir_finish, check_block. cbn [ir_n].
    destruct (n <=? j) eqn:E2; [apply Z.leb_le in E2; lia|].
    destruct (j <? 0) eqn:E3; [apply Z.ltb_lt in E3; lia|]. cbn [bind].
    rewrite B1, B2. auto.
  - intros i Hi. apply (monotone_partition (fun j => Zfloor (val (bval s e n j))) n); auto; [lia|].
    rewrite E0, E1 by auto. rewrite !Zfloor_IZR. auto.
Qed.

Lemma blocks_width acosf s e n r m :
  0 <= s -> e < 2 ^ 31 -> 1 <= n -> e * n <= 2 ^ 53 -> 1 <= m ->
  make_index_range s e n = Ok r ->
  forall j, 0 <= j < n -> exists b f,
    ir_begin (ieee acosf) r j = Ok b /\ ir_finish (ieee acosf) r j = Ok f /\
    s <= b /\ f <= e /\
    (m * n <= e - s -> m - 1 <= f - b) /\ (e - s <= m * n -> f - b <= m + 1).
Proof.
  intros Hs He Hn Hen Hm1 H j Hj. unfold make_index_range in H.
  destruct (e - s <? n) eqn:E; [discriminate|]. apply Z.ltb_ge in E.
  inversion H; subst r; clear H.
  destruct (boundary_ok acosf s e n j) as [B1 C1]; try lia.
  destruct (boundary_ok acosf s e n (j + 1)) as [B2 C2]; try lia.
  exists (Zfloor (val (bval s e n j))), (Zfloor (val (bval s e n (j + 1)))).
  unfold ir_begin, ir_finish, check_block. cbn [ir_n].
  destruct (n <=? j) eqn:E2; [apply Z.leb_le in E2; lia|].
  destruct (j <? 0) eqn:E3; [apply Z.ltb_lt in E3; lia|]. cbn [bind].
  split; auto. split; auto. split; [lia|]. split; [lia|].
  apply boundary_step; lia.
Qed.

Lemma blocks_near_ideal acosf s e n r :
  0 <= s -> e < 2 ^ 31 -> 1 <= n -> e * n <= 2 ^ 53 ->
  make_index_range s e n = Ok r ->
  forall j, 0 <= j < n -> exists b,
    ir_begin (ieee acosf) r j = Ok b /\ Z.abs (b - (s + (e - s) * j / n)) <= 1.
Proof.
  intros Hs He Hn Hen H j Hj. unfold make_index_range in H.
  destruct (e - s <? n) eqn:E; [discriminate|]. apply Z.ltb_ge in E.
  inversion H; subst r; clear H.
  destruct (boundary_ok acosf s e n j) as [B1 C1]; try lia.
  exists (Zfloor (val (bval s e n j))).
  unfold ir_begin, check_block. cbn [ir_n].
  destruct (n <=? j) eqn:E2; [apply Z.leb_le in E2; lia|].
  destruct (j <? 0) eqn:E3; [apply Z.ltb_lt in E3; lia|]. cbn [bind].
  split; auto. pose proof (boundary_ideal s e n j) as Hb. cbv zeta in Hb. lia.
Qed.

(** When the number of blocks is a power of two no rounding happens at all. *)
Lemma fmt_dyadic m k : Z.abs m <= 2 ^ 53 -> 0 <= k <= 1000 -> fmt (IZR m / IZR (2 ^ k)).
Proof.
  intros Hm Hk.
  assert (Hp : (IZR (2 ^ k) = bpow radix2 k)%R).
  { rewrite <- (IZR_Zpower radix2) by lia. reflexivity. }
  rewrite Hp. unfold Rdiv. rewrite <- bpow_opp.
  destruct (Z.eq_dec (Z.abs m) (2 ^ 53)) as [E|E].
  - assert (Hz : m = 2 ^ 53 \/ m = - 2 ^ 53) by lia.
    assert (Hb : fmt (bpow radix2 53 * bpow radix2 (- k))).
    { rewrite <- bpow_plus. apply fmt_bpow. lia. }
    destruct Hz as [-> | ->].
    + exact Hb.
    + rewrite opp_IZR, Ropp_mult_distr_l_reverse. apply generic_format_opp. exact Hb.
  - unfold fmt. rewrite fexp_eq. apply generic_format_FLT.
    apply FLT_spec with (f := Float radix2 m (- k)); simpl.
    + unfold F2R. simpl. auto.
    + change (Z.pow_pos 2 53) with (2 ^ 53). lia.
    + lia.
Qed.

Lemma bval_pow2 s e k j :
  0 <= s <= e -> e < 2 ^ 31 -> 0 <= k <= 22 -> 0 <= j <= 2 ^ k ->
  fin (bval s e (2 ^ k) j) /\
  val (bval s e (2 ^ k) j) = (IZR (s * 2 ^ k + (e - s) * j) / IZR (2 ^ k))%R.
Proof.
  intros Hs He Hk Hj. set (n := 2 ^ k) in *.
  assert (Hn1 : 1 <= n <= 2 ^ 22).
  { split; [change 1 with (2 ^ 0)|]; apply Z.pow_le_mono_r; lia. }
  change (2 ^ 22) with 4194304 in Hn1.
  assert (Hn0 : (0 < IZR n)%R) by (apply IZR_lt; lia).
  assert (Hbd : forall m, Z.abs m <= 2 ^ 53 -> (Rabs (IZR m / IZR n) <= bpow radix2 53)%R).
  { intros m Hm. unfold Rdiv. rewrite Rabs_mult, Rabs_inv, <- !abs_IZR.
    rewrite (Z.abs_eq n) by lia.
    apply Rle_trans with (IZR (2 ^ 53) * 1)%R; [|rewrite Rmult_1_r; apply Rle_refl].
    apply Rmult_le_compat.
    - apply IZR_le; lia.
    - left; apply Rinv_0_lt_compat; auto.
    - apply IZR_le; auto.
    - rewrite <- Rinv_1. apply Rinv_le_contravar; [lra|apply (IZR_le 1); lia]. }
  destruct (of_Z64_ok s) as [Vs Fs]; [lia|]. destruct (of_Z64_ok e) as [Ve Fe]; [lia|].
  destruct (of_Z64_ok n) as [Vn Fn]; [lia|]. destruct (of_Z64_ok j) as [Vj Fj]; [lia|].
  destruct (of_Z64_ok 1) as [V1 F1]; [lia|].
  destruct (div64_ok (of_Z64 j) (of_Z64 n) 53) as [Va Fa]; auto; try lia.
  { rewrite Vn; lra. } { rewrite Vj, Vn. apply Hbd; lia. }
  rewrite Vj, Vn in Va. rewrite rnd_exact in Va by (apply fmt_dyadic; lia).
  assert (E1 : (1 - IZR j / IZR n = IZR (n - j) / IZR n)%R) by (rewrite minus_IZR; field; lra).
  destruct (sub64_ok (of_Z64 1) (div64 (of_Z64 j) (of_Z64 n)) 53) as [Vb Fb]; auto; try lia.
  { rewrite V1, Va, E1. apply Hbd; lia. }
  rewrite V1, Va, E1 in Vb. rewrite rnd_exact in Vb by (apply fmt_dyadic; lia).
  assert (E2 : (IZR s * (IZR (n - j) / IZR n) = IZR (s * (n - j)) / IZR n)%R)
    by (rewrite mult_IZR; field; lra).
  assert (Hsn : 0 <= s * (n - j) <= 2147483648 * 4194304) by nia.
  destruct (mul64_ok (of_Z64 s) (sub64 (of_Z64 1) (div64 (of_Z64 j) (of_Z64 n))) 53) as [Vc Fc]; auto; try lia.
  { rewrite Vs, Vb, E2. apply Hbd; lia. }
  rewrite Vs, Vb, E2 in Vc. rewrite rnd_exact in Vc by (apply fmt_dyadic; lia).
  assert (Hej : 0 <= e * j <= 2147483648 * 4194304) by nia.
  destruct (mul64_ok (of_Z64 e) (of_Z64 j) 53) as [Vp Fp]; auto; try lia.
  { rewrite Ve, Vj, <- mult_IZR, <- abs_IZR. change (bpow radix2 53) with (IZR (2 ^ 53)). apply IZR_le. lia. }
  rewrite Ve, Vj, <- mult_IZR in Vp. rewrite rnd_exact in Vp by (apply fmt_IZR; lia).
  destruct (div64_ok (mul64 (of_Z64 e) (of_Z64 j)) (of_Z64 n) 53) as [Vq Fq]; auto; try lia.
  { rewrite Vn; lra. } { rewrite Vp, Vn. apply Hbd; lia. }
  rewrite Vp, Vn in Vq. rewrite rnd_exact in Vq by (apply fmt_dyadic; lia).
  assert (E3 : (IZR (s * (n - j)) / IZR n + IZR (e * j) / IZR n =
               IZR (s * n + (e - s) * j) / IZR n)%R).
  { rewrite !plus_IZR, !mult_IZR, !minus_IZR. field. lra. }
  assert (Htot : 0 <= s * n + (e - s) * j <= 2147483648 * 4194304) by nia.
  destruct (add64_ok _ _ 53 Fc Fq) as [Vv Fv]; [lia| |].
  { rewrite Vc, Vq, E3. apply Hbd; lia. }
  rewrite Vc, Vq, E3 in Vv. rewrite rnd_exact in Vv by (apply fmt_dyadic; lia).
  split; auto.
Qed.

Lemma blocks_pow2 acosf s e k r :
  0 <= s -> e < 2 ^ 31 -> 0 <= k <= 22 ->
  make_index_range s e (2 ^ k) = Ok r ->
  forall j, 0 <= j < 2 ^ k ->
    ir_begin (ieee acosf) r j = Ok (s + (e - s) * j / 2 ^ k) /\
    ir_finish (ieee acosf) r j = Ok (s + (e - s) * (j + 1) / 2 ^ k).
Proof.
  intros Hs He Hk H j Hj. unfold make_index_range in H.
  destruct (e - s <? 2 ^ k) eqn:E; [discriminate|]. apply Z.ltb_ge in E.
  inversion H; subst r; clear H.
  assert (Hn1 : 1 <= 2 ^ k <= 2 ^ 22).
  { split; [change 1 with (2 ^ 0)|]; apply Z.pow_le_mono_r; lia. }
  change (2 ^ 22) with 4194304 in Hn1.
  assert (Hfl : forall j, 0 <= j <= 2 ^ k ->
     Zfloor (val (bval s e (2 ^ k) j)) = s + (e - s) * j / 2 ^ k).
  { intros j' Hj'. destruct (bval_pow2 s e k j') as [_ V]; try lia. rewrite V.
    rewrite Zfloor_div by lia. rewrite Z.div_add_l by lia. auto. }
  assert (Hen : e * 2 ^ k <= 2 ^ 53) by nia.
  destruct (boundary_ok acosf s e (2 ^ k) j) as [B1 C1]; try lia.
  destruct (boundary_ok acosf s e (2 ^ k) (j + 1)) as [B2 C2]; try lia.
  unfold ir_begin, ir_finish, check_block. cbn [ir_n].
  destruct (2 ^ k <=? j) eqn:E2; [apply Z.leb_le in E2; lia|].
  destruct (j <? 0) eqn:E3; [apply Z.ltb_lt in E3; lia|]. cbn [bind].
  rewrite B1, B2, !Hfl by lia. auto.
Qed.

Lemma block_errors A s e n r :
  (make_index_range s e n = ThrowInvalid <-> e - s < n) /\
  (make_index_range s e n = Ok r -> forall j,
     (ir_begin A r j = ThrowRange <-> ~ (0 <= j < n)) /\
     (ir_finish A r j = ThrowRange <-> ~ (0 <= j < n)) /\
     (ir_begin A r j <> ThrowInvalid) /\ (ir_finish A r j <> ThrowInvalid)).
Proof.
  split.
  - unfold make_index_range. destruct (e - s <? n) eqn:E.
    + apply Z.ltb_lt in E. tauto.
    + apply Z.ltb_ge in E. split; [discriminate|lia].
  - unfold make_index_range. destruct (e - s <? n) eqn:E; [discriminate|].
    intros H; inversion H; subst r; clear H. intros j.
    assert (Hb : forall q, boundary A {| ir_start := s; ir_end := e; ir_n := n |} q <> ThrowRange /\
                           boundary A {| ir_start := s; ir_end := e; ir_n := n |} q <> ThrowInvalid).
    { intros q. unfold boundary. destruct (d_trunc A _); [|split; discriminate].
      destruct (_ && _); split; discriminate. }
    unfold ir_begin, ir_finish, check_block. cbn [ir_n].
    destruct (n <=? j) eqn:E1; cbn [bind].
    { apply Z.leb_le in E1. repeat split; auto; try lia; try discriminate. }
    apply Z.leb_gt in E1. destruct (j <? 0) eqn:E2; cbn [bind].
    { apply Z.ltb_lt in E2. repeat split; auto; try lia; try discriminate. }
    apply Z.ltb_ge in E2. destruct (Hb j), (Hb (j + 1)).
    repeat split; auto; intros; try tauto; try lia.
Qed.

Lemma blocks_within_one acosf s e n r :
  0 <= s -> e < 2 ^ 31 -> 1 <= n -> e * n <= 2 ^ 53 ->
  make_index_range s e n = Ok r -> (e - s) mod n = 0 ->
  forall j, 0 <= j < n -> exists b f,
    ir_begin (ieee acosf) r j = Ok b /\ ir_finish (ieee acosf) r j = Ok f /\
    (e - s) / n - 1 <= f - b <= (e - s) / n + 1.
Proof.
  intros Hs He Hn Hen H Hd j Hj.
  pose proof (Z.div_mod (e - s) n ltac:(lia)) as Hdm. rewrite Hd in Hdm.
  assert (Hle : n <= e - s).
  { unfold make_index_range in H. destruct (e - s <? n) eqn:E; [discriminate|]. apply Z.ltb_ge in E. auto. }
  assert (Hq : 1 <= (e - s) / n) by nia.
  destruct (blocks_width acosf s e n r ((e - s) / n) Hs He Hn Hen Hq H j Hj)
    as [b [f [Hb [Hf [_ [_ [Hw1 Hw2]]]]]]].
  exists b, f. split; auto. split; auto. split; [apply Hw1|apply Hw2]; lia.
Qed.
