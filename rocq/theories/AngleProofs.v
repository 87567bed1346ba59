(** The polar-angle comparator of x/ring.hpp:54-99 against atan2, exact arithmetic. *)
From Coq Require Import List ZArith Reals Bool Lia Lra.
From Verif Require Import Base Arith ExtractModel Spec SpecReal.
Open Scope R_scope.

Lemma Rltb_spec x y : Rltb x y = true <-> x < y.
Proof. unfold Rltb. destruct (Rlt_dec x y); split; auto; discriminate. Qed.
Lemma Rleb_spec x y : Rleb x y = true <-> x <= y.
Proof. unfold Rleb. destruct (Rle_dec x y); split; auto; discriminate. Qed.
Lemma Reqb_spec x y : Reqb x y = true <-> x = y.
Proof. unfold Reqb. destruct (Req_EM_T x y); split; auto; discriminate. Qed.

Lemma atan2_upper y x : 0 < y -> atan2 y x = PI / 2 - atan (x / y).
Proof.
  intros Hy. unfold atan2. destruct (Rlt_dec 0 x) as [Hx|Hx].
  - replace (y / x) with (/ (x / y)) by (field; lra). apply atan_inv.
    apply Rdiv_lt_0_compat; lra.
  - destruct (Rlt_dec x 0) as [Hx2|Hx2].
    + destruct (Rle_dec 0 y); [|lra].
      replace (y / x) with (- / (- x / y)) by (field; lra).
      rewrite atan_opp, atan_inv by (apply Rdiv_lt_0_compat; lra).
      replace (- x / y) with (- (x / y)) by (field; lra). rewrite atan_opp. lra.
    + assert (x = 0) by lra. subst. destruct (Rlt_dec 0 y); [|lra].
      unfold Rdiv at 3. rewrite Rmult_0_l, atan_0. lra.
Qed.

Lemma atan2_lower y x : y < 0 -> atan2 y x = - PI / 2 - atan (x / y).
Proof.
  intros Hy. unfold atan2. destruct (Rlt_dec 0 x) as [Hx|Hx].
  - replace (y / x) with (- / (- (x / y))) by (field; lra).
    assert (Hp : 0 < - (x / y)).
    { replace (- (x / y)) with (x / - y) by (field; lra). apply Rdiv_lt_0_compat; lra. }
    rewrite atan_opp, atan_inv, atan_opp by exact Hp. lra.
  - destruct (Rlt_dec x 0) as [Hx2|Hx2].
    + destruct (Rle_dec 0 y); [lra|].
      replace (y / x) with (/ (x / y)) by (field; lra).
      rewrite atan_inv; [lra|].
      replace (x / y) with (- x / - y) by (field; lra). apply Rdiv_lt_0_compat; lra.
    + assert (x = 0) by lra. subst. destruct (Rlt_dec 0 y); [lra|]. destruct (Rlt_dec y 0); [|lra].
      unfold Rdiv at 3. rewrite Rmult_0_l, atan_0. lra.
Qed.

Lemma atan2_zero x : atan2 0 x = if Rlt_dec x 0 then PI else 0.
Proof.
  unfold atan2, Rdiv. rewrite Rmult_0_l, atan_0.
  destruct (Rlt_dec 0 x), (Rlt_dec x 0); try lra.
  - destruct (Rle_dec 0 0); lra.
  - destruct (Rlt_dec 0 0); lra.
Qed.

Lemma upper_range y x : 0 < y -> 0 < atan2 y x < PI.
Proof. intros H. rewrite atan2_upper by auto. pose proof (atan_bound (x / y)). lra. Qed.
Lemma lower_range y x : y < 0 -> - PI < atan2 y x < 0.
Proof. intros H. rewrite atan2_lower by auto. pose proof (atan_bound (x / y)). lra. Qed.

Lemma atan_lt_iff x y : atan x < atan y <-> x < y.
Proof.
  split; [|apply atan_increasing]. intros H. destruct (Rlt_le_dec x y) as [|[Hl|He]]; auto.
  - apply atan_increasing in Hl. lra.
  - subst. lra.
Qed.

Lemma quot_lt x1 y1 x2 y2 : 0 < y1 * y2 -> (x2 / y2 < x1 / y1 <-> 0 < x1 * y2 - y1 * x2).
Proof.
  intros H. assert (y1 <> 0) by (intros ->; lra). assert (y2 <> 0) by (intros ->; lra).
  assert (E : x1 * y2 - y1 * x2 = (x1 / y1 - x2 / y2) * (y1 * y2)) by (field; auto).
  rewrite E. split; intros G.
  - apply Rmult_lt_0_compat; lra.
  - apply Rmult_lt_reg_r with (r := y1 * y2); auto. rewrite Rmult_minus_distr_r in G. lra.
Qed.

Lemma sq_zero x y : x * x + y * y = 0 <-> x = 0 /\ y = 0.
Proof. split; [intros; split; nra|intros [-> ->]; lra]. Qed.

Lemma reqb_false x y : Reqb x y = false -> x <> y.
Proof. intros H ->. rewrite (proj2 (Reqb_spec y y)) in H; auto. discriminate. Qed.
Lemma rltb_false x y : Rltb x y = false -> y <= x.
Proof. unfold Rltb. destruct (Rlt_dec x y); [discriminate|lra]. Qed.
Lemma rleb_false x y : Rleb x y = false -> y < x.
Proof. unfold Rleb. destruct (Rle_dec x y); [discriminate|lra]. Qed.

(** outside "both on the positive x axis" the comparator is exactly atan2 < atan2 *)
Lemma polar_less_atan2 (ax ay bx by_ : R) :
  ~ (ay = 0 /\ by_ = 0 /\ 0 < ax /\ 0 < bx) ->
  (polar_less exact ax ay bx by_ = true <-> atan2 ay ax < atan2 by_ bx).
Proof.
  intros Hax. unfold polar_less. cbn [exact f_eqb f_ltb f_leb f_add f_mul f_sub f_zero].
  pose proof PI_RGT_0 as HPI.
  destruct (Reqb ax bx && Reqb ay by_) eqn:E0.
  { apply andb_true_iff in E0. destruct E0 as [E1 E2]. apply Reqb_spec in E1, E2. subst.
    split; [discriminate|lra]. }
  destruct (Reqb (ax * ax + ay * ay) 0) eqn:E1.
  { apply Reqb_spec, sq_zero in E1. destruct E1 as [-> ->].
    rewrite (atan2_zero 0). destruct (Rlt_dec 0 0); [lra|].
    destruct (Reqb by_ 0) eqn:E2.
    - apply Reqb_spec in E2. subst. rewrite atan2_zero, Rltb_spec.
      destruct (Rlt_dec bx 0); split; lra.
    - apply reqb_false in E2. rewrite Rltb_spec.
      destruct (Rlt_le_dec by_ 0) as [Hb|Hb].
      + pose proof (lower_range by_ bx Hb). split; lra.
      + assert (Hb2 : 0 < by_) by lra. pose proof (upper_range by_ bx Hb2). split; lra. }
  apply reqb_false in E1.
  destruct (Reqb (bx * bx + by_ * by_) 0) eqn:E2.
  { apply Reqb_spec, sq_zero in E2. destruct E2 as [-> ->].
    rewrite (atan2_zero 0). destruct (Rlt_dec 0 0); [lra|]. rewrite Rltb_spec.
    destruct (Rtotal_order ay 0) as [Ha|[Ha|Ha]].
    - pose proof (lower_range ay ax Ha). split; lra.
    - subst. rewrite atan2_zero. destruct (Rlt_dec ax 0); split; lra.
    - pose proof (upper_range ay ax Ha). split; lra. }
  apply reqb_false in E2.
  destruct (Reqb ay 0) eqn:E3.
  { apply Reqb_spec in E3. subst. rewrite atan2_zero, andb_true_iff, !Rleb_spec.
    assert (ax <> 0) by (intros ->; apply E1; lra).
    destruct (Rlt_dec ax 0) as [Hx|Hx].
    - split; [lra|]. destruct (Rtotal_order by_ 0) as [Hb|[Hb|Hb]].
      + pose proof (lower_range by_ bx Hb). lra.
      + subst. rewrite atan2_zero. destruct (Rlt_dec bx 0); lra.
      + pose proof (upper_range by_ bx Hb). lra.
    - destruct (Rtotal_order by_ 0) as [Hb|[Hb|Hb]].
      + pose proof (lower_range by_ bx Hb). split; lra.
      + subst. rewrite atan2_zero. assert (bx <> 0) by (intros ->; apply E2; lra).
        destruct (Rlt_dec bx 0) as [Hbx|Hbx]; [split; lra|].
        exfalso. apply Hax. repeat split; lra.
      + pose proof (upper_range by_ bx Hb). split; lra. }
  apply reqb_false in E3.
  destruct (Reqb by_ 0) eqn:E4.
  { apply Reqb_spec in E4. subst. rewrite atan2_zero.
    assert (bx <> 0) by (intros ->; apply E2; lra).
    destruct (Rleb 0 bx) eqn:E5, (Rleb 0 ay) eqn:E6; simpl;
      try apply Rleb_spec in E5; try apply Rleb_spec in E6;
      try apply rleb_false in E5; try apply rleb_false in E6;
      destruct (Rlt_dec bx 0); try lra.
    - assert (Ha : 0 < ay) by lra. pose proof (upper_range ay ax Ha). split; [discriminate|lra].
    - pose proof (lower_range ay ax E6). split; auto. lra.
    - assert (Ha : 0 < ay) by lra. pose proof (upper_range ay ax Ha). split; auto. lra.
    - pose proof (lower_range ay ax E6). split; auto. lra. }
  apply reqb_false in E4.
  destruct (Rltb 0 (ay * by_)) eqn:E5.
  { apply Rltb_spec in E5. rewrite Rltb_spec, <- quot_lt, <- atan_lt_iff by auto.
    destruct (Rlt_le_dec ay 0) as [Ha|Ha].
    - assert (Hb : by_ < 0) by nra. rewrite !atan2_lower by auto. split; lra.
    - assert (Ha' : 0 < ay) by lra. assert (Hb : 0 < by_) by nra. rewrite !atan2_upper by auto. split; lra. }
  apply rltb_false in E5. rewrite Rltb_spec.
  destruct (Rlt_le_dec ay 0) as [Ha|Ha].
  - assert (Hb : 0 < by_) by nra. pose proof (lower_range ay ax Ha). pose proof (upper_range by_ bx Hb). split; lra.
  - assert (Ha' : 0 < ay) by lra. assert (Hb : by_ < 0) by nra.
    pose proof (upper_range ay ax Ha'). pose proof (lower_range by_ bx Hb). split; lra.
Qed.

(** distinct points on the positive x axis: "less" in both directions *)
Lemma polar_less_axis (x1 x2 : R) : 0 < x1 -> 0 < x2 -> x1 <> x2 ->
  polar_less exact x1 0 x2 0 = true.
Proof.
  intros H1 H2 Hn. unfold polar_less. cbn [exact f_eqb f_ltb f_leb f_add f_mul f_sub f_zero].
  destruct (Reqb x1 x2) eqn:E; [apply Reqb_spec in E; contradiction|]. simpl.
  destruct (Reqb (x1 * x1 + 0 * 0) 0) eqn:E1; [apply Reqb_spec in E1; nra|].
  destruct (Reqb (x2 * x2 + 0 * 0) 0) eqn:E2; [apply Reqb_spec in E2; nra|].
  destruct (Reqb 0 0) eqn:E3; [|apply reqb_false in E3; lra].
  rewrite andb_true_iff, !Rleb_spec. lra.
Qed.

(** atan2 is the polar angle *)
Lemma atan2_polar x y :
  (x <> 0 \/ y <> 0) -> - PI < atan2 y x <= PI /\
  x = sqrt (x * x + y * y) * cos (atan2 y x) /\ y = sqrt (x * x + y * y) * sin (atan2 y x).
Proof.
  intros Hn. pose proof PI_RGT_0 as HPI.
  destruct (Rtotal_order y 0) as [Hy|[Hy|Hy]].
  - pose proof (lower_range y x Hy). split; [lra|]. rewrite atan2_lower by auto.
    replace (- PI / 2 - atan (x / y)) with (- (PI / 2 + atan (x / y))) by lra.
    rewrite cos_neg, sin_neg. rewrite sin_plus, cos_plus, cos_PI2, sin_PI2, sin_atan, cos_atan.
    assert (E : sqrt (x * x + y * y) = - y * sqrt (1 + (x / y)²)).
    { transitivity (sqrt (- y * - y) * sqrt (1 + (x / y)²)); [|rewrite sqrt_square by lra; reflexivity].
      rewrite <- sqrt_mult_alt by nra. f_equal. unfold Rsqr. field. lra. }
    assert (Hs : 0 < sqrt (1 + (x / y)²)).
    { apply sqrt_lt_R0. unfold Rsqr. pose proof (Rle_0_sqr (x / y)) as G. unfold Rsqr in G. lra. }
    rewrite E. split; field; lra.
  - subst. rewrite atan2_zero. destruct (Rlt_dec x 0) as [Hx|Hx].
    + split; [lra|]. rewrite cos_PI, sin_PI. replace (x * x + 0 * 0) with (- x * - x) by ring.
      rewrite sqrt_square by lra. split; ring.
    + split; [lra|]. rewrite cos_0, sin_0. replace (x * x + 0 * 0) with (x * x) by ring.
      rewrite sqrt_square by lra. split; ring.
  - pose proof (upper_range y x Hy). split; [lra|]. rewrite atan2_upper by auto.
    rewrite cos_minus, sin_minus, cos_PI2, sin_PI2, sin_atan, cos_atan.
    assert (E : sqrt (x * x + y * y) = y * sqrt (1 + (x / y)²)).
    { transitivity (sqrt (y * y) * sqrt (1 + (x / y)²)); [|rewrite sqrt_square by lra; reflexivity].
      rewrite <- sqrt_mult_alt by nra. f_equal. unfold Rsqr. field. lra. }
    assert (Hs : 0 < sqrt (1 + (x / y)²)).
    { apply sqrt_lt_R0. unfold Rsqr. pose proof (Rle_0_sqr (x / y)) as G. unfold Rsqr in G. lra. }
    rewrite E. split; field; lra.
Qed.

(** ** consequences for lists of indices *)
From Coq Require Import Sorting.Sorted.
From Verif Require Import RingMapProofs.
Open Scope Z_scope.

(** polar angle of the point with a given index *)
Definition angle_ix (cloud : list (point exact)) (i : Z) : R :=
  match get cloud i with Some p => atan2 (py exact p) (px exact p) | None => 0%R end.

(** on the positive x axis *)
Definition on_axis (cloud : list (point exact)) (i : Z) : Prop :=
  exists p, get cloud i = Some p /\ (py exact p : R) = 0%R /\ (0 < (px exact p : R))%R.

Lemma polar_ix_angle cloud i j : 0 <= i < zlen cloud -> 0 <= j < zlen cloud ->
  ~ (on_axis cloud i /\ on_axis cloud j) ->
  (polar_less_ix exact cloud i j = true <-> (angle_ix cloud i < angle_ix cloud j)%R).
Proof.
  intros Hi Hj Hn. unfold polar_less_ix, angle_ix.
  destruct (FillProofs.get_some cloud i Hi) as [p Hp], (FillProofs.get_some cloud j Hj) as [q Hq].
  rewrite Hp, Hq. unfold get in Hp, Hq.
  destruct (i <? 0) eqn:E1; [discriminate|]. destruct (j <? 0) eqn:E2; [discriminate|].
  rewrite Hp, Hq. apply polar_less_atan2. intros [H1 [H2 [H3 H4]]]. apply Hn. split.
  - exists p. unfold get. rewrite E1. auto.
  - exists q. unfold get. rewrite E2. auto.
Qed.

Lemma axis_angle cloud i : on_axis cloud i -> angle_ix cloud i = 0%R.
Proof.
  intros [p [H1 [H2 H3]]]. unfold angle_ix. rewrite H1, H2, atan2_zero.
  destruct (Rlt_dec _ 0); auto. exfalso. revert r H3. intros r H3. apply (Rlt_irrefl 0%R).
  eapply Rlt_trans; eauto.
Qed.

Lemma polar_order_exact cloud ix :
  (forall i, In i ix -> 0 <= i < zlen cloud) ->
  (forall i j, In i ix -> In j ix -> on_axis cloud i -> on_axis cloud j -> i = j) ->
  strict_weak_order (polar_less_ix exact cloud) ix.
Proof.
  intros Hb Hax.
  assert (Key : forall i j, In i ix -> In j ix ->
     (polar_less_ix exact cloud i j = true <-> (angle_ix cloud i < angle_ix cloud j)%R)).
  { intros i j Hi Hj. destruct (Z.eq_dec i j) as [->|Hne].
    - split; [|intros H; exfalso; lra].
      unfold polar_less_ix. destruct (nth_error cloud (Z.to_nat j)) as [p|]; [|discriminate].
      unfold polar_less. cbn [exact f_eqb].
      rewrite (proj2 (Reqb_spec _ _) eq_refl), (proj2 (Reqb_spec _ _) eq_refl). discriminate.
    - apply polar_ix_angle; auto. intros [H1 H2]. apply Hne. auto. }
  assert (KeyF : forall i j, In i ix -> In j ix ->
     (polar_less_ix exact cloud i j = false <-> (angle_ix cloud j <= angle_ix cloud i)%R)).
  { intros i j Hi Hj. destruct (polar_less_ix exact cloud i j) eqn:E.
    - apply Key in E; auto. split; [discriminate|lra].
    - split; auto. intros _. apply Rnot_lt_le. intros H. apply Key in H; auto. congruence. }
  split; [|split].
  - intros a Ha. apply KeyF; auto. lra.
  - intros a b c Ha Hb' Hc H1 H2. apply Key in H1, H2; auto. apply Key; auto. lra.
  - intros a b c Ha Hb' Hc H1 H2 H3 H4. apply KeyF in H1, H2, H3, H4; auto.
    split; apply KeyF; auto; lra.
Qed.

Lemma StronglySorted_impl {T} (R1 R2 : T -> T -> Prop) l :
  (forall a b, In a l -> In b l -> R1 a b -> R2 a b) -> StronglySorted R1 l -> StronglySorted R2 l.
Proof.
  intros H HS. induction HS as [|a l HS IH HF]; constructor.
  - apply IH. intros x y Hx Hy. apply H; right; auto.
  - rewrite Forall_forall in *. intros x Hx. apply H; [left|right|]; auto.
Qed.

Lemma sorted_angles cloud ix :
  (forall i, In i ix -> 0 <= i < zlen cloud) ->
  StronglySorted (fun a b => polar_less_ix exact cloud b a = false) ix ->
  StronglySorted (fun a b => (angle_ix cloud a <= angle_ix cloud b)%R) ix.
Proof.
  intros Hb. apply StronglySorted_impl. intros a b Ha Hb' H.
  destruct (Rle_dec (angle_ix cloud a) (angle_ix cloud b)) as [|Hn]; auto.
  assert (Hc : ~ (on_axis cloud b /\ on_axis cloud a)).
  { intros [H1 H2]. rewrite (axis_angle _ _ H1), (axis_angle _ _ H2) in Hn. apply Hn. apply Rle_refl. }
  assert (Ht : polar_less_ix exact cloud b a = true) by (apply polar_ix_angle; auto; lra).
  congruence.
Qed.

(** ** same direction, exact arithmetic *)
Lemma same_direction (p q : point exact) k thr :
  (0 < k)%R -> (px exact q : R) = (k * px exact p)%R -> (py exact q : R) = (k * py exact p)%R ->
  ((px exact p : R) <> 0%R \/ (py exact p : R) <> 0%R) -> (0 < thr)%R ->
  is_neighbor_xy exact thr p q = Ok true.
Proof.
  intros Hk Hx Hy Hn Ht. unfold is_neighbor_xy, calc_radian, xy_norm.
  cbn [exact D F d_add d_mul d_sqrt d_eqb d_of_Z d_acos d_div f2d d_ltb] in *.
  rewrite Hx, Hy. revert Hn. generalize (px exact p : R), (py exact p : R). cbn [exact F].
  intros x y Hn.
  assert (Hpos : (0 < x * x + y * y)%R) by (destruct Hn; nra).
  assert (Hs : (0 < sqrt (x * x + y * y))%R) by (apply sqrt_lt_R0; auto).
  assert (E : (sqrt (k * x * (k * x) + k * y * (k * y)) = k * sqrt (x * x + y * y))%R).
  { transitivity (sqrt (k * k) * sqrt (x * x + y * y))%R.
    - rewrite <- sqrt_mult_alt by nra. f_equal. ring.
    - rewrite sqrt_square by lra. reflexivity. }
  rewrite E.
  destruct (Reqb (sqrt (x * x + y * y)) 0) eqn:E1; [apply Reqb_spec in E1; lra|]. simpl.
  replace ((x * (k * x) + y * (k * y)) / (sqrt (x * x + y * y) * (k * sqrt (x * x + y * y))))%R with 1%R.
  - rewrite acos_1. f_equal. apply Rltb_spec. auto.
  - replace (sqrt (x * x + y * y) * (k * sqrt (x * x + y * y)))%R with (k * (x * x + y * y))%R.
    + field. nra.
    + rewrite <- (sqrt_sqrt (x * x + y * y)) at 1 by lra. ring.
Qed.

Lemma polar_order_points (cloud : list (point exact)) ix :
  (forall i, In i ix -> 0 <= i < zlen cloud) ->
  (forall i j p q, In i ix -> In j ix -> get cloud i = Some p -> get cloud j = Some q ->
     (py exact p : R) = 0%R -> (0 < (px exact p : R))%R -> (py exact q : R) = 0%R -> (0 < (px exact q : R))%R -> i = j) ->
  strict_weak_order (polar_less_ix exact cloud) ix.
Proof.
  intros Hb H. apply polar_order_exact; auto.
  intros i j Hi Hj [p [P1 [P2 P3]]] [q [Q1 [Q2 Q3]]]. apply (H i j p q); auto.
Qed.

Lemma rings_angle_sorted srt cloud rings k ix :
  valid_sort srt -> extract_rings exact srt cloud = Ok rings -> In (k, ix) rings ->
  StronglySorted (fun a b => forall p q, get cloud a = Some p -> get cloud b = Some q ->
      (atan2 (py exact p) (px exact p) <= atan2 (py exact q) (px exact q))%R) ix.
Proof.
  intros Hv H Hi. apply extract_rings_spec in H; auto. destruct H as [_ [_ H]].
  destruct (H k ix Hi) as [_ [_ [Hin [_ HS]]]].
  apply sorted_angles in HS.
  - revert HS. apply StronglySorted_impl. intros a b _ _ Hab p q Hp Hq.
    unfold angle_ix in Hab. rewrite Hp, Hq in Hab. auto.
  - intros i Hii. apply Hin in Hii. destruct Hii as [p [Hp _]]. eapply FillProofs.get_bounds; eauto.
Qed.
