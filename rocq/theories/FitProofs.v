(** Proofs about the fitted lines and planes. *)
From Coq Require Import List ZArith Bool Reals Lra Lia.
From Verif Require Import Base Arith LibModel LocModel PoseModel OptModel ProblemModel SpecPose RotProofs SpecFit.
Import ListNotations.
Open Scope R_scope.

Ltac vb := unfold squared_distance, ray_point, vdot, vsub, vadd, vscale, vcross, origin in *; cbn [vx vy vz] in *.

Lemma so_ext f g X : (forall x, In x X -> f x = g x) -> sum_over f X = sum_over g X.
Proof. intros H. unfold sum_over. f_equal. apply map_ext_in. auto. Qed.
Lemma so_plus f g X : sum_over (fun x => f x + g x) X = sum_over f X + sum_over g X.
Proof. unfold sum_over. induction X; cbn [map fold_right]; lra. Qed.
Lemma so_scal c f X : sum_over (fun x => c * f x) X = c * sum_over f X.
Proof. unfold sum_over. induction X as [|a X IH]; cbn [map fold_right]; [ring|]. rewrite IH. ring. Qed.
Lemma so_const c X : sum_over (fun _ => c) X = INR (length X) * c.
Proof. unfold sum_over. induction X as [|a X IH]; [cbn; ring|]. cbn [map fold_right]. rewrite IH. cbn [length]. rewrite S_INR. ring. Qed.
Lemma so_le f g X : (forall x, In x X -> f x <= g x) -> sum_over f X <= sum_over g X.
Proof.
  unfold sum_over. induction X as [|a X IH]; intros H; cbn [map fold_right]; [lra|].
  apply Rplus_le_compat; [apply H; left; auto|apply IH; intros; apply H; right; auto].
Qed.
Lemma so_zero f X : (forall x, In x X -> 0 <= f x) -> sum_over f X <= 0 -> forall x, In x X -> f x = 0.
Proof.
  unfold sum_over. induction X as [|a X IH]; intros H HS x Hx; [destruct Hx|]. cbn [map fold_right] in HS.
  assert (P : 0 <= sum_over f X).
  { rewrite <- (Rmult_0_r (INR (length X))), <- (so_const 0 X). apply so_le. intros y Hy. apply H. right; auto. }
  unfold sum_over in P. pose proof (H a (or_introl eq_refl)). destruct Hx as [->|Hx]; [lra|].
  apply IH; auto; [intros; apply H; right; auto|lra].
Qed.

Lemma vsum_so X : vsum X = V3 (sum_over vx X) (sum_over vy X) (sum_over vz X).
Proof. unfold vsum, sum_over. induction X as [|a X IH]; [reflexivity|]. cbn [map fold_right]. rewrite IH. reflexivity. Qed.

Lemma mean_cov_inv X m C : mean_and_covariance X = Ok (m, C) ->
  X <> [] /\ m = vscale (/ INR (length X)) (vsum X) /\
  let D := map (fun x => vsub x m) X in
  C = M3 (moment vx vx D) (moment vx vy D) (moment vx vz D)
         (moment vy vx D) (moment vy vy D) (moment vy vz D)
         (moment vz vx D) (moment vz vy D) (moment vz vz D).
Proof.
  unfold mean_and_covariance, center. destruct X as [|x X]; [discriminate|].
  cbn [length Nat.eqb negb assert_ bind]. intros H. injection H as <- <-. split; [discriminate|]. split; reflexivity.
Qed.
Lemma mean_cov_ok X : X <> [] -> exists m C, mean_and_covariance X = Ok (m, C).
Proof.
  intros H. unfold mean_and_covariance, center. destruct X as [|x X]; [congruence|].
  cbn [length Nat.eqb negb assert_ bind]. eauto.
Qed.

Section Line.
Variables (X : list vec) (m : vec) (C : mat3).
Hypothesis HM : mean_and_covariance X = Ok (m, C).
Let n := INR (length X).

Lemma n_pos : 0 < n.
Proof. destruct (mean_cov_inv X m C HM) as [H _]. destruct X; [congruence|]. apply lt_0_INR. cbn. lia. Qed.

Lemma deviations k : sum_over (fun x => vdot (vsub x m) k) X = 0.
Proof.
  destruct (mean_cov_inv X m C HM) as [_ [Em _]]. pose proof n_pos as P. unfold n in P.
  rewrite (so_ext _ (fun x => vx k * vx x + (vy k * vy x + (vz k * vz x + - vdot m k)))) by (intros; vb; ring).
  rewrite !so_plus, !so_scal, so_const, Em, vsum_so. vb. field. lra.
Qed.

(** The quadratic form of the covariance is the mean squared extent along a direction. *)
Lemma cov_quad u : sum_over (fun x => vdot (vsub x m) u * vdot (vsub x m) u) X = n * vdot u (mapply C u).
Proof.
  destruct (mean_cov_inv X m C HM) as [_ [_ EC]]. cbv zeta in EC. pose proof n_pos as P. unfold n in P.
  assert (EM : forall f g, moment f g (map (fun x => vsub x m) X) = sum_over (fun x => f (vsub x m) * g (vsub x m)) X / INR (length X)).
  { intros f g. unfold moment, sum_over. rewrite map_length, map_map. reflexivity. }
  rewrite !EM in EC. rewrite EC. unfold mapply. cbn [m00 m01 m02 m10 m11 m12 m20 m21 m22].
  set (d := fun x => vsub x m).
  rewrite (so_ext _ (fun x => (vx u * vx u) * (vx (d x) * vx (d x)) + ((vx u * vy u) * (vx (d x) * vy (d x)) +
    ((vx u * vz u) * (vx (d x) * vz (d x)) + ((vy u * vx u) * (vy (d x) * vx (d x)) + ((vy u * vy u) * (vy (d x) * vy (d x)) +
    ((vy u * vz u) * (vy (d x) * vz (d x)) + ((vz u * vx u) * (vz (d x) * vx (d x)) + ((vz u * vy u) * (vz (d x) * vy (d x)) +
    (vz u * vz u) * (vz (d x) * vz (d x)))))))))))
    by (intros; unfold d, vdot; ring).
  rewrite !so_plus, !so_scal. unfold n, vdot, d. cbn [vx vy vz]. field. lra.
Qed.

(** What is left after removing the part along a unit direction. *)
Definition off (a e x : vec) : R := squared_distance x a - vdot (vsub x a) e * vdot (vsub x a) e.

Lemma off_mean a e : vdot e e = 1 -> sum_over (off m e) X <= sum_over (off a e) X.
Proof.
  intros He. set (g := vsub m a).
  rewrite (so_ext (off a e) (fun x => off m e x + (vdot (vsub x m) (vscale 2 (vsub g (vscale (vdot g e) e))) +
     (vdot g g - vdot g e * vdot g e)))).
  2: { intros x _. unfold off, g. destruct x, a, e, m. vb. ring. }
  rewrite !so_plus, deviations, so_const. pose proof n_pos as P. unfold n in P.
  assert (CS : 0 <= vdot g g - vdot g e * vdot g e).
  { destruct g as [g1 g2 g3], e as [e1 e2 e3]. vb.
    replace (g1 * g1 + g2 * g2 + g3 * g3 - (g1 * e1 + g2 * e2 + g3 * e3) * (g1 * e1 + g2 * e2 + g3 * e3)) with
      ((g1 * g1 + g2 * g2 + g3 * g3) * (e1 * e1 + e2 * e2 + e3 * e3) - (g1 * e1 + g2 * e2 + g3 * e3) * (g1 * e1 + g2 * e2 + g3 * e3))
      by (rewrite He; ring).
    pose proof (Rle_0_sqr (g1 * e2 - g2 * e1)). pose proof (Rle_0_sqr (g1 * e3 - g3 * e1)). pose proof (Rle_0_sqr (g2 * e3 - g3 * e2)).
    unfold Rsqr in *. lra. }
  nra.
Qed.
Lemma off_best v e : principal_direction C v -> vdot e e = 1 -> sum_over (off m v) X <= sum_over (off m e) X.
Proof.
  intros [Hv Hb] He. unfold off.
  rewrite (so_ext (fun x => squared_distance x m - vdot (vsub x m) v * vdot (vsub x m) v)
    (fun x => squared_distance x m + -1 * (vdot (vsub x m) v * vdot (vsub x m) v))) by (intros; ring).
  rewrite (so_ext (fun x => squared_distance x m - vdot (vsub x m) e * vdot (vsub x m) e)
    (fun x => squared_distance x m + -1 * (vdot (vsub x m) e * vdot (vsub x m) e))) by (intros; ring).
  rewrite !so_plus, !so_scal, !cov_quad. specialize (Hb e He). pose proof n_pos. nra.
Qed.
End Line.

Lemma vec_ext3 a b : vx a = vx b -> vy a = vy b -> vz a = vz b -> a = b.
Proof. destruct a, b. cbn. intros. f_equal; auto. Qed.
Lemma sq_zero a : vdot a a = 0 -> a = origin.
Proof.
  intros H. destruct a as [a b c]. vb. pose proof (Rle_0_sqr a). pose proof (Rle_0_sqr b). pose proof (Rle_0_sqr c). unfold Rsqr in *.
  f_equal; apply Rsqr_0_uniq; unfold Rsqr; lra.
Qed.

(** Every direction has a unit direction that is not worse. *)
Lemma unit_direction (a u : vec) : exists e, vdot e e = 1 /\ forall x s, off a e x <= squared_distance x (ray_point a u s).
Proof.
  destruct (Req_dec (vdot u u) 0) as [Hz|Hz].
  - exists (V3 1 0 0). split; [vb; ring|]. intros x s. apply sq_zero in Hz. subst u. unfold off.
    destruct x as [x y z], a as [a b c]. vb. pose proof (Rle_0_sqr (x - a)). unfold Rsqr in *. nra.
  - assert (Hp : 0 < vdot u u).
    { destruct u as [a1 b c]. vb. pose proof (Rle_0_sqr a1). pose proof (Rle_0_sqr b). pose proof (Rle_0_sqr c). unfold Rsqr in *. lra. }
    set (k := sqrt (vdot u u)). assert (Hk : 0 < k) by (apply sqrt_lt_R0; auto).
    assert (Ek : k * k = vdot u u) by (apply sqrt_sqrt; lra).
    exists (vscale (/ k) u). split.
    + replace (vdot (vscale (/ k) u) (vscale (/ k) u)) with (/ k * / k * vdot u u) by (vb; ring). rewrite <- Ek. field. lra.
    + intros x s. unfold off.
      replace (squared_distance x (ray_point a u s)) with
        (squared_distance x a - 2 * s * vdot (vsub x a) u + s * s * vdot u u) by (vb; ring).
      replace (vdot (vsub x a) (vscale (/ k) u)) with (/ k * vdot (vsub x a) u) by (vb; ring).
      rewrite <- Ek. set (y := vdot (vsub x a) u).
      assert (E : s * s * (k * k) - 2 * s * y + / k * y * (/ k * y) = (s * k - / k * y) * (s * k - / k * y)) by (field; lra).
      pose proof (Rle_0_sqr (s * k - / k * y)) as Q. unfold Rsqr in Q. lra.
Qed.

Lemma best_line X m C v : mean_and_covariance X = Ok (m, C) -> principal_direction C v ->
  exists foot, forall (a u : vec) (s : vec -> R),
    sum_over (fun x => squared_distance x (ray_point m v (foot x))) X <=
    sum_over (fun x => squared_distance x (ray_point a u (s x))) X.
Proof.
  intros HM HV. exists (fun x => vdot (vsub x m) v). intros a u s.
  destruct (unit_direction a u) as [e [He Hb]].
  apply Rle_trans with (sum_over (off a e) X); [|apply so_le; intros; apply Hb].
  apply Rle_trans with (sum_over (off m e) X); [|apply (off_mean X m C HM); auto].
  apply Rle_trans with (sum_over (off m v) X); [|apply (off_best X m C HM); auto].
  apply Req_le. apply so_ext. intros x _. unfold off. destruct HV as [Hv _].
  replace (squared_distance x (ray_point m v (vdot (vsub x m) v))) with
    (squared_distance x m - 2 * (vdot (vsub x m) v * vdot (vsub x m) v) + vdot (vsub x m) v * vdot (vsub x m) v * vdot v v) by (vb; ring).
  rewrite Hv. ring.
Qed.

Lemma sd_zero p q : squared_distance p q = 0 -> p = q.
Proof.
  intros H. apply sq_zero in H. destruct p as [a b c], q as [d e f]. unfold vsub, origin in H. cbn in H.
  injection H as H1 H2 H3. f_equal; lra.
Qed.
Lemma vdot_nonneg a : 0 <= vdot a a.
Proof.
  unfold vdot. pose proof (Rle_0_sqr (vx a)). pose proof (Rle_0_sqr (vy a)). pose proof (Rle_0_sqr (vz a)). unfold Rsqr in *. lra.
Qed.
Lemma sd_nonneg p q : 0 <= squared_distance p q.
Proof. apply vdot_nonneg. Qed.

Lemma found_line X m C (v a u : vec) : mean_and_covariance X = Ok (m, C) -> principal_direction C v ->
  (forall x, In x X -> on_ray a u x) -> (exists x y, In x X /\ In y X /\ x <> y) ->
  forall p, on_ray m v p <-> on_ray a u p.
Proof.
  intros HM HV HX [x [y [Hx [Hy Hxy]]]].
  assert (HS : exists s : vec -> R, forall x, In x X -> x = ray_point a u (s x)).
  { clear - HX. induction X as [|z Y IH]; [exists (fun _ => 0); intros x []|].
    destruct IH as [s Hs]; [intros; apply HX; right; auto|].
    destruct (HX z (or_introl eq_refl)) as [k Hk].
    assert (DEC : forall p q : vec, {p = q} + {p <> q}).
    { intros [p1 p2 p3] [q1 q2 q3]. destruct (Req_EM_T p1 q1); [|right; congruence].
      destruct (Req_EM_T p2 q2); [|right; congruence]. destruct (Req_EM_T p3 q3); [left|right]; congruence. }
    exists (fun x => if DEC x z then k else s x). intros x Hx. destruct (DEC x z) as [->|Hn]; auto.
    destruct Hx as [->|Hx]; [congruence|auto]. }
  destruct HS as [s Hs]. destruct (best_line X m C v HM HV) as [foot Hb]. specialize (Hb a u s).
  assert (Z : sum_over (fun x => squared_distance x (ray_point a u (s x))) X = 0).
  { rewrite (so_ext _ (fun _ => 0)); [rewrite so_const; ring|]. intros z Hz. rewrite <- (Hs z Hz). vb. ring. }
  rewrite Z in Hb.
  pose proof (so_zero _ X (fun z _ => sd_nonneg z (ray_point m v (foot z))) Hb) as F.
  assert (F2 : forall z, In z X -> z = ray_point m v (foot z)) by (intros z Hz; apply sd_zero; auto).
  pose proof (F2 x Hx) as X1. pose proof (F2 y Hy) as Y1. pose proof (Hs x Hx) as X2. pose proof (Hs y Hy) as Y2.
  set (fx := foot x) in *. set (fy := foot y) in *. set (sx := s x) in *. set (sy := s y) in *. clearbody fx fy sx sy.
  clear F F2 Hs Hb Z. destruct HV as [Hv _].
  destruct m as [m1 m2 m3], v as [v1 v2 v3], a as [a1 a2 a3], u as [u1 u2 u3], x as [x1 x2 x3], y as [y1 y2 y3].
  unfold ray_point, vadd, vscale in X1, X2, Y1, Y2. cbn [vx vy vz] in *.
  injection X1 as A1 A2 A3. injection X2 as B1 B2 B3. injection Y1 as C1 C2 C3. injection Y2 as D1 D2 D3.
  assert (Hf : fx - fy <> 0).
  { intros E. apply Hxy. replace fx with fy in * by lra. f_equal; lra. }
  assert (Hs : sx - sy <> 0).
  { intros E. apply Hxy. replace sx with sy in * by lra. f_equal; lra. }
  set (c := (sx - sy) / (fx - fy)).
  assert (V1 : v1 = c * u1) by (unfold c; apply Rmult_eq_reg_l with (fx - fy); auto; field_simplify; auto; lra).
  assert (V2 : v2 = c * u2) by (unfold c; apply Rmult_eq_reg_l with (fx - fy); auto; field_simplify; auto; lra).
  assert (V3 : v3 = c * u3) by (unfold c; apply Rmult_eq_reg_l with (fx - fy); auto; field_simplify; auto; lra).
  assert (Hc : c <> 0) by (unfold c; intros E; apply Hs; apply Rmult_eq_reg_r with (/ (fx - fy)); [|apply Rinv_neq_0_compat; auto]; lra).
  assert (M1 : m1 = a1 + (sx - fx * c) * u1) by (rewrite V1 in A1; lra).
  assert (M2 : m2 = a2 + (sx - fx * c) * u2) by (rewrite V2 in A2; lra).
  assert (M3 : m3 = a3 + (sx - fx * c) * u3) by (rewrite V3 in A3; lra).
  clearbody c. intros p. unfold on_ray, ray_point, vadd, vscale. cbn [vx vy vz]. split.
  - intros [t ->]. exists (sx - fx * c + t * c). rewrite M1, M2, M3, V1, V2, V3. apply vec_ext3; cbn [vx vy vz]; ring.
  - intros [t ->]. exists ((t - (sx - fx * c)) / c). rewrite M1, M2, M3, V1, V2, V3. apply vec_ext3; cbn [vx vy vz]; field; auto.
Qed.

Lemma ray_line m v p : on_line (vsub m v) (vadd m v) p <-> on_ray m v p.
Proof.
  split.
  - intros [s ->]. exists (2 * s - 1). unfold ray_point. apply vec_ext3; vb; ring.
  - intros [s ->]. exists ((s + 1) / 2). unfold ray_point. apply vec_ext3; vb; field.
Qed.

(** The residual of an edge point is twice its distance from the line. *)
Lemma edge_distance T p0 m v d : vdot v v = 1 -> distance_from_line m v (transform T p0) d ->
  rdot (vlist (edge_residual T p0 (vsub m v) (vadd m v))) = (2 * d) * (2 * d).
Proof.
  intros Hv [_ [[s Hs] Hd]]. unfold edge_residual. set (p := transform T p0) in *. clearbody p.
  assert (E : rdot (vlist (vcross (vsub p (vsub m v)) (vsub p (vadd m v)))) =
    4 * (squared_distance p m * vdot v v - vdot (vsub p m) v * vdot (vsub p m) v)).
  { unfold rdot, vlist. cbn [map fold_right]. destruct p, m, v. vb. ring. }
  rewrite E, Hv. set (y := vdot (vsub p m) v).
  assert (Q : forall t, squared_distance p (ray_point m v t) = squared_distance p m - 2 * t * y + t * t).
  { intros t. replace (t * t) with (t * t * vdot v v) by (rewrite Hv; ring). unfold y. vb. ring. }
  rewrite Q in Hs. specialize (Hd y). rewrite Q in Hd.
  pose proof (Rle_0_sqr (s - y)) as S2. unfold Rsqr in S2. lra.
Qed.

(** ** Planes *)
Lemma misfit_le_ext X w w' : (forall x, In x X -> vdot w x = -1) ->
  misfit X (repeat (-1) (length X)) w' <= misfit X (repeat (-1) (length X)) w -> forall x, In x X -> vdot w' x = -1.
Proof.
  intros Hw H.
  assert (E : forall w0, misfit X (repeat (-1) (length X)) w0 = sum_over (fun x => (vdot w0 x - -1) * (vdot w0 x - -1)) X).
  { intros w0. unfold misfit, sum_over. clear. induction X as [|x X IH]; [reflexivity|]. cbn [length repeat combine map fold_right fst snd].
    rewrite IH. reflexivity. }
  rewrite !E in H. rewrite (so_ext (fun x => (vdot w x - -1) * (vdot w x - -1)) (fun _ => 0)) in H by (intros; rewrite Hw by auto; ring).
  rewrite so_const, Rmult_0_r in H. intros x Hx.
  assert (Z : (vdot w' x - -1) * (vdot w' x - -1) = 0).
  { apply (so_zero (fun x => (vdot w' x - -1) * (vdot w' x - -1)) X); auto. intros y _. apply Rle_0_sqr. }
  apply Rsqr_0_uniq in Z. lra.
Qed.

Lemma exact_plane qr X n d : solves_least_squares qr X (repeat (-1) (length X)) ->
  independent X -> d <> 0 -> (forall x, In x X -> in_plane n d x) -> estimate_plane qr X = vscale (- / d) n.
Proof.
  intros HQ HI Hd HX. unfold estimate_plane. specialize (HQ HI (vscale (- / d) n)).
  assert (H0 : forall x, In x X -> vdot (vscale (- / d) n) x = -1).
  { intros x Hx. pose proof (HX x Hx) as P. unfold in_plane in P.
    replace (vdot (vscale (- / d) n) x) with (- / d * vdot n x) by (vb; ring). rewrite P. field. auto. }
  set (w := qr X _) in *.
  pose proof (misfit_le_ext X _ w H0 HQ) as H1.
  assert (Z : vsub w (vscale (- / d) n) = origin).
  { apply HI. intros x Hx. replace (vdot (vsub w (vscale (- / d) n)) x) with (vdot w x - vdot (vscale (- / d) n) x) by (vb; ring).
    rewrite H0, H1 by auto. ring. }
  apply sd_zero. unfold squared_distance. rewrite Z. vb. ring.
Qed.

Lemma plane_distance n d p e : d <> 0 -> n <> origin -> distance_from_plane n d p e ->
  Rabs (signed_distance (vscale (- / d) n) p) = e.
Proof.
  intros Hd Hn [He [[q [Hq Eq]] Hmin]]. unfold in_plane in *.
  assert (Hp : 0 < vdot n n).
  { assert (vdot n n <> 0) by (intros E; apply Hn; apply sq_zero; auto).
    pose proof (vdot_nonneg n). lra. }
  set (f := vdot n p - d).
  set (q0 := vsub p (vscale (f / vdot n n) n)).
  assert (F0 : vdot n q0 = d).
  { unfold q0. replace (vdot n (vsub p (vscale (f / vdot n n) n))) with (vdot n p - f / vdot n n * vdot n n).
    - unfold f. field. lra.
    - generalize (f / vdot n n). intros k. vb. ring. }
  assert (D0 : squared_distance p q0 = f * f / vdot n n).
  { unfold q0. replace (squared_distance p (vsub p (vscale (f / vdot n n) n))) with (f / vdot n n * (f / vdot n n) * vdot n n).
    - field. lra.
    - generalize (f / vdot n n). intros k. vb. ring. }
  assert (D1 : f * f / vdot n n <= squared_distance p q).
  { assert (Ef : f = vdot n (vsub p q)) by (unfold f; rewrite <- Hq; vb; ring).
    apply Rmult_le_reg_r with (vdot n n); auto. unfold Rdiv. rewrite Rmult_assoc, Rinv_l, Rmult_1_r by lra.
    rewrite Ef. unfold squared_distance. generalize (vsub p q). intros [a b c]. destruct n as [n1 n2 n3]. vb.
    pose proof (Rle_0_sqr (n1 * b - n2 * a)). pose proof (Rle_0_sqr (n1 * c - n3 * a)). pose proof (Rle_0_sqr (n2 * c - n3 * b)).
    unfold Rsqr in *. lra. }
  pose proof (Hmin q0 F0) as D2. rewrite D0 in D2. assert (EE : e * e = f * f / vdot n n) by lra.
  unfold signed_distance.
  assert (EN : vnorm (vscale (- / d) n) * vnorm (vscale (- / d) n) = / d * / d * vdot n n).
  { unfold vnorm. rewrite sqrt_sqrt; [vb; ring|apply vdot_nonneg]. }
  set (k := vnorm (vscale (- / d) n)) in *.
  assert (Hk0 : 0 <= k) by apply sqrt_pos.
  assert (Hdd : 0 < / d * / d) by (pose proof (Rinv_neq_0_compat d Hd); nra).
  assert (Hk : 0 < k) by (destruct (Req_dec k 0) as [E|]; [rewrite E in EN; nra|lra]).
  replace (vdot (vscale (- / d) n) p + 1) with (- / d * f).
  2: { unfold f. replace (vdot (vscale (- / d) n) p) with (- / d * vdot n p) by (vb; ring). field. auto. }
  apply Rsqr_inj; [apply Rabs_pos|auto|]. rewrite <- Rsqr_abs. unfold Rsqr. rewrite EE.
  apply Rmult_eq_reg_r with (k * k); [|nra].
  transitivity (/ d * / d * (f * f)); [field; split; lra|]. rewrite EN. field. split; auto; lra.
Qed.

Lemma origin_plane X n : n <> origin -> (forall x, In x X -> in_plane n 0 x) -> ~ collinear X ->
  ~ independent X /\ forall w, ~ (forall x, In x X -> on_plane w x).
Proof.
  intros Hn HX HC. split.
  - intros HI. apply Hn. apply HI. exact HX.
  - intros w Hw. apply HC.
    destruct X as [|x0 X0] eqn:EX; [exists origin, n; split; auto; intros x []|]. rewrite <- EX in *.
    assert (I0 : In x0 X) by (rewrite EX; left; auto). clear EX X0.
    set (e := vcross n w).
    assert (He : e <> origin).
    { intros E. pose proof (HX x0 I0) as P0. pose proof (Hw x0 I0) as W0. unfold in_plane, on_plane in *.
      (* w (n.n) = n (n.w) when the cross product vanishes *)
      assert (Q : vdot n n * vdot w x0 = vdot n w * vdot n x0).
      { assert (E1 : vx e = 0 /\ vy e = 0 /\ vz e = 0) by (rewrite E; auto). unfold e in E1.
        destruct n as [a b c], w as [p q r], x0 as [x y z]. vb. destruct E1 as [E1 [E2 E3]].
        replace ((a * a + b * b + c * c) * (p * x + q * y + r * z)) with
          ((a * p + b * q + c * r) * (a * x + b * y + c * z) + (b * r - c * q) * (b * z - c * y)
            + (c * p - a * r) * (c * x - a * z) + (a * q - b * p) * (a * y - b * x)) by ring.
        rewrite E1, E2, E3. ring. }
      rewrite P0 in Q. assert (vdot w x0 = -1) by lra. rewrite H in Q.
      apply Hn. apply sq_zero. lra. }
    exists x0, e. split; auto. intros x Hx.
    assert (Hee : vdot e e <> 0) by (intros E; apply He; apply sq_zero; auto).
    exists (vdot (vsub x x0) e / vdot e e).
    pose proof (HX x0 I0) as P0. pose proof (Hw x0 I0) as W0. pose proof (HX x Hx) as P1. pose proof (Hw x Hx) as W1.
    unfold in_plane, on_plane in *.
    set (y := vsub x x0).
    assert (N0 : vdot n y = 0) by (unfold y; replace (vdot n (vsub x x0)) with (vdot n x - vdot n x0) by (vb; ring); lra).
    assert (M0 : vdot w y = 0) by (unfold y; replace (vdot w (vsub x x0)) with (vdot w x - vdot w x0) by (vb; ring); lra).
    assert (Y : vscale (vdot e e) y = vscale (vdot y e) e).
    { unfold e. clearbody y. clear - N0 M0. destruct n as [a b c], w as [p q r], y as [x y z]. vb.
      (* y |e|^2 - e (y.e) = e x (y x e), and y x e = n (y.w) - w (y.n) = 0 *)
      assert (K1 : y * (a * q - b * p) - z * (c * p - a * r) = a * (p * x + q * y + r * z) - p * (a * x + b * y + c * z)) by ring.
      assert (K2 : z * (b * r - c * q) - x * (a * q - b * p) = b * (p * x + q * y + r * z) - q * (a * x + b * y + c * z)) by ring.
      assert (K3 : x * (c * p - a * r) - y * (b * r - c * q) = c * (p * x + q * y + r * z) - r * (a * x + b * y + c * z)) by ring.
      rewrite M0, N0 in K1, K2, K3.
      set (e1 := b * r - c * q) in *. set (e2 := c * p - a * r) in *. set (e3 := a * q - b * p) in *. clearbody e1 e2 e3.
      f_equal.
      - replace ((e1 * e1 + e2 * e2 + e3 * e3) * x) with ((x * e1 + y * e2 + z * e3) * e1 + e2 * (x * e2 - y * e1) - e3 * (z * e1 - x * e3)) by ring.
        rewrite K2, K3. ring.
      - replace ((e1 * e1 + e2 * e2 + e3 * e3) * y) with ((x * e1 + y * e2 + z * e3) * e2 - e1 * (x * e2 - y * e1) + e3 * (y * e3 - z * e2)) by ring.
        rewrite K1, K3. ring.
      - replace ((e1 * e1 + e2 * e2 + e3 * e3) * z) with ((x * e1 + y * e2 + z * e3) * e3 + e1 * (z * e1 - x * e3) - e2 * (y * e3 - z * e2)) by ring.
        rewrite K1, K2. ring. }
    assert (Y2 : y = vscale (vdot y e / vdot e e) e).
    { assert (Y3 : vscale (/ vdot e e) (vscale (vdot e e) y) = vscale (/ vdot e e) (vscale (vdot y e) e)) by (rewrite Y; auto).
      transitivity (vscale (/ vdot e e) (vscale (vdot e e) y)).
      - generalize dependent (vdot e e). intros k Hk _ _. destruct y as [y1 y2 y3]. unfold vscale. cbn [vx vy vz]. f_equal; field; auto.
      - rewrite Y3. unfold vscale, Rdiv. cbn [vx vy vz]. f_equal; ring. }
    unfold ray_point. fold y. rewrite <- Y2. unfold y. destruct x as [a1 a2 a3], x0 as [b1 b2 b3]. unfold vadd, vsub. cbn [vx vy vz]. f_equal; ring.
Qed.
