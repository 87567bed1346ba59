(** A solver of the least squares problems of surface.hpp:79-83 by Cramer's rule on the normal
    equations: what is assumed of Eigen's solver can be met for all points. *)
From Coq Require Import List Reals Lra Permutation.
From Verif Require Import PoseModel SpecPose SpecFit FitProofs.
Import ListNotations.
Open Scope R_scope.

(** x.w = -1 for the rows x of X. *)
Definition cramer (X : list vec) (_ : list R) : vec :=
  let s f := sum_over f X in
  let a := s (fun x => vx x * vx x) in let b := s (fun x => vx x * vy x) in let c := s (fun x => vx x * vz x) in
  let e := s (fun x => vy x * vy x) in let f := s (fun x => vy x * vz x) in let g := s (fun x => vz x * vz x) in
  let u := - s vx in let v := - s vy in let w := - s vz in
  let det := a * (e * g - f * f) - b * (b * g - c * f) + c * (b * f - c * e) in
  V3 (((e * g - f * f) * u + (c * f - b * g) * v + (b * f - c * e) * w) / det)
     (((c * f - b * g) * u + (a * g - c * c) * v + (b * c - a * f) * w) / det)
     (((b * f - c * e) * u + (b * c - a * f) * v + (a * e - b * b) * w) / det).

Lemma so_comb f g p q X : sum_over (fun x => p * f x + q * g x) X = p * sum_over f X + q * sum_over g X.
Proof. unfold sum_over. induction X as [|x X IH]; cbn [map fold_right]; [ring|]. rewrite IH. ring. Qed.

Section S.
Variable X : list vec.
Notation s f := (sum_over f X).
Notation a := (s (fun x => vx x * vx x)). Notation b := (s (fun x => vx x * vy x)). Notation c := (s (fun x => vx x * vz x)).
Notation e := (s (fun x => vy x * vy x)). Notation f := (s (fun x => vy x * vz x)). Notation g := (s (fun x => vz x * vz x)).

Lemma gram p q r : s (fun x => (p * vx x + q * vy x + r * vz x) * (p * vx x + q * vy x + r * vz x))
  = p * (a * p + b * q + c * r) + q * (b * p + e * q + f * r) + r * (c * p + f * q + g * r).
Proof.
  unfold sum_over. induction X as [|x Y IH]; cbn [map fold_right]; [ring|]. rewrite IH. ring.
Qed.
Lemma null p q r : independent X -> a * p + b * q + c * r = 0 -> b * p + e * q + f * r = 0 -> c * p + f * q + g * r = 0 ->
  p = 0 /\ q = 0 /\ r = 0.
Proof.
  intros HI H1 H2 H3. pose proof (gram p q r) as G. rewrite H1, H2, H3 in G.
  assert (Z : V3 p q r = origin).
  { apply HI. intros x Hx. unfold vdot. cbn [vx vy vz].
    assert (E : (p * vx x + q * vy x + r * vz x) * (p * vx x + q * vy x + r * vz x) = 0).
    { apply (so_zero (fun x => (p * vx x + q * vy x + r * vz x) * (p * vx x + q * vy x + r * vz x)) X); auto.
      - intros y _. apply Rle_0_sqr.
      - rewrite G. lra. }
    apply Rsqr_0_uniq in E. exact E. }
  injection Z as Z1 Z2 Z3. auto.
Qed.
Lemma det_nonzero : independent X -> a * (e * g - f * f) - b * (b * g - c * f) + c * (b * f - c * e) <> 0.
Proof.
  intros HI E.
  destruct (null (e * g - f * f) (c * f - b * g) (b * f - c * e) HI) as [M1 [M2 M3]]; [rewrite <- E; ring|ring|ring|].
  destruct (null (c * f - b * g) (a * g - c * c) (b * c - a * f) HI) as [_ [M4 M5]]; [ring|rewrite <- E; ring|ring|].
  destruct (null (b * f - c * e) (b * c - a * f) (a * e - b * b) HI) as [_ [_ M6]]; [ring|ring|rewrite <- E; ring|].
  destruct (null b (- a) 0 HI) as [B [A _]]; [ring| |lra|].
  { transitivity (- (a * e - b * b)); [ring|rewrite M6; ring]. }
  destruct (null c 0 (- a) HI) as [C _]; [ring|lra| |].
  { transitivity (- (a * g - c * c)); [ring|rewrite M4; ring]. }
  destruct (null e (- b) 0 HI) as [Ee _]; [lra|ring| |].
  { transitivity (- (b * f - c * e)); [ring|rewrite M3; ring]. }
  destruct (null 0 g (- f) HI) as [_ [Gg Ff]]; [|lra|ring|].
  { transitivity (- (c * f - b * g)); [ring|rewrite M2; ring]. }
  assert (A0 : a = 0) by lra. destruct (null 1 0 0 HI) as [N _]; [rewrite A0; ring| | |].
  - rewrite B. ring.
  - rewrite C. ring.
  - lra.
Qed.

Lemma misfit_sum w : misfit X (repeat (-1) (length X)) w = s (fun x => (vdot w x - -1) * (vdot w x - -1)).
Proof.
  unfold misfit, sum_over. clear. induction X as [|x Y IH]; [reflexivity|]. cbn [length repeat combine map fold_right fst snd].
  rewrite IH. reflexivity.
Qed.
Lemma misfit_form w : misfit X (repeat (-1) (length X)) w
  = vx w * (a * vx w + b * vy w + c * vz w) + vy w * (b * vx w + e * vy w + f * vz w) + vz w * (c * vx w + f * vy w + g * vz w)
    + 2 * (vx w * s vx + vy w * s vy + vz w * s vz) + INR (length X).
Proof.
  rewrite misfit_sum. unfold sum_over. clear. induction X as [|x Y IH]; cbn [map fold_right length]; [cbn; ring|].
  rewrite IH, S_INR. unfold vdot. ring.
Qed.
(** Where the gradient vanishes the misfit is least, and nowhere else. *)
Lemma normal_least w0 : a * vx w0 + b * vy w0 + c * vz w0 = - s vx -> b * vx w0 + e * vy w0 + f * vz w0 = - s vy ->
  c * vx w0 + f * vy w0 + g * vz w0 = - s vz ->
  forall w, misfit X (repeat (-1) (length X)) w = misfit X (repeat (-1) (length X)) w0 + s (fun x => vdot (vsub w w0) x * vdot (vsub w w0) x).
Proof.
  intros H1 H2 H3 w. rewrite !misfit_form.
  replace (s (fun x => vdot (vsub w w0) x * vdot (vsub w w0) x)) with
    ((vx w - vx w0) * (a * (vx w - vx w0) + b * (vy w - vy w0) + c * (vz w - vz w0))
     + (vy w - vy w0) * (b * (vx w - vx w0) + e * (vy w - vy w0) + f * (vz w - vz w0))
     + (vz w - vz w0) * (c * (vx w - vx w0) + f * (vy w - vy w0) + g * (vz w - vz w0))).
  2:{ rewrite <- gram. reflexivity. }
  replace (s vx) with (- (a * vx w0 + b * vy w0 + c * vz w0)) by lra.
  replace (s vy) with (- (b * vx w0 + e * vy w0 + f * vz w0)) by lra.
  replace (s vz) with (- (c * vx w0 + f * vy w0 + g * vz w0)) by lra. ring.
Qed.
Lemma normal_unique w0 w : independent X -> a * vx w0 + b * vy w0 + c * vz w0 = - s vx -> b * vx w0 + e * vy w0 + f * vz w0 = - s vy ->
  c * vx w0 + f * vy w0 + g * vz w0 = - s vz ->
  misfit X (repeat (-1) (length X)) w <= misfit X (repeat (-1) (length X)) w0 -> w = w0.
Proof.
  intros HI H1 H2 H3 H. rewrite (normal_least w0 H1 H2 H3 w) in H.
  assert (Z : vsub w w0 = origin).
  { apply HI. intros x Hx.
    assert (E : vdot (vsub w w0) x * vdot (vsub w w0) x = 0).
    { apply (so_zero (fun x => vdot (vsub w w0) x * vdot (vsub w w0) x) X); auto.
      - intros y _. apply Rle_0_sqr.
      - lra. }
    apply Rsqr_0_uniq in E. exact E. }
  apply sd_zero. unfold squared_distance. rewrite Z. unfold vdot, origin. cbn. ring.
Qed.
End S.

Theorem cramer_least_squares X : solves_least_squares cramer X (repeat (-1) (length X)).
Proof.
  intros HI w. pose proof (det_nonzero X HI) as N.
  rewrite (normal_least X (cramer X (repeat (-1) (length X)))) with (w := w).
  - assert (0 <= sum_over (fun x => vdot (vsub w (cramer X (repeat (-1) (length X)))) x * vdot (vsub w (cramer X (repeat (-1) (length X)))) x) X).
    { unfold sum_over. generalize (cramer X (repeat (-1) (length X))). clear. intros w0. induction X as [|x Y IH]; cbn [map fold_right]; [lra|].
      pose proof (Rle_0_sqr (vdot (vsub w w0) x)). unfold Rsqr in *. lra. }
    lra.
  - unfold cramer. cbv zeta. cbn [vx vy vz]. field. exact N.
  - unfold cramer. cbv zeta. cbn [vx vy vz]. field. exact N.
  - unfold cramer. cbv zeta. cbn [vx vy vz]. field. exact N.
Qed.
