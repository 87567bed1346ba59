(** The step of the optimiser minimises the linearised weighted error (optimizer.cpp:40-98). *)
From Coq Require Import List Reals Lra Lia Bool.
From Verif Require Import Base Arith PoseModel SpecPose SpecOpt SpecStep.
Import ListNotations.
Open Scope R_scope.

Section Sums.
Context {X : Type}.
Definition lsum (f : X -> R) (l : list X) : R := fold_right Rplus 0 (map f l).
Lemma lsum_ext f g l : (forall x, In x l -> f x = g x) -> lsum f l = lsum g l.
Proof.
  induction l as [|a l IH]; intros H; [reflexivity|]. unfold lsum in *. cbn [map fold_right].
  rewrite H by (left; auto). rewrite IH; auto. intros; apply H; right; auto.
Qed.
Lemma lsum_plus f g l : lsum (fun x => f x + g x) l = lsum f l + lsum g l.
Proof. induction l as [|a l IH]; unfold lsum in *; cbn [map fold_right]; [ring|]. rewrite IH. ring. Qed.
Lemma lsum_scal c f l : lsum (fun x => c * f x) l = c * lsum f l.
Proof. induction l as [|a l IH]; unfold lsum in *; cbn [map fold_right]; [ring|]. rewrite IH. ring. Qed.
Lemma lsum_zero l : lsum (fun _ => 0) l = 0.
Proof. induction l as [|a l IH]; unfold lsum in *; cbn [map fold_right]; [ring|]. rewrite IH. ring. Qed.
Lemma lsum_le f g l : (forall x, In x l -> f x <= g x) -> lsum f l <= lsum g l.
Proof.
  induction l as [|a l IH]; intros H; [apply Rle_refl|]. unfold lsum in *. cbn [map fold_right].
  apply Rplus_le_compat; [apply H; left; auto|apply IH; intros; apply H; right; auto].
Qed.
Lemma lsum_app f l1 l2 : lsum f (l1 ++ l2) = lsum f l1 + lsum f l2.
Proof. induction l1 as [|a l IH]; unfold lsum in *; cbn [map fold_right app]; [ring|]. rewrite IH. ring. Qed.
End Sums.
Lemma lsum_swap {X Y} (f : X -> Y -> R) l1 l2 :
  lsum (fun x => lsum (fun y => f x y) l2) l1 = lsum (fun y => lsum (fun x => f x y) l1) l2.
Proof.
  induction l1 as [|a l IH].
  - unfold lsum at 1. cbn [map fold_right]. rewrite <- (lsum_zero l2). apply lsum_ext. auto.
  - unfold lsum at 1. cbn [map fold_right]. fold (lsum (fun x => lsum (fun y => f x y) l2) l).
    rewrite IH, <- lsum_plus. apply lsum_ext. reflexivity.
Qed.
Lemma lsum_map {X Y} (f : Y -> R) (g : X -> Y) l : lsum f (map g l) = lsum (fun x => f (g x)) l.
Proof. unfold lsum. rewrite map_map. reflexivity. Qed.
Lemma lsum_flat_map {X Y} (f : Y -> R) (g : X -> list Y) l :
  lsum f (flat_map g l) = lsum (fun x => lsum f (g x)) l.
Proof.
  induction l as [|a l IH]; [reflexivity|]. cbn [flat_map]. rewrite lsum_app, IH. reflexivity.
Qed.

Lemma total_lsum n f : total n f = lsum f (seq 0 n). Proof. reflexivity. Qed.
Lemma total_ext n f g : (forall i, (i < n)%nat -> f i = g i) -> total n f = total n g.
Proof. intros H. apply lsum_ext. intros i Hi. apply in_seq in Hi. apply H. lia. Qed.
Lemma total_plus n f g : total n (fun i => f i + g i) = total n f + total n g.
Proof. apply lsum_plus. Qed.
Lemma total_scal n c f : total n (fun i => c * f i) = c * total n f.
Proof. apply lsum_scal. Qed.
Lemma total_swap n m f : total n (fun i => total m (fun j => f i j)) = total m (fun j => total n (fun i => f i j)).
Proof. apply lsum_swap. Qed.
Lemma total_lsum_swap {X} n (f : nat -> X -> R) l :
  total n (fun i => lsum (fun x => f i x) l) = lsum (fun x => total n (fun i => f i x)) l.
Proof. apply lsum_swap. Qed.
Lemma total_le n f g : (forall i, (i < n)%nat -> f i <= g i) -> total n f <= total n g.
Proof. intros H. apply lsum_le. intros i Hi. apply in_seq in Hi. apply H. lia. Qed.
Lemma total_zero n : total n (fun _ => 0) = 0.
Proof. apply lsum_zero. Qed.

(** one scalar equation of the problem: weight, row of the Jacobian, residual *)
Definition triple := (R * (list R * R))%type.
Definition t_w (t : triple) := fst t.
Definition t_row (t : triple) (i : nat) := nth i (fst (snd t)) 0.
Definition t_res (t : triple) := snd (snd t).
Definition flat (w : list R) (Js : list mat) (rs : list (list R)) : list triple :=
  flat_map (fun wJr => map (fun ab => (fst wJr, ab)) (combine (fst (snd wJr)) (snd (snd wJr))))
    (combine w (combine Js rs)).
Definition rho (t : triple) (x : nat -> R) : R := total 7 (fun i => t_row t i * x i).

Lemma combine_fst_map {X Y Z} (f : X -> Z) (l : list X) (l' : list Y) : length l = length l' ->
  map (fun ab => f (fst ab)) (combine l l') = map f l.
Proof.
  revert l'. induction l as [|a l IH]; intros [|b l'] H; try discriminate; [reflexivity|].
  cbn [combine map fst]. rewrite IH by auto. reflexivity.
Qed.

Lemma flat_in w Js rs t : well_shaped Js rs -> In t (flat w Js rs) ->
  In (t_w t) w /\ length (fst (snd t)) = 7%nat.
Proof.
  intros HS H. unfold flat in H. apply in_flat_map in H. destruct H as [[c [J r]] [H1 H2]].
  cbn [fst snd] in H2. apply in_map_iff in H2. destruct H2 as [[row res] [<- H2]].
  split; [unfold t_w; cbn [fst]; eapply in_combine_l; eauto|]. cbn [fst snd].
  apply in_combine_r in H1. apply in_combine_l in H2.
  unfold well_shaped in HS. induction HS as [|J0 r0 Js rs [_ HF] HS IH]; [destruct H1|].
  destruct H1 as [E|H1]; [|auto]. injection E as -> ->. rewrite Forall_forall in HF. auto.
Qed.

Lemma jtj_flat w Js rs i j : well_shaped Js rs -> length w = length Js ->
  fold_right Rplus 0 (map (fun wJ => fst wJ * jtj (snd wJ) i j) (combine w Js)) =
  lsum (fun t => t_w t * t_row t i * t_row t j) (flat w Js rs).
Proof.
  intros HS. revert w. induction HS as [|J r Js rs [HL _] HS IH]; intros [|c w] H; try discriminate; [reflexivity|].
  cbn [combine map fold_right]. unfold flat. cbn [combine flat_map]. rewrite lsum_app. fold (flat w Js rs).
  rewrite <- IH by auto. f_equal. cbn [fst snd]. rewrite lsum_map. unfold t_w, t_row. cbn [fst snd].
  unfold jtj. rewrite <- (combine_fst_map (fun row => nth i row 0 * nth j row 0) J r) by auto.
  match goal with |- _ * fold_right Rplus 0 (map ?f ?l) = _ => change (fold_right Rplus 0 (map f l)) with (lsum f l) end.
  rewrite <- lsum_scal. apply lsum_ext. intros [row res] _. cbn [fst snd]. ring.
Qed.
Lemma jtr_flat w Js rs i : well_shaped Js rs -> length w = length Js ->
  fold_right Rplus 0 (map (fun wJr => fst wJr * jtr (fst (snd wJr)) (snd (snd wJr)) i) (combine w (combine Js rs))) =
  lsum (fun t => t_w t * t_row t i * t_res t) (flat w Js rs).
Proof.
  intros HS. revert w. induction HS as [|J r Js rs [HL _] HS IH]; intros [|c w] H; try discriminate; [reflexivity|].
  cbn [combine map fold_right]. unfold flat. cbn [combine flat_map]. rewrite lsum_app. fold (flat w Js rs).
  rewrite <- IH by auto. f_equal. cbn [fst snd]. rewrite lsum_map. unfold t_w, t_row, t_res. cbn [fst snd].
  unfold jtr. change (fold_right Rplus 0 (map (fun ab => nth i (fst ab) 0 * snd ab) (combine J r)))
    with (lsum (fun ab => nth i (fst ab) 0 * snd ab) (combine J r)).
  rewrite <- lsum_scal. apply lsum_ext. intros [row res] _. cbn [fst snd]. ring.
Qed.
Lemma normal_flat w Js rs i j : well_shaped Js rs -> length w = length Js ->
  normal_matrix Js i j = lsum (fun t => t_row t i * t_row t j) (flat w Js rs).
Proof.
  intros HS. revert w. induction HS as [|J r Js rs [HL _] HS IH]; intros [|c w] H; try discriminate; [reflexivity|].
  unfold normal_matrix in *. cbn [map fold_right]. unfold flat. cbn [combine flat_map]. rewrite lsum_app. fold (flat w Js rs).
  rewrite <- IH by auto. f_equal. cbn [fst snd]. rewrite lsum_map. unfold t_row. cbn [fst snd].
  rewrite <- (combine_fst_map (fun row => nth i row 0 * nth j row 0) J r) by auto. reflexivity.
Qed.

Lemma row_dot_total row x : length row = 7%nat -> length x = 7%nat ->
  row_dot row x = total 7 (fun i => nth i row 0 * nth i x 0).
Proof.
  intros H1 H2.
  do 7 (destruct row as [|? row]; [discriminate|]). destruct row; [|discriminate].
  do 7 (destruct x as [|? x]; [discriminate|]). destruct x; [|discriminate]. reflexivity.
Qed.
Lemma linear_error_flat w Js rs x : well_shaped Js rs -> length x = 7%nat ->
  linear_error w Js rs x =
  lsum (fun t => t_w t * (t_res t + rho t (fun i => nth i x 0)) * (t_res t + rho t (fun i => nth i x 0))) (flat w Js rs).
Proof.
  intros HS Hx. unfold flat. rewrite lsum_flat_map. unfold linear_error.
  assert (HF : forall J r, In (J, r) (combine Js rs) -> Forall (fun row => length row = 7%nat) J).
  { intros J r Hin. induction HS as [|J0 r0 Js' rs' [_ HF] HS IH]; [destruct Hin|].
    destruct Hin as [E|Hin]; [injection E as -> ->; auto|auto]. }
  fold (lsum (fun wJr : R * (list (list R) * list R) => fst wJr *
    fold_right Rplus 0 (map (fun ab => (snd ab + row_dot (fst ab) x) * (snd ab + row_dot (fst ab) x))
                            (combine (fst (snd wJr)) (snd (snd wJr))))) (combine w (combine Js rs))).
  apply lsum_ext. intros [c [J r]] Hin. cbn [fst snd]. rewrite lsum_map.
  apply in_combine_r in Hin. apply HF in Hin.
  fold (lsum (fun ab : list R * R => (snd ab + row_dot (fst ab) x) * (snd ab + row_dot (fst ab) x)) (combine J r)).
  rewrite <- lsum_scal. apply lsum_ext. intros [row res] Hab. unfold t_w, t_res, rho, t_row. cbn [fst snd].
  rewrite row_dot_total; auto; [ring|]. apply in_combine_l in Hab. rewrite Forall_forall in Hin. auto.
Qed.

(** expansion of the weighted error of a sum of directions *)
Section Expand.
Variable l : list triple.
Notation A i j := (lsum (fun t => t_w t * t_row t i * t_row t j) l).
Notation b i := (lsum (fun t => t_w t * t_row t i * t_res t) l).
Lemma gradient X H : lsum (fun t => t_w t * rho t H * (rho t X + t_res t)) l =
  total 7 (fun i => H i * (total 7 (fun j => A i j * X j) + b i)).
Proof.
  rewrite (total_ext 7 _ (fun i => lsum (fun t => H i * (t_w t * t_row t i * (rho t X + t_res t))) l)).
  - rewrite total_lsum_swap. apply lsum_ext. intros t _.
    rewrite (total_ext 7 _ (fun i => (t_w t * (rho t X + t_res t)) * (t_row t i * H i))) by (intros; ring).
    rewrite total_scal. change (total 7 (fun i => t_row t i * H i)) with (rho t H). ring.
  - intros i _. rewrite lsum_scal. f_equal.
    rewrite (total_ext 7 _ (fun j => lsum (fun t => t_w t * t_row t i * (t_row t j * X j)) l)).
    2: { intros j _. rewrite Rmult_comm, <- lsum_scal. apply lsum_ext. intros t _. ring. }
    rewrite total_lsum_swap, <- lsum_plus. apply lsum_ext. intros t _. rewrite total_scal. unfold rho. ring.
Qed.
Lemma quad_flat X : quad 7 (fun i j => A i j) X = lsum (fun t => t_w t * rho t X * rho t X) l.
Proof.
  assert (E : lsum (fun t => t_w t * rho t X * rho t X) l =
    total 7 (fun i => X i * (total 7 (fun j => A i j * X j) + 0))).
  { rewrite (total_ext 7 _ (fun i => lsum (fun t => X i * (t_w t * t_row t i * rho t X)) l)).
    - rewrite total_lsum_swap. apply lsum_ext. intros t _.
      rewrite (total_ext 7 _ (fun i => (t_w t * rho t X) * (t_row t i * X i))) by (intros; ring).
      rewrite total_scal. unfold rho. ring.
    - intros i _. rewrite lsum_scal, Rplus_0_r. f_equal.
      rewrite (total_ext 7 _ (fun j => lsum (fun t => t_w t * t_row t i * (t_row t j * X j)) l)).
      2: { intros j _. rewrite Rmult_comm, <- lsum_scal. apply lsum_ext. intros t _. ring. }
      rewrite total_lsum_swap. apply lsum_ext. intros t _. rewrite total_scal. unfold rho. ring. }
  rewrite E. unfold quad. apply total_ext. intros i _. rewrite Rplus_0_r, <- total_scal.
  apply total_ext. intros j _. ring.
Qed.
Lemma expand X H :
  lsum (fun t => t_w t * (t_res t + rho t (fun i => X i + H i)) * (t_res t + rho t (fun i => X i + H i))) l =
  lsum (fun t => t_w t * (t_res t + rho t X) * (t_res t + rho t X)) l +
  2 * total 7 (fun i => H i * (total 7 (fun j => A i j * X j) + b i)) +
  lsum (fun t => t_w t * rho t H * rho t H) l.
Proof.
  rewrite <- gradient, <- lsum_scal, <- !lsum_plus. apply lsum_ext. intros t _.
  assert (E : rho t (fun i => X i + H i) = rho t X + rho t H).
  { unfold rho. rewrite <- total_plus. apply total_ext. intros; ring. }
  rewrite E. ring.
Qed.
End Expand.

(** the directions in the chart *)
Definition mapp (M : nat -> nat -> R) (y : nat -> R) (i : nat) : R := total 6 (fun k => M i k * y k).
Lemma tangent_mapp q y i : (i < 7)%nat -> nth i (tangent q y) 0 = mapp (make_m q) y i.
Proof.
  intros Hi. destruct q as [a b c d].
  do 7 (destruct i as [|i]; [unfold tangent, mapp, make_m, total, hamilton, coords, left_mul_matrix, vdot, vadd, vscale, vcross, qvec; cbn; field|]). lia.
Qed.
Lemma tangent_len q y : length (tangent q y) = 7%nat.
Proof. reflexivity. Qed.
Lemma mapp_norm q y : unit q ->
  total 7 (fun i => mapp (make_m q) y i * mapp (make_m q) y i) =
  (y 0%nat * y 0%nat + y 1%nat * y 1%nat + y 2%nat * y 2%nat) / 4 +
  (y 3%nat * y 3%nat + y 4%nat * y 4%nat + y 5%nat * y 5%nat).
Proof.
  intros U. unfold unit, qnorm2 in U. destruct q as [a b c d]. cbn [qw qx qy qz] in U.
  transitivity ((a * a + b * b + c * c + d * d) * ((y 0%nat * y 0%nat + y 1%nat * y 1%nat + y 2%nat * y 2%nat) / 4) +
    (y 3%nat * y 3%nat + y 4%nat * y 4%nat + y 5%nat * y 5%nat)); [|rewrite U; ring].
  unfold mapp, make_m, total, left_mul_matrix. cbn. field.
Qed.

(** sums through M *)
Lemma through_m (M : nat -> nat -> R) (g : nat -> R) y :
  total 7 (fun i => mapp M y i * g i) = total 6 (fun k => y k * total 7 (fun i => M i k * g i)).
Proof.
  rewrite (total_ext 7 _ (fun i => total 6 (fun k => y k * (M i k * g i)))).
  - rewrite total_swap. apply total_ext. intros k _. apply total_scal.
  - intros i _. unfold mapp. rewrite Rmult_comm, <- total_scal. apply total_ext. intros; ring.
Qed.
Lemma mtam_app (M A : nat -> nat -> R) x k :
  total 7 (fun i => M i k * total 7 (fun j => A i j * mapp M x j)) =
  total 6 (fun l => sum_n 7 (fun i => sum_n 7 (fun j => M i k * A i j * M j l)) * x l).
Proof.
  rewrite (total_ext 6 _ (fun l => total 7 (fun i => x l * total 7 (fun j => M i k * A i j * M j l)))).
  2: { intros l _. rewrite total_scal. rewrite Rmult_comm. reflexivity. }
  rewrite total_swap. apply total_ext. intros i _.
  rewrite (total_ext 6 _ (fun l => total 7 (fun j => M i k * A i j * (M j l * x l)))).
  2: { intros l _. rewrite <- total_scal. apply total_ext. intros; ring. }
  rewrite total_swap, <- total_scal. apply total_ext. intros j _. rewrite total_scal. unfold mapp. ring.
Qed.

Lemma total_sq_pos n x : nonzero n x -> 0 < total n (fun i => x i * x i).
Proof.
  intros [i [Hi Hx]]. apply Rlt_le_trans with (total n (fun j => if Nat.eqb j i then x i * x i else 0)).
  - assert (P : 0 < x i * x i) by nra. clear Hx. unfold total.
    assert (Hin : In i (seq 0 n)) by (apply in_seq; lia).
    assert (G : forall l : list nat, 0 <= fold_right Rplus 0 (map (fun j => if Nat.eqb j i then x i * x i else 0) l)).
    { induction l as [|a l IH]; cbn [map fold_right]; [lra|]. destruct (Nat.eqb a i); lra. }
    revert Hin. generalize (seq 0 n) as l. induction l as [|a l IH]; intros Hin; [destruct Hin|]. cbn [map fold_right].
    destruct Hin as [->|Hin].
    + rewrite Nat.eqb_refl. specialize (G l). lra.
    + specialize (IH Hin). destruct (Nat.eqb a i); lra.
  - apply total_le. intros j _. destruct (Nat.eqb_spec j i) as [->|_]; nra.
Qed.

Lemma shape_checks (Js : list mat) (rs : list (list R)) : well_shaped Js rs ->
  length Js = length rs /\
  forallb (fun J => forallb (fun row => Nat.eqb (length row) 7) J) Js = true /\
  forallb (fun Jr => Nat.eqb (length (fst Jr)) (length (snd Jr))) (combine Js rs) = true.
Proof.
  intros HS. induction HS as [|J r Js rs [HL HF] HS [I1 [I2 I3]]]; [auto|]. cbn [length forallb combine fst snd].
  rewrite I1, I2, I3, !andb_true_r. split; auto. split; [|apply Nat.eqb_eq; auto].
  apply forallb_forall. intros row Hr. rewrite Forall_forall in HF. apply Nat.eqb_eq. auto.
Qed.

Section Step.
Variable eig : nat -> (nat -> nat -> R) -> list R.
Variable llt : nat -> (nat -> nat -> R) -> (nat -> R) -> (nat -> R).
Hypothesis HL : solves_positive_definite llt.
Variable q : quat.
Hypothesis Uq : unit q.
Variables (w : list R) (Js : list mat) (rs : list (list R)).
Hypothesis HS : well_shaped Js rs.
Hypothesis Hlen : length w = length Js.
Hypothesis Hw : Forall (fun c => 0 < c) w.
Hypothesis HE : eigenvalues_of 7 (normal_matrix Js) (eig 7%nat (normal_matrix Js)).
Hypothesis Hnd : forall e, In e (eig 7%nat (normal_matrix Js)) -> / 10 <= Rabs e.

Notation l := (flat w Js rs).
Notation A := (fun i j => lsum (fun t => t_w t * t_row t i * t_row t j) l).
Notation M := (make_m q).

Lemma normal_pd x : nonzero 7 x -> 0 < lsum (fun t => rho t x * rho t x) l.
Proof.
  intros Hx. destruct HE as [H1 H2].
  assert (EN : forall z, quad 7 (normal_matrix Js) z = lsum (fun t => rho t z * rho t z) l).
  { intros z. pose proof (quad_flat (map (fun t => (1, snd t)) l) z) as Q.
    rewrite lsum_map in Q. unfold t_w, rho, t_row in Q. cbn [fst snd] in Q.
    rewrite (lsum_ext _ (fun t => rho t z * rho t z)) in Q.
    2: { intros t _. unfold rho, t_row. ring. }
    rewrite <- Q. unfold quad. apply total_ext. intros i _. apply total_ext. intros j _.
    rewrite (normal_flat w Js rs i j HS Hlen). rewrite lsum_map. cbn [fst snd].
    f_equal. f_equal. apply lsum_ext. intros t _. unfold t_row. ring. }
  destruct (H2 x) as [e [He Hle]]. rewrite EN in Hle.
  apply Rlt_le_trans with (e * total 7 (fun i => x i * x i)); auto.
  pose proof (total_sq_pos 7 x Hx) as P. apply Rmult_lt_0_compat; auto.
  destruct (H1 e He) as [z [Hz Ez]]. pose proof (total_sq_pos 7 z Hz) as Pz.
  assert (Q : quad 7 (normal_matrix Js) z = e * total 7 (fun i => z i * z i)).
  { unfold quad. rewrite <- total_scal. apply total_ext. intros i Hi.
    rewrite (total_ext 7 _ (fun j => z i * (normal_matrix Js i j * z j))) by (intros; ring).
    rewrite total_scal, Ez by auto. ring. }
  assert (P2 : 0 <= quad 7 (normal_matrix Js) z).
  { rewrite EN. rewrite <- (lsum_zero l). apply lsum_le. intros. nra. }
  specialize (Hnd e He). destruct (Rle_lt_dec e 0) as [Hn|]; auto.
  destruct (Rle_lt_dec 0 e) as [Hp0|Hn0].
  - replace e with 0 in Hnd by lra. rewrite Rabs_R0 in Hnd. lra.
  - rewrite Q in P2. nra.
Qed.

Lemma weights_pos t : In t l -> 0 < t_w t.
Proof. intros H. apply flat_in in H; auto. rewrite Forall_forall in Hw. apply Hw. tauto. Qed.

Lemma weighted_pos (f : triple -> R) l0 : (forall t, In t l0 -> 0 < t_w t) -> (forall t, 0 <= f t) ->
  0 < lsum f l0 -> 0 < lsum (fun t => t_w t * f t) l0.
Proof.
  intros H Hf. induction l0 as [|t l0 IH]; unfold lsum; cbn [map fold_right]; [lra|].
  fold (lsum f l0). fold (lsum (fun t => t_w t * f t) l0). intros P.
  assert (Ht : 0 < t_w t) by (apply H; left; auto).
  assert (P2 : 0 <= lsum (fun t => t_w t * f t) l0).
  { rewrite <- (lsum_zero l0). apply lsum_le. intros u Hu. specialize (H u (or_intror Hu)). specialize (Hf u). nra. }
  pose proof (Hf t). destruct (Rlt_le_dec 0 (f t)); [nra|].
  assert (0 < lsum (fun t => t_w t * f t) l0) by (apply IH; [intros; apply H; right; auto|lra]). nra.
Qed.

Lemma mtam_pd : positive_definite 6 (fun k j => sum_n 7 (fun i => sum_n 7 (fun j0 => M i k * A i j0 * M j0 j))).
Proof.
  split.
  - intros i j _ _. change (total 7 (fun a => total 7 (fun c => M a i * A a c * M c j)) =
                           total 7 (fun a => total 7 (fun c => M a j * A a c * M c i))).
    rewrite total_swap. apply total_ext. intros a _. apply total_ext. intros c _.
    replace (lsum (fun t => t_w t * t_row t c * t_row t a) l) with (lsum (fun t => t_w t * t_row t a * t_row t c) l);
      [ring|]. apply lsum_ext. intros; ring.
  - intros y Hy.
    assert (E : quad 6 (fun k j => sum_n 7 (fun i => sum_n 7 (fun j0 => M i k * A i j0 * M j0 j))) y =
      lsum (fun t => t_w t * (rho t (mapp M y) * rho t (mapp M y))) l).
    { rewrite (lsum_ext _ (fun t => t_w t * rho t (mapp M y) * rho t (mapp M y))) by (intros; ring).
      rewrite <- (quad_flat l (mapp M y)). unfold quad at 2.
      rewrite (total_ext 7 _ (fun i => mapp M y i * total 7 (fun j => A i j * mapp M y j))).
      2: { intros i _. rewrite <- total_scal. apply total_ext. intros; ring. }
      rewrite through_m. unfold quad. apply total_ext. intros k _.
      rewrite mtam_app, <- total_scal. apply total_ext. intros j _. ring. }
    rewrite E. apply weighted_pos; [apply weights_pos|intros; nra|].
    apply normal_pd.
    (* M y <> 0 *)
    destruct (Req_dec (total 7 (fun i => mapp M y i * mapp M y i)) 0) as [Hz|Hz].
    + exfalso. rewrite (mapp_norm q y Uq) in Hz. destruct Hy as [i [Hi Hy]]. apply Hy.
      pose proof (Rle_0_sqr (y 0%nat)). pose proof (Rle_0_sqr (y 1%nat)). pose proof (Rle_0_sqr (y 2%nat)).
      pose proof (Rle_0_sqr (y 3%nat)). pose proof (Rle_0_sqr (y 4%nat)). pose proof (Rle_0_sqr (y 5%nat)).
      unfold Rsqr in *.
      do 6 (destruct i as [|i]; [apply Rsqr_eq_0; unfold Rsqr; lra|]). lia.
    + assert (D : forall n f, total n f <> 0 -> exists i, (i < n)%nat /\ f i <> 0).
      { intros n f H. destruct (Classical_Prop.classic (exists i, (i < n)%nat /\ f i <> 0)) as [|N]; auto.
        exfalso. apply H. rewrite <- (total_zero n). apply total_ext. intros i Hi.
        destruct (Req_dec (f i) 0); auto. exfalso. apply N. eauto. }
      destruct (D _ _ Hz) as [i [Hi Hf]]. exists i. split; auto. intros E0. apply Hf. rewrite E0. ring.
Qed.

Lemma step_minimises : exists x,
  calc_update eig llt q w Js rs =
    Ok (angle_axis_to_quaternion (V3 (x 0%nat) (x 1%nat) (x 2%nat)), V3 (x 3%nat) (x 4%nat) (x 5%nat)) /\
  forall y, linear_error w Js rs (tangent q x) <= linear_error w Js rs (tangent q y).
Proof.
  set (A0 := fun i j => fold_right Rplus 0 (map (fun wJ => fst wJ * jtj (snd wJ) i j) (combine w Js))).
  set (b0 := fun i => fold_right Rplus 0
    (map (fun wJr => fst wJr * jtr (fst (snd wJr)) (snd (snd wJr)) i) (combine w (combine Js rs)))).
  set (MtAM := fun k j => sum_n 7 (fun i => sum_n 7 (fun j0 => M i k * A0 i j0 * M j0 j))).
  set (Mtb := fun k => sum_n 7 (fun i => M i k * b0 i)).
  set (s := llt 6%nat MtAM Mtb).
  exists (fun k => - s k). split.
  - unfold calc_update, weighted_update.
    destruct (shape_checks Js rs HS) as [L2 [E1 E2]].
    rewrite (proj2 (Nat.eqb_eq _ _) Hlen). cbn [assert_].
    rewrite (proj2 (Nat.eqb_eq _ _) (eq_trans Hlen L2)). cbn [assert_].
    rewrite E1. cbn [assert_]. rewrite E2. cbn [assert_].
    assert (E3 : is_degenerate eig 7 (fun i j => fold_right Rplus 0 (map (fun J => jtj J i j) Js)) = false).
    { unfold is_degenerate. change (fun i j => fold_right Rplus 0 (map (fun J => jtj J i j) Js)) with (normal_matrix Js).
      destruct (existsb _ _) eqn:E; auto. apply existsb_exists in E. destruct E as [e [He Hlt]].
      specialize (Hnd e He). unfold Rltb in Hlt. destruct (Rlt_dec (Rabs e) (/ 10)); [lra|discriminate]. }
    rewrite E3. reflexivity.
  - intros y. rewrite !linear_error_flat by auto using tangent_len.
    assert (EX : forall z t, rho t (fun i => nth i (tangent q z) 0) = rho t (mapp M z)).
    { intros z t. unfold rho. apply total_ext. intros i Hi. rewrite tangent_mapp by auto. reflexivity. }
    set (x := fun k => - s k).
    rewrite (lsum_ext (fun t => t_w t * (t_res t + rho t (fun i => nth i (tangent q x) 0)) * (t_res t + rho t (fun i => nth i (tangent q x) 0)))
      (fun t => t_w t * (t_res t + rho t (mapp M x)) * (t_res t + rho t (mapp M x)))) by (intros; rewrite EX; reflexivity).
    set (h := fun k => y k - x k).
    rewrite (lsum_ext (fun t => t_w t * (t_res t + rho t (fun i => nth i (tangent q y) 0)) * (t_res t + rho t (fun i => nth i (tangent q y) 0)))
      (fun t => t_w t * (t_res t + rho t (fun i => mapp M x i + mapp M h i)) * (t_res t + rho t (fun i => mapp M x i + mapp M h i)))).
    2: { intros t _. rewrite EX. replace (rho t (mapp M y)) with (rho t (fun i => mapp M x i + mapp M h i)); auto.
         unfold rho. apply total_ext. intros i _. f_equal. unfold mapp. rewrite <- total_plus.
         apply total_ext. intros k _. unfold h. ring. }
    rewrite (expand l (mapp M x) (mapp M h)), through_m.
    assert (G : forall k, (k < 6)%nat -> total 7 (fun i => M i k * (total 7 (fun j => A i j * mapp M x j) +
        lsum (fun t => t_w t * t_row t i * t_res t) l)) = 0).
    { intros k Hk.
      rewrite (total_ext 7 _ (fun i => M i k * total 7 (fun j => A i j * mapp M x j) + M i k * b0 i)).
      2: { intros i _. replace (lsum (fun t => t_w t * t_row t i * t_res t) l) with (b0 i) by (apply jtr_flat; auto). ring. }
      rewrite total_plus, mtam_app.
      assert (ES : forall i j, A0 i j = A i j) by (intros; apply jtj_flat; auto).
      assert (EM : forall k j, MtAM k j = sum_n 7 (fun i => sum_n 7 (fun j0 => M i k * A i j0 * M j0 j))).
      { intros k' j. unfold MtAM. apply (total_ext 7). intros i _. apply (total_ext 7). intros j0 _. rewrite ES. reflexivity. }
      assert (PD : positive_definite 6 MtAM).
      { destruct mtam_pd as [P1 P2]. split.
        - intros i j Hi Hj. rewrite !EM. auto.
        - intros z Hz. specialize (P2 z Hz). unfold quad in *.
          rewrite (total_ext 6 _ (fun i => total 6 (fun j => z i *
             sum_n 7 (fun i0 => sum_n 7 (fun j0 => M i0 i * A i0 j0 * M j0 j)) * z j))); auto.
          intros i _. apply total_ext. intros j _. rewrite EM. reflexivity. }
      pose proof (HL 6%nat MtAM Mtb PD k Hk) as Sol. fold s in Sol.
      rewrite (total_ext 6 _ (fun j => -1 * (MtAM k j * s j))).
      2: { intros j _. rewrite EM. unfold x. ring. }
      rewrite total_scal, Sol. unfold Mtb. change (sum_n 7 (fun i => M i k * b0 i)) with (total 7 (fun i => M i k * b0 i)). ring. }
    rewrite (total_ext 6 _ (fun _ => 0)) by (intros k Hk; rewrite G by auto; ring).
    rewrite total_zero.
    assert (P : 0 <= lsum (fun t => t_w t * rho t (mapp M h) * rho t (mapp M h)) l).
    { rewrite <- (lsum_zero l). apply lsum_le. intros t Ht. pose proof (weights_pos t Ht). pose proof (Rle_0_sqr (rho t (mapp M h))).
      unfold Rsqr in *. nra. }
    lra.
Qed.
End Step.
