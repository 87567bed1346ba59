(** Matrix to quaternion and back in doubles. *)
From Coq Require Import List ZArith Bool Lia Lra Reals Psatz SpecFloat.
From Flocq Require Import Core IEEE754.BinarySingleNaN.
From Verif Require Import Base Arith LibModel LocModel PoseModel AngleProofs SpecIeee RoundTripModel SpecDrift.
Import ListNotations.
Open Scope R_scope.

(** ** Over the reals RoundTripModel.v is PoseModel.v *)
Definition real_quat (q : dquat exact) : quat := Qn (dw _ q) (dx _ q) (dy _ q) (dz _ q).
Definition real_mat (m : dmat3 exact) : mat3 := M3 (d00 _ m) (d01 _ m) (d02 _ m) (d10 _ m) (d11 _ m) (d12 _ m) (d20 _ m) (d21 _ m) (d22 _ m).
Lemma rotation_agrees q : real_mat (d_to_rotation exact q) = to_rotation (real_quat q).
Proof. destruct q as [w x y z]. unfold real_mat, real_quat, d_to_rotation, to_rotation. cbn. change (D exact) with R in *. f_equal; ring. Qed.
Lemma quat_agrees b m : real_quat (d_quat_of exact b m) = quat_of (real_mat m).
Proof.
  destruct m as [a b' c d e f g h i]. unfold real_mat, d_quat_of, quat_of, d_trace, dhalf. cbn. change (D exact) with R in *.
  replace (if b then a + (e + i) else a + e + i) with (a + e + i) by (destruct b; ring).
  assert (HF : 1 / 2 = / 2) by lra. rewrite HF.
  destruct (Rltb 0 (a + e + i)); [reflexivity|]. destruct (Rltb (if Rltb a e then e else a) i); [reflexivity|]. destruct (Rltb a e); reflexivity.
Qed.

(** ** A vehicle facing 100 degrees to the left of the first axis *)
Section Float.
Variable acosf : b64 -> b64.
Notation A := (ieee acosf).
Definition hundred : dquat A :=
  DQ A (div64 (of_Z64 5789716078925341) (of_Z64 9007199254740992)) (B754_zero false) (B754_zero false) (div64 (of_Z64 6899914937159737) (of_Z64 9007199254740992)).
Definition ftrip b (m : dmat3 A) : dmat3 A := d_to_rotation A (d_quat_of A b m).
Definition shown (m : dmat3 A) : list spec_float :=
  map B2SF [d00 _ m; d01 _ m; d02 _ m; d10 _ m; d11 _ m; d12 _ m; d20 _ m; d21 _ m; d22 _ m].
Lemma shown_inj m m' : shown m = shown m' -> m = m'.
Proof. destruct m, m'. unfold shown. cbn [map]. intros H. injection H as ? ? ? ? ? ? ? ? ?. f_equal; apply B2SF_inj; assumption. Qed.
Definition at_first : list spec_float := [S754_finite true 6256334945874824 (-55); S754_finite true 8870359658994712 (-53); S754_zero false; S754_finite false 8870359658994712 (-53);
  S754_finite true 6256334945874824 (-55); S754_zero false; S754_zero false; S754_zero false; S754_finite false 4503599627370496 (-52)].
Definition at_last : list spec_float := [S754_finite true 6488918948641984 (-53); S754_finite true 8870359658994711 (-53); S754_zero false; S754_finite false 8870359658994711 (-53);
  S754_finite true 6488918948641984 (-53); S754_zero false; S754_zero false; S754_zero false; S754_finite false 4503599627370496 (-52)].
Lemma shown_first : shown (d_to_rotation A hundred) = at_first.
Proof. vm_compute. reflexivity. Qed.
Lemma shown_last b : shown (Nat.iter 95 (ftrip b) (d_to_rotation A hundred)) = at_last.
Proof. destruct b; vm_compute; reflexivity. Qed.
Lemma shown_next b : shown (Nat.iter 96 (ftrip b) (d_to_rotation A hundred)) = at_last.
Proof. destruct b; vm_compute; reflexivity. Qed.
Lemma stays b n : (95 <= n)%nat -> shown (Nat.iter n (ftrip b) (d_to_rotation A hundred)) = at_last.
Proof.
  assert (F : ftrip b (Nat.iter 95 (ftrip b) (d_to_rotation A hundred)) = Nat.iter 95 (ftrip b) (d_to_rotation A hundred)).
  { apply shown_inj. rewrite shown_last. apply (shown_next b). }
  intros H. replace n with ((n - 95) + 95)%nat by lia. set (k := (n - 95)%nat). clearbody k. rewrite <- (shown_last b). f_equal.
  induction k as [|k IH]; [reflexivity|]. change (Nat.iter (S k + 95) (ftrip b) (d_to_rotation A hundred)) with (ftrip b (Nat.iter (k + 95) (ftrip b) (d_to_rotation A hundred))). rewrite IH. exact F.
Qed.
Definition matrix_of (l : list spec_float) : mat3 :=
  let v i := SF2R radix2 (nth i l S754_nan) in M3 (v 0%nat) (v 1%nat) (v 2%nat) (v 3%nat) (v 4%nat) (v 5%nat) (v 6%nat) (v 7%nat) (v 8%nat).
Lemma real_shown T : lin (real_pose acosf T) = matrix_of (shown (dlin _ T)).
Proof. unfold matrix_of, shown, real_pose. cbn [nth map lin]. rewrite !SF2R_B2SF. reflexivity. Qed.

(** ** Updates with scans without features *)
Variable b : bool.
Variable Jac Res : Type.
Variable dot : Res -> D A.
Variable calc_update : dquat A -> list (D A) -> list Jac -> list Res -> outcome (dquat A * dvec A).
Variable qmul : dquat A -> dquat A -> dquat A.
Variable vadd : dvec A -> dvec A -> dvec A.
Variable converged : dquat A -> dvec A -> bool.
Variable sel : selector A.
Variable b_scale k_huber tiny dmax : D A.
Notation updates := (d_updates A b Jac Res dot calc_update qmul vadd converged sel b_scale k_huber tiny dmax).
Lemma featureless_updates max_iter scans m t : (1 <= max_iter)%Z -> Forall featureless scans ->
  updates max_iter scans (DP A m t) = Ok (DP A (Nat.iter (length scans) (ftrip b) m) t, map (fun _ => false) scans).
Proof.
  intros HM F. revert m. induction F as [|scan scans U F IH]; intros m; [reflexivity|]. cbn [d_updates].
  assert (E : d_update A b Jac Res dot calc_update qmul vadd converged sel b_scale k_huber tiny dmax max_iter scan (DP A m t) = Ok (DP A (ftrip b m) t, false)).
  { unfold d_update, localizer_update, opt_run. cbn [d_of_pose dlin dtra]. destruct (U (DP A (ftrip b m) t)) as [J HJ].
    replace (Z.to_nat max_iter) with (S (Z.to_nat (max_iter - 1))) by lia. replace (max_iter <? 0)%Z with false by (symmetry; apply Z.ltb_ge; lia).
    cbn [opt_loop]. unfold d_make_pose. fold (ftrip b m). rewrite HJ. reflexivity. }
  rewrite E. cbn [bind]. rewrite IH. cbn [bind length map]. f_equal. f_equal. f_equal.
  clear. induction (length scans) as [|k IH]; [reflexivity|]. exact (f_equal (ftrip b) IH).
Qed.
End Float.
