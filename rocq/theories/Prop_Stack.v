(** Property C147: stacking of vectors and matrices, and points as rows of a matrix. *)
From Coq Require Import List ZArith Bool Lia Reals.
From Flocq Require Import Core BinarySingleNaN.
From Verif Require Import Base Arith StackModel FiniteProofs.
Import ListNotations.
Open Scope Z_scope.

(** ** Specification *)
(** The matrix has h * n rows and w columns; rows k * h to k * h + h - 1 are those of the k-th of
    the n given h x w blocks. *)
Definition stacked {T} (X : matrix T) (h w : Z) (blocks : list (Z -> Z -> T)) : Prop :=
  rows X = h * Z.of_nat (length blocks) /\ cols X = w /\
  forall k B i j, nth_error blocks k = Some B -> 0 <= i < h -> 0 <= j < w -> entry X (Z.of_nat k * h + i) j = Some (B i j).

(** ** Proofs *)
Lemma block_in {T} (X : matrix T) r c h w B : 0 <= r -> 0 <= c -> r + h <= rows X -> c + w <= cols X ->
  set_block X r c h w B = Ok (Matrix (rows X) (cols X) (fun i j =>
     if (r <=? i) && (i <? r + h) && (c <=? j) && (j <? c + w) then Some (B (i - r) (j - c)) else entry X i j)).
Proof.
  intros. unfold set_block, assert_. repeat match goal with |- context[?a <=? ?b] => destruct (Z.leb_spec a b); [|lia] end. reflexivity.
Qed.
(** A loop whose step writes the block of element i at row i * h. *)
Lemma loop_stacks {T E} (step : matrix T -> Z -> E -> outcome (matrix T)) (block : E -> Z -> Z -> T) (P : E -> Prop) h w n (l : list E) X i :
  0 <= h -> 0 <= w -> 0 <= i ->
  (forall X k e, 0 <= k < n -> rows X = h * n -> cols X = w -> P e -> step X k e = set_block X (k * h) 0 h w (block e)) ->
  rows X = h * n -> cols X = w -> i + zlen l = n -> Forall P l ->
  exists Y, loop step X i l = Ok Y /\ rows Y = h * n /\ cols Y = w /\
    (forall r j, 0 <= r < i * h -> entry Y r j = entry X r j) /\
    (forall k e a j, nth_error l k = Some e -> 0 <= a < h -> 0 <= j < w -> entry Y ((i + Z.of_nat k) * h + a) j = Some (block e a j)).
Proof.
  intros Hh Hw. revert X i. induction l as [|e l IH]; intros X i Hi ST HR HC HN HP.
  - exists X. cbn [loop]. repeat split; auto. intros k ? ? ? H. destruct k; discriminate.
  - pose proof (Forall_inv HP) as Pe. pose proof (Forall_inv_tail HP) as Pl. unfold zlen in HN. cbn [length] in HN. rewrite Nat2Z.inj_succ in HN.
    cbn [loop]. rewrite ST by (auto; lia). rewrite block_in by (try nia). cbn [bind].
    set (X' := Matrix _ _ _). destruct (IH X' (i + 1)) as [Y [E1 [E2 [E3 [E4 E5]]]]]; auto; try lia; [unfold zlen; lia|].
    exists Y. split; [exact E1|]. split; [exact E2|]. split; [exact E3|]. split.
    + intros r j Hr. rewrite E4 by nia. unfold X'. cbn [entry].
      destruct (Z.leb_spec (i * h) r); [lia|reflexivity].
    + intros k e' a j Hk Ha Hj. destruct k as [|k]; cbn [nth_error] in Hk.
      * injection Hk as <-. replace (i + Z.of_nat 0) with i by lia. rewrite E4 by nia. unfold X'. cbn [entry].
        replace (i * h + a - i * h) with a by lia. replace (j - 0) with j by lia.
        repeat match goal with |- context[?a <=? ?b] => destruct (Z.leb_spec a b); [|lia] end.
        repeat match goal with |- context[?a <? ?b] => destruct (Z.ltb_spec a b); [|lia] end. reflexivity.
      * replace (i + Z.of_nat (S k)) with (i + 1 + Z.of_nat k) by lia. now apply E5.
Qed.

(** VectorsToEigen never asserts and makes row k of vector k; no entry is left indeterminate. *)
Theorem C147_vectors_partial {T} N (vectors : list (Z -> T)) : 0 <= N ->
  exists X, vectors_to_eigen N vectors = Ok X /\ stacked X 1 N (map (fun v _ j => v j) vectors).
Proof.
  intros HN. unfold vectors_to_eigen.
  match goal with |- context[loop ?f _ _ _] => set (STEP := f) end. destruct (loop_stacks STEP (fun (v : Z -> T) _ j => v j) (fun _ => True) 1 N (zlen vectors) vectors (fresh (zlen vectors) N) 0)
    as [Y [E1 [E2 [E3 [_ E5]]]]]; try lia; auto.
  - intros X k e _ _ HC _. unfold STEP. rewrite HC. f_equal. lia.
  - cbn [rows fresh]. lia.
  - apply Forall_forall. auto.
  - exists Y. split; [exact E1|]. split; [rewrite map_length; exact E2|]. split; [exact E3|].
    intros k B i j Hk Hi Hj. rewrite nth_error_map in Hk. destruct (nth_error vectors k) as [v|] eqn:Ev; [|discriminate]. injection Hk as <-.
    exact (E5 k v i j Ev Hi Hj).
Qed.
Print Assumptions C147_vectors_partial.

(** HorizontalStack computes the row modulo 2^32: a matrix that should be written at row 2^32 goes
    to row 0, whatever the matrices are, and the first one is lost. *)
Lemma loop_app {T E} (step : matrix T -> Z -> E -> outcome (matrix T)) l1 l2 X i :
  loop step X i (l1 ++ l2) = (Y <- loop step X i l1 ;; loop step Y (i + zlen l1) l2).
Proof.
  revert X i. induction l1 as [|e l1 IH]; intros X i; [cbn [app loop bind]; now rewrite Z.add_0_r|].
  cbn [app loop]. destruct (step X i e) as [Y| | | | |]; cbn [bind]; auto. rewrite IH.
  destruct (loop step Y (i + 1) l1); cbn [bind]; auto. f_equal. unfold zlen. cbn [length]. lia.
Qed.
Theorem C147_large_refuted {T} N M (first : list (Z -> Z -> T)) (last : Z -> Z -> T) : 0 < N -> 0 < M -> N * zlen first = 2 ^ 32 ->
  exists X, horizontal_stack N M (first ++ [last]) = Ok X /\ entry X 0 0 = Some (last 0 0) /\ entry X (2 ^ 32) 0 = None.
Proof.
  intros HN HM HS. unfold horizontal_stack. rewrite loop_app. match goal with |- context[loop ?f _ _ _] => set (STEP := f) end.
  assert (G : forall l X i, 0 <= i -> i * N + N * zlen l = 2 ^ 32 -> rows X = 2 ^ 32 + N -> cols X = M ->
    (forall j, entry X (2 ^ 32) j = None) ->
    exists Y, loop STEP X i l = Ok Y /\ rows Y = 2 ^ 32 + N /\ cols Y = M /\ (forall j : Z, @entry T Y (2 ^ 32) j = None)).
  { induction l as [|e l IH]; intros X i Hi HL HR HC HE; [exists X; auto|].
    unfold zlen in HL. cbn [length] in HL. rewrite Nat2Z.inj_succ in HL. cbn [loop]. unfold STEP at 1.
    rewrite Z.mod_small by nia. rewrite block_in by nia. cbn [bind]. apply IH; auto; try lia.
    - unfold zlen. lia.
    - intros j. cbn [entry]. destruct (Z.ltb_spec (2 ^ 32) (i * N + N)); [nia|]. rewrite Bool.andb_false_r. cbn [andb]. apply HE. }
  destruct (G first (fresh (N * zlen (first ++ [last])) M) 0) as [Y [E1 [E2 [E3 E4]]]]; auto; try lia.
  - cbn [rows fresh]. unfold zlen in *. rewrite app_length. cbn [length]. lia.
  - rewrite E1. cbn [bind loop]. unfold STEP. replace ((0 + zlen first) * N mod 2 ^ 32) with 0.
    + rewrite block_in by lia. cbn [bind]. eexists. split; [reflexivity|]. cbn [entry]. split.
      * destruct (Z.ltb_spec 0 (0 + N)); [|lia]. destruct (Z.ltb_spec 0 (0 + M)); [|lia]. reflexivity.
      * destruct (Z.ltb_spec (2 ^ 32) (0 + N)) as [H|H].
        -- assert (zlen first < 1) by nia. assert (zlen first = 0) by (unfold zlen in *; lia). nia.
        -- rewrite Bool.andb_false_r. cbn [andb]. apply E4.
    + replace ((0 + zlen first) * N) with (1 * 2 ^ 32) by lia. now rewrite Z_mod_mult.
Qed.
Print Assumptions C147_large_refuted.

(** Up to there HorizontalStack never asserts and puts the matrices on top of each other, in
    their order. *)
Theorem C147_matrices_partial {T} N M (matrices : list (Z -> Z -> T)) : 0 < N -> 0 <= M -> N * zlen matrices <= 2 ^ 32 ->
  exists X, horizontal_stack N M matrices = Ok X /\ stacked X N M matrices.
Proof.
  intros HN HM HS. unfold horizontal_stack.
  match goal with |- context[loop ?f _ _ _] => set (STEP := f) end. destruct (loop_stacks STEP (fun B : Z -> Z -> T => B) (fun _ => True) N M (zlen matrices) matrices (fresh (N * zlen matrices) M) 0)
    as [Y [E1 [E2 [E3 [_ E5]]]]]; try lia; auto.
  - intros X k e Hk _ _ _. unfold STEP. rewrite Z.mod_small by nia. reflexivity.
  - apply Forall_forall. auto.
  - exists Y. split; [exact E1|]. split; [exact E2|]. split; [exact E3|]. exact E5.
Qed.
Print Assumptions C147_matrices_partial.

(** Get throws std::out_of_range if some index is not one of a point. *)
Theorem C147_points_out_partial cloud indices : (exists i, In i indices /\ ~ (0 <= i < zlen cloud)) ->
  get_points cloud indices = ThrowRange.
Proof.
  intros HI. unfold get_points. match goal with |- context[loop ?f _ _ _] => set (STEP := f) end.
  assert (G : forall l X i, 0 <= i -> i + zlen l <= rows X -> cols X = 3 -> (exists i, In i l /\ ~ (0 <= i < zlen cloud)) ->
    loop STEP X i l = ThrowRange).
  { induction l as [|e l IH]; intros X i Hi HR HC [a [Ha Hn]]; [destruct Ha|]. unfold zlen in HR. cbn [length] in HR. rewrite Nat2Z.inj_succ in HR.
    cbn [loop]. unfold STEP at 1. unfold vat. destruct (Z.ltb_spec e 0); [reflexivity|]. destruct (nth_error cloud (Z.to_nat e)) as [p|] eqn:Ep; [|reflexivity].
    cbn [bind]. rewrite block_in by lia. cbn [bind]. apply IH; cbn [rows cols]; auto; try lia; [unfold zlen; lia|].
    exists a. split; auto. destruct Ha as [->|Ha]; auto. exfalso. apply Hn. split; auto.
    assert (Z.to_nat a < length cloud)%nat by (apply nth_error_Some; now rewrite Ep). unfold zlen. lia. }
  apply G; auto; cbn [rows cols fresh]; lia.
Qed.
Print Assumptions C147_points_out_partial.
(** Otherwise it has a row for each index, the coordinates of that point without rounding. *)
Theorem C147_points_partial cloud indices : (forall i, In i indices -> 0 <= i < zlen cloud) ->
  exists A, get_points cloud indices = Ok A /\ rows A = zlen indices /\ cols A = 3 /\
    forall k i, nth_error indices k = Some i -> exists p, nth_error cloud (Z.to_nat i) = Some p /\
      exists x y z, entry A (Z.of_nat k) 0 = Some x /\ entry A (Z.of_nat k) 1 = Some y /\ entry A (Z.of_nat k) 2 = Some z /\
        (is_finite (px p) = true -> B2R x = B2R (px p)) /\ (is_finite (py p) = true -> B2R y = B2R (py p)) /\ (is_finite (pz p) = true -> B2R z = B2R (pz p)).
Proof.
  intros HI. unfold get_points. pose (d := PointXYZ B754_nan B754_nan B754_nan).
  match goal with |- context[loop ?f _ _ _] => set (STEP := f) end. destruct (loop_stacks STEP (fun i _ k => get_xyz (nth (Z.to_nat i) cloud d) k) (fun i => 0 <= i < zlen cloud) 1 3 (zlen indices) indices (fresh (zlen indices) 3) 0)
    as [Y [E1 [E2 [E3 [_ E5]]]]]; try lia; auto.
  - intros X k i _ _ HC Hi. unfold STEP, vat. destruct (Z.ltb_spec i 0); [lia|].
    rewrite (nth_error_nth' cloud d) by (unfold zlen in Hi; lia). cbn [bind]. rewrite HC. f_equal. lia.
  - cbn [rows fresh]. lia.
  - now apply Forall_forall.
  - exists Y. split; [exact E1|]. split; [lia|]. split; [exact E3|]. intros k i Hk.
    assert (Hi : 0 <= i < zlen cloud) by (apply HI; eapply nth_error_In; eauto).
    exists (nth (Z.to_nat i) cloud d). split; [apply nth_error_nth'; unfold zlen in Hi; lia|].
    assert (F : forall j, 0 <= j < 3 -> entry Y (Z.of_nat k) j = Some (get_xyz (nth (Z.to_nat i) cloud d) j)).
    { intros j Hj. rewrite <- (E5 k i 0 j) by (auto; lia). f_equal. lia. }
    do 3 eexists. split; [apply F; lia|]. split; [apply F; lia|]. split; [apply F; lia|].
    repeat split; intros; now apply conv64_ok.
Qed.
Print Assumptions C147_points_partial.

(** A point that is made of the coordinates of a point is that point (every NaN is one NaN). *)
Lemma round_trip32 (x : b32) : conv32 (conv64 x) = x.
Proof.
  destruct x as [s|s| |s m e Hb]; try reflexivity.
  set (x := B754_finite s m e Hb). destruct (conv64_ok x eq_refl) as [E F].
  assert (NZ : B2R x <> 0%R) by (unfold x; cbn [B2R]; apply F2R_neq_0; destruct s; discriminate).
  destruct (conv64 x) as [s'|s'| |s' m' e' Hb'] eqn:C; try discriminate.
  - exfalso. apply NZ. symmetry. exact E.
  - cbn [conv32]. pose proof (binary_normalize_correct 24 128 prec32 emax32 mode_NE (cond_Zopp s' (Zpos m')) e' s') as H. cbv zeta in H.
    change (F2R (Float radix2 (cond_Zopp s' (Z.pos m')) e')) with (B2R (B754_finite s' m' e' Hb')) in H.
    change (B2R (B754_finite s' m' e' Hb') = B2R x) in E. rewrite E in H.
    rewrite round_generic in H; [|apply valid_rnd_round_mode|apply generic_format_B2R].
    rewrite Rlt_bool_true in H by apply abs_B2R_lt_emax. destruct H as [H1 [H2 _]].
    apply B2R_inj; auto.
    destruct (binary_normalize 24 128 prec32 emax32 mode_NE (cond_Zopp s' (Z.pos m')) e' s'); try discriminate; auto.
Qed.
Theorem C147_round_trip_partial p : make_point_xyz (get_xyz p) = p.
Proof. destruct p. unfold make_point_xyz, get_xyz. cbn. now rewrite !round_trip32. Qed.
Print Assumptions C147_round_trip_partial.

Example C147_case :
  let M0 := fun i j => 3 * i + j in let M1 := fun i j => 1 + 2 * j + i in
  (exists X, horizontal_stack 2 3 [M0; M1] = Ok X /\ map (fun i => map (entry X i) [0; 1; 2]) [0; 1; 2; 3] =
    [[Some 0; Some 1; Some 2]; [Some 3; Some 4; Some 5]; [Some 1; Some 3; Some 5]; [Some 2; Some 4; Some 6]]) /\
  (exists X, vectors_to_eigen 2 [(fun j => j + 7); (fun j => j)] = Ok X /\ map (fun i => map (entry X i) [0; 1; 2]) [0; 1; 2] =
    [[Some 7; Some 8; None]; [Some 0; Some 1; None]; [None; None; None]]) /\
  (let p := PointXYZ (of_Z32 1) (of_Z32 (-2)) (of_Z32 3) in
   get_points [p; p] [1; 0; 1] <> ThrowRange /\ get_points [p; p] [1; 2] = ThrowRange /\ get_points [p; p] [-1] = ThrowRange).
Proof. repeat split; try (eexists; split; [reflexivity|]; reflexivity); try discriminate; reflexivity. Qed.
(** Matrices of 2 x 1 entries, 2^31 of them and one more. *)
Example C147_large_case : let l := repeat (fun _ _ : Z => 1) (Z.to_nat (2 ^ 31)) in
  2 * zlen l = 2 ^ 32 /\ exists X, horizontal_stack 2 1 (l ++ [fun _ _ => 5]) = Ok X /\ entry X 0 0 = Some 5 /\ entry X (2 ^ 32) 0 = None.
Proof.
  intros l. assert (E : 2 * zlen l = 2 ^ 32) by (unfold l, zlen; rewrite repeat_length, Z2Nat.id by lia; reflexivity).
  split; [exact E|]. now apply (C147_large_refuted 2 1 l (fun _ _ => 5)).
Qed.
