(** Property C148: the matrix of the points of a map. *)
From Coq Require Import List ZArith Bool Lia Reals.
From Flocq Require Import Core BinarySingleNaN.
From Verif Require Import Base Arith StackModel FiniteProofs Prop_Stack.
Import ListNotations.
Open Scope Z_scope.

(** ** Specification *)
(** A double is the same number as a float: zeros and infinities with their signs, NaN, and
    otherwise the same real number. *)
Definition same_number (x : b32) (y : b64) : Prop :=
  match x, y with
  | B754_zero s, B754_zero s' => s = s'
  | B754_infinity s, B754_infinity s' => s = s'
  | B754_nan, B754_nan => True
  | B754_finite _ _ _ _, B754_finite _ _ _ _ => B2R x = B2R y
  | _, _ => False
  end.
(** Row i of the matrix has exactly the given numbers. *)
Definition row_is (X : matrix b64) (i : nat) (l : list b32) : Prop :=
  cols X = zlen l /\
  forall j x, nth_error l j = Some x -> exists y, entry X (Z.of_nat i) (Z.of_nat j) = Some y /\ same_number x y.
(** A row for each point, in their order. *)
Definition matrix_of {P} (X : matrix b64) (numbers : P -> list b32) (points : list P) : Prop :=
  rows X = zlen points /\ forall i p, nth_error points i = Some p -> row_is X i (numbers p).

(** ** Proofs *)
Lemma same_conv64 x : same_number x (conv64 x).
Proof.
  destruct x as [s|s| |s m e Hb]; try (reflexivity || exact I).
  set (x := B754_finite s m e Hb). destruct (conv64_ok x eq_refl) as [E F].
  assert (NZ : B2R x <> 0%R) by (unfold x; cbn [B2R]; apply F2R_neq_0; destruct s; discriminate).
  destruct (conv64 x) as [s'|s'| |s' m' e' Hb'] eqn:C; try discriminate.
  - exfalso. apply NZ. symmetry. exact E.
  - change (B2R x = B2R (B754_finite s' m' e' Hb')). symmetry. exact E.
Qed.
Lemma set_row_ok (X : matrix b64) i v : 0 <= i < rows X -> zlen v = cols X ->
  exists Y, set_row X i v = Ok Y /\ rows Y = rows X /\ cols Y = cols X /\
    (forall r j, r <> i -> entry Y r j = entry X r j) /\ (forall j y, nth_error v j = Some y -> entry Y i (Z.of_nat j) = Some y).
Proof.
  intros Hi Hv. unfold set_row, assert_. rewrite Hv, Z.eqb_refl. destruct v as [|d v].
  - exists X. repeat split; auto. intros j y H. destruct j; discriminate.
  - rewrite block_in by lia. eexists. split; [reflexivity|]. cbn [rows cols entry]. repeat split; auto.
    + intros r j Hr. destruct (Z.leb_spec i r); [|reflexivity]. destruct (Z.ltb_spec r (i + 1)); [lia|reflexivity].
    + intros j y Hj. assert (j < length (d :: v))%nat by (apply nth_error_Some; rewrite Hj; discriminate). unfold zlen in Hv.
      destruct (Z.leb_spec i i); [|lia]. destruct (Z.ltb_spec i (i + 1)); [|lia].
      destruct (Z.leb_spec 0 (Z.of_nat j)); [|lia]. destruct (Z.ltb_spec (Z.of_nat j) (0 + cols X)); [|lia]. cbn [andb].
      rewrite Z.sub_0_r, Nat2Z.id. f_equal. now apply nth_error_nth.
Qed.
Lemma fills C (map_ : list (point C)) : (forall p, zlen (convert C p) = num_dimension C) ->
  exists X, pointcloud_to_matrix C map_ = Ok X /\ rows X = zlen map_ /\ cols X = num_dimension C /\
    forall i p j y, nth_error map_ i = Some p -> nth_error (convert C p) j = Some y -> entry X (Z.of_nat i) (Z.of_nat j) = Some y.
Proof.
  intros HD. unfold pointcloud_to_matrix. match goal with |- context[loop ?f _ _ _] => set (STEP := f) end.
  assert (G : forall post pre X, map_ = pre ++ post -> rows X = zlen map_ -> cols X = num_dimension C ->
    exists Y, loop STEP X (zlen pre) post = Ok Y /\ rows Y = zlen map_ /\ cols Y = num_dimension C /\
      (forall r j, r < zlen pre -> entry Y r j = entry X r j) /\
      (forall i p j y, (length pre <= i)%nat -> nth_error map_ i = Some p -> nth_error (convert C p) j = Some y -> entry Y (Z.of_nat i) (Z.of_nat j) = Some y)).
  { induction post as [|q post IH]; intros pre X E HR HC.
    - exists X. repeat split; auto. intros i p j y Hi Hp. rewrite app_nil_r in E. subst pre.
      assert (i < length map_)%nat by (apply nth_error_Some; rewrite Hp; discriminate). lia.
    - cbn [loop]. unfold STEP at 1.
      assert (Q : nth_error map_ (length pre) = Some q) by (rewrite E, nth_error_app2, Nat.sub_diag by lia; reflexivity).
      assert (V : vat map_ (zlen pre) = Ok q).
      { unfold vat, zlen. destruct (Z.ltb_spec (Z.of_nat (length pre)) 0); [lia|]. now rewrite Nat2Z.id, Q. }
      rewrite V. cbn [bind].
      assert (LT : (length pre < length map_)%nat) by (apply nth_error_Some; rewrite Q; discriminate).
      destruct (set_row_ok X (zlen pre) (convert C q)) as [X' [E1 [E2 [E3 [E4 E5]]]]]; [rewrite HR; unfold zlen; lia|now rewrite HD, HC|].
      rewrite E1. cbn [bind].
      destruct (IH (pre ++ [q]) X') as [Y [F1 [F2 [F3 [F4 F5]]]]]; [now rewrite <- app_assoc|now rewrite E2|now rewrite E3|].
      assert (L : zlen (pre ++ [q]) = zlen pre + 1) by (unfold zlen; rewrite app_length; cbn [length]; lia).
      rewrite L in F1, F4. exists Y. split; [exact F1|]. split; [exact F2|]. split; [exact F3|]. split.
      + intros r j Hr. rewrite F4 by lia. apply E4. lia.
      + intros i p j y Hi Hp Hj. destruct (Nat.eq_dec i (length pre)) as [->|NE].
        * rewrite Q in Hp. injection Hp as <-. rewrite F4 by (unfold zlen; lia). now apply E5.
        * apply (F5 i p); auto. rewrite app_length. cbn [length]. lia. }
  destruct (G map_ [] (fresh (zlen map_) (num_dimension C)) eq_refl eq_refl eq_refl) as [Y [E1 [E2 [E3 [_ E5]]]]].
  exists Y. split; [exact E1|]. split; [exact E2|]. split; [exact E3|]. intros i p j y Hp Hj. apply (E5 i p); auto. cbn. lia.
Qed.
Lemma matrix_rows C (numbers : point C -> list b32) map_ : (forall p, convert C p = map conv64 (numbers p)) -> (forall p, zlen (numbers p) = num_dimension C) ->
  exists X, pointcloud_to_matrix C map_ = Ok X /\ matrix_of X numbers map_.
Proof.
  intros H1 H2. destruct (fills C map_) as [X [E1 [E2 [E3 E4]]]].
  - intros p. rewrite H1. unfold zlen. rewrite map_length. apply H2.
  - exists X. split; [exact E1|]. split; [exact E2|]. intros i p Hp. split; [now rewrite E3, H2|]. intros j x Hx.
    exists (conv64 x). split; [|apply same_conv64]. apply (E4 i p); auto. rewrite H1, nth_error_map, Hx. reflexivity.
Qed.

(** Every cloud becomes a matrix, without an exception or a failed assertion: a row for each
    point, in their order, with x, y, z and curvature ... *)
Theorem C148_xyzcr map_ : exists X, pointcloud_to_matrix xyzcr_to_vector map_ = Ok X /\
  matrix_of X (fun p => [cx p; cy p; cz p; ccurvature p]) map_.
Proof. now apply (matrix_rows xyzcr_to_vector). Qed.
Print Assumptions C148_xyzcr.
(** ... or x, y and z. *)
Theorem C148_xyzcr_xyz map_ : exists X, pointcloud_to_matrix xyzcr_to_xyz_vector map_ = Ok X /\
  matrix_of X (fun p => [cx p; cy p; cz p]) map_.
Proof. now apply (matrix_rows xyzcr_to_xyz_vector). Qed.
Print Assumptions C148_xyzcr_xyz.
Theorem C148_xyz map_ : exists X, pointcloud_to_matrix xyz_to_vector map_ = Ok X /\
  matrix_of X (fun p => [px p; py p; pz p]) map_.
Proof. now apply (matrix_rows xyz_to_vector). Qed.
Print Assumptions C148_xyz.

Example C148_case : let p := PointXYZCR (of_Z32 1) (of_Z32 (-2)) B754_nan (of_Z32 7) 3 in let q := PointXYZCR (B754_zero true) (of_Z32 5) (B754_infinity true) (of_Z32 0) 4 in
  exists X, pointcloud_to_matrix xyzcr_to_vector [p; q; p] = Ok X /\ rows X = 3 /\ cols X = 4 /\
    option_map B2SF (entry X 0 1) = Some (B2SF (of_Z64 (-2))) /\ option_map B2SF (entry X 1 0) = Some (B2SF (B754_zero true : b64)) /\
    option_map B2SF (entry X 2 3) = Some (B2SF (of_Z64 7)) /\ entry X 2 4 = None /\ entry X 3 0 = None.
Proof. intros p q. eexists. split; [reflexivity|]. repeat split; vm_compute; reflexivity. Qed.
