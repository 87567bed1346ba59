(** Lemmas for Prop_Convert.v. *)
From Coq Require Import String List ZArith Bool Lia Permutation Sorted.
From Verif Require Import Base ConvertModel SpecConvert.
Import ListNotations.
Open Scope Z_scope.

Lemma skipn_skipn {A} a b (l : list A) : skipn a (skipn b l) = skipn (a + b) l.
Proof.
  revert l. induction b as [|b IH]; intros l; [rewrite Nat.add_0_r; reflexivity|].
  rewrite Nat.add_succ_r. destruct l; [rewrite !skipn_nil; reflexivity|]. cbn [skipn]. apply IH.
Qed.
(** ** Bytes *)
Lemma ordered_little big l : ordered big l = little big l.
Proof. reflexivity. Qed.
Lemma little_length big l : length (little big l) = length l.
Proof. destruct big; cbn; auto. apply rev_length. Qed.
Lemma little_twice big l : little big (little big l) = l.
Proof. destruct big; cbn; auto. apply rev_involutive. Qed.
Lemma little_bytes big l : Forall is_byte l -> Forall is_byte (little big l).
Proof. destruct big; cbn; auto. apply Forall_rev. Qed.

Lemma from_bytes_range l : Forall is_byte l -> 0 <= from_bytes l < 256 ^ Z.of_nat (length l).
Proof.
  unfold from_bytes. induction 1 as [|b l Hb Hl IH]; cbn [fold_right length]; [cbn; lia|].
  rewrite Nat2Z.inj_succ, Z.pow_succ_r by lia. unfold is_byte in Hb. nia.
Qed.
Lemma from_bytes_place l : from_bytes l = place_value l.
Proof.
  unfold from_bytes, place_value. induction l as [|b l IH]; [reflexivity|].
  cbn [fold_right length seq map nth]. rewrite <- seq_shift, map_map. change (Z.of_nat 0) with 0. rewrite Z.pow_0_r, Z.mul_1_r.
  f_equal. rewrite IH. generalize (seq 0 (length l)). intros s. induction s as [|i s IHs]; cbn [map fold_right nth]; [lia|].
  rewrite Z.mul_add_distr_l, IHs. f_equal. rewrite Nat2Z.inj_succ, Z.pow_succ_r by lia. ring.
Qed.
Lemma to_from l : Forall is_byte l -> to_bytes (length l) (from_bytes l) = l.
Proof.
  unfold from_bytes. induction 1 as [|b l Hb Hl IH]; [reflexivity|]. cbn [fold_right length to_bytes].
  unfold is_byte in Hb. f_equal.
  - rewrite Z.mul_comm, Z.mod_add, Z.mod_small by lia. auto.
  - rewrite Z.mul_comm, Z.div_add, Z.div_small by lia. exact IH.
Qed.
Lemma to_bytes_length n z : length (to_bytes n z) = n.
Proof. revert z. induction n as [|n IH]; intros z; cbn; auto. Qed.
Lemma to_bytes_bytes n z : Forall is_byte (to_bytes n z).
Proof. revert z. induction n as [|n IH]; intros z; cbn; constructor; auto. unfold is_byte. apply Z.mod_pos_bound. lia. Qed.
Lemma from_to n z : from_bytes (to_bytes n z) = z mod 256 ^ Z.of_nat n.
Proof.
  unfold from_bytes. revert z. induction n as [|n IH]; intros z; cbn [to_bytes fold_right]; [cbn; rewrite Z.mod_1_r; auto|].
  rewrite IH, Nat2Z.inj_succ, Z.pow_succ_r by lia. rewrite Z.rem_mul_r by lia. lia.
Qed.

(** ** Types *)
Definition dtype_of (id : Z) : dtype :=
  match id with 1 => I8 | 2 => U8 | 3 => I16 | 4 => U16 | 5 => I32 | 6 => U32 | 7 => F32 | _ => F64 end.
Lemma valid_cases id : valid_type id -> id = 1 \/ id = 2 \/ id = 3 \/ id = 4 \/ id = 5 \/ id = 6 \/ id = 7 \/ id = 8.
Proof. unfold valid_type. lia. Qed.
Ltac types H := apply valid_cases in H; destruct H as [->|[->|[->|[->|[->|[->|[->| ->]]]]]]].
Lemma get_dtype id : valid_type id -> get_datatype id = Ok (dtype_of id).
Proof. intros H. types H; reflexivity. Qed.
Lemma dtype_size id : valid_type id -> data_size (dtype_of id) = type_size id.
Proof. intros H. types H; reflexivity. Qed.
Lemma type_size_pos id : valid_type id -> 1 <= type_size id <= 8.
Proof. intros H. types H; cbn; lia. Qed.

Lemma pow_bytes n : 0 <= n -> 256 ^ n = 2 ^ (8 * n).
Proof. intros. rewrite Z.pow_mul_r by lia. reflexivity. Qed.

Lemma decode_stored big id bytes : valid_type id -> Z.of_nat (length bytes) = type_size id -> Forall is_byte bytes ->
  stored big id bytes (decode big (dtype_of id) bytes).
Proof.
  intros V L B. split; auto. cbv zeta. rewrite <- from_bytes_place.
  pose proof (from_bytes_range _ (little_bytes big _ B)) as R. rewrite little_length, L in R.
  unfold decode. rewrite ordered_little. set (u := from_bytes (little big bytes)) in *.
  types V; cbn [dtype_of]; try reflexivity; eexists; (split; [reflexivity|]); cbn [data_size type_size] in *; unfold signed;
    match goal with |- context[?u <? ?b] => destruct (Z.ltb_spec u b) end; rewrite pow_bytes in R by lia; cbn in *; (split; [lia|]);
    try (apply Z.mod_small; lia).
  all: match goal with |- (?u - ?m) mod ?m = ?u => replace (u - m) with (u + (-1) * m) by lia; rewrite Z.mod_add by lia; apply Z.mod_small; lia end.
Qed.
Lemma stored_unique big id bytes v w : stored big id bytes v -> stored big id bytes w -> v = w.
Proof.
  intros [_ S1] [_ S2]. cbv zeta in *. set (u := place_value _) in *.
  assert (V : valid_type id \/ ~ valid_type id) by (unfold valid_type; lia). destruct V as [V|V].
  2: { exfalso. unfold valid_type in V. destruct id as [|[[[]|[]|]|[[]|[]|]|]|]; try lia; auto; destruct p; try lia; auto. }
  types V; cbn [type_size] in *; try congruence; destruct S1 as [z [-> [R1 E1]]], S2 as [y [-> [R2 E2]]]; f_equal.
  all: match type of E1 with _ mod ?m = _ => assert (D : (z - y) mod m = 0) by (rewrite Zminus_mod, E1, E2, Z.sub_diag; reflexivity); apply Z.mod_divide in D; [|cbn; lia]; destruct D as [k D]; cbn in *; assert (k = 0) by nia; subst k; lia end.
Qed.

Section Conv.
Variable to_f32 to_f64 : value -> option Z.
Notation encode := (encode to_f32 to_f64).
Notation pack := (pack to_f32 to_f64).

Lemma encode_ok big id v : valid_type id -> holds id v ->
  exists b, encode big (dtype_of id) v = Ok b /\ Z.of_nat (length b) = type_size id /\ Forall is_byte b /\ decode big (dtype_of id) b = v.
Proof.
  intros V H.
  assert (G : forall (z : Z) u, u = z mod 2 ^ (8 * type_size id) -> exists b, b = ordered big (to_bytes (Z.to_nat (type_size id)) z) /\
     Z.of_nat (length b) = type_size id /\ Forall is_byte b /\ from_bytes (ordered big b) = u).
  { intros z u ->. eexists. split; [reflexivity|]. pose proof (type_size_pos id V). rewrite ordered_little, little_length, to_bytes_length.
    split; [lia|]. split; [apply little_bytes, to_bytes_bytes|]. rewrite ordered_little, little_twice, from_to, Z2Nat.id, pow_bytes by lia. auto. }
  types V; destruct v as [z|z|z]; cbn [holds] in H; try contradiction; unfold ConvertModel.encode, decode; cbn [dtype_of data_size type_size] in *.
  all: try (match goal with |- context[if ?b then _ else _] => replace b with true by (symmetry; apply andb_true_intro; split; [apply Z.leb_le|apply Z.ltb_lt]; lia) end).
  all: destruct (G z _ eq_refl) as [b [-> [G1 [G2 G3]]]]; eexists; split; [reflexivity|]; split; [exact G1|]; split; [exact G2|]; f_equal; rewrite G3.
  all: cbn; try (apply Z.mod_small; cbn in H; lia).
  all: unfold signed; cbn in *.
  all: match goal with |- context[?y mod ?m] => destruct (Z.ltb_spec y 0); [rewrite <- (Zmod_unique y m (-1) (y + m)) by lia|rewrite (Z.mod_small y m) by lia] end.
  all: match goal with |- (if ?a <? ?b then _ else _) = _ => destruct (Z.ltb_spec a b); lia end.
Qed.

(** ** Formats *)
Definition total (fmt : list fchar) : Z := fold_right (fun c acc => char_size c + acc) 0 fmt.
Lemma total_app a b : total (a ++ b) = total a + total b.
Proof. induction a as [|c a IH]; [reflexivity|]. unfold total in *. cbn [app fold_right]. rewrite IH. lia. Qed.
Lemma total_nonneg a : 0 <= total a.
Proof. induction a as [|c a IH]; [cbn; lia|]. unfold total in *. cbn [fold_right]. assert (0 <= char_size c) by (destruct c as [|d]; [|destruct d]; cbn; lia). lia. Qed.
Lemma total_pads n : total (repeat Pad n) = Z.of_nat n.
Proof. induction n as [|n IH]; [reflexivity|]. unfold total in *. cbn [repeat fold_right char_size] in *. rewrite IH. lia. Qed.

Fixpoint layout_fmt (idx : Z) (fields : list field) (step : Z) : list fchar :=
  match fields with
  | [] => repeat Pad (Z.to_nat (step - idx))
  | f :: l => repeat Pad (Z.to_nat (offset f - idx)) ++ Val (dtype_of (datatype f)) :: layout_fmt (offset f + type_size (datatype f)) l step
  end.

Lemma format_layout fields step : forall idx fmt, laid_out idx fields step ->
  exists fmt' idx', foldM format_step (fmt, idx) fields = Ok (fmt', idx') /\ idx' <= step /\
    fmt' ++ repeat Pad (Z.to_nat (step - idx')) = fmt ++ layout_fmt idx fields step.
Proof.
  induction fields as [|f l IH]; intros idx fmt H; cbn [foldM laid_out layout_fmt] in *; [eauto|].
  destruct H as [H1 [H2 H3]]. unfold format_step at 1.
  assert (E : (if idx <? offset f then (fmt ++ repeat Pad (Z.to_nat (offset f - idx)), offset f) else (fmt, idx)) = (fmt ++ repeat Pad (Z.to_nat (offset f - idx)), offset f)).
  { destruct (Z.ltb_spec idx (offset f)); auto. replace (offset f - idx) with 0 by lia. cbn. rewrite app_nil_r. f_equal. lia. }
  rewrite E, get_dtype by auto. cbn [bind]. rewrite dtype_size by auto.
  destruct (IH _ ((fmt ++ repeat Pad (Z.to_nat (offset f - idx))) ++ [Val (dtype_of (datatype f))]) H3) as [fmt' [idx' [E1 [E2 E3]]]].
  exists fmt', idx'. split; auto. split; auto. rewrite E3, <- !app_assoc. reflexivity.
Qed.
Lemma create_layout fields step : laid_out 0 fields step -> create_point_format fields step = Ok (layout_fmt 0 fields step).
Proof.
  intros H. unfold create_point_format. destruct (format_layout fields step 0 [] H) as [fmt [idx [E1 [E2 E3]]]]. rewrite E1. cbn [bind].
  f_equal. destruct (Z.ltb_spec idx step); [exact E3|]. cbn in E3. rewrite <- E3. replace (step - idx) with 0 by lia. cbn. rewrite app_nil_r. auto.
Qed.
Lemma layout_total fields step : forall idx, laid_out idx fields step -> total (layout_fmt idx fields step) = step - idx.
Proof.
  induction fields as [|f l IH]; intros idx H; cbn [laid_out layout_fmt] in *; [rewrite total_pads; lia|].
  destruct H as [H1 [H2 H3]]. rewrite total_app, total_pads. unfold total. cbn [fold_right char_size]. fold (total (layout_fmt (offset f + type_size (datatype f)) l step)).
  rewrite (IH _ H3), dtype_size by auto. lia.
Qed.

Lemma unpack_app big f1 f2 b1 b2 : total f1 = Z.of_nat (length b1) ->
  unpack big (f1 ++ f2) (b1 ++ b2) = (v1 <- unpack big f1 b1 ;; v2 <- unpack big f2 b2 ;; Ok (v1 ++ v2)).
Proof.
  revert b1. induction f1 as [|c f1 IH]; intros b1 H.
  - destruct b1; [|cbn in H; lia]. cbn [app unpack bind]. destruct (unpack big f2 b2); reflexivity.
  - cbn [app unpack]. unfold total in H. cbn [fold_right] in H. fold (total f1) in H.
    pose proof (total_nonneg f1).
    set (n := Z.to_nat (char_size c)) in *.
    assert (Hn : Z.of_nat n = char_size c) by (unfold n; destruct c as [|d]; [|destruct d]; reflexivity).
    assert (L : (n <= length b1)%nat) by lia.
    replace (length (b1 ++ b2) <? n)%nat with false by (symmetry; apply Nat.ltb_ge; rewrite app_length; lia).
    replace (length b1 <? n)%nat with false by (symmetry; apply Nat.ltb_ge; lia).
    rewrite skipn_app. replace (n - length b1)%nat with 0%nat by lia. cbn [skipn].
    rewrite IH by (rewrite skipn_length; lia).
    destruct (unpack big f1 (skipn n b1)); cbn [bind]; auto. destruct (unpack big f2 b2); cbn [bind]; auto.
    rewrite firstn_app. replace (n - length b1)%nat with 0%nat by lia. cbn [firstn]. rewrite app_nil_r. destruct c; reflexivity.
Qed.
Lemma unpack_pads big n b : length b = n -> unpack big (repeat Pad n) b = Ok [].
Proof.
  revert b. induction n as [|n IH]; intros b H; destruct b as [|x b]; try discriminate H; [reflexivity|].
  cbn [repeat unpack char_size]. change (Z.to_nat 1) with 1%nat. cbn [length Nat.ltb Nat.leb skipn]. rewrite IH by (cbn in H; lia). reflexivity.
Qed.
Lemma unpack_one big d b : Z.of_nat (length b) = data_size d -> unpack big [Val d] b = Ok [decode big d b].
Proof.
  intros H. cbn [unpack char_size]. rewrite <- H, Nat2Z.id, Nat.ltb_irrefl, skipn_all, firstn_all. reflexivity.
Qed.

Definition reading (big : bool) (p : list Z) (f : field) : value := decode big (dtype_of (datatype f)) (slice p (offset f) (type_size (datatype f))).

Lemma laid_out_le fields step : forall idx, laid_out idx fields step -> idx <= step.
Proof.
  induction fields as [|f l IH]; intros idx H; cbn [laid_out] in H; [auto|]. destruct H as [H1 [H2 H3]]. apply IH in H3.
  pose proof (type_size_pos _ H2). lia.
Qed.

Lemma unpack_layout big fields step p : Z.of_nat (length p) = step -> forall idx, 0 <= idx -> laid_out idx fields step ->
  unpack big (layout_fmt idx fields step) (skipn (Z.to_nat idx) p) = Ok (map (reading big p) fields).
Proof.
  intros L. induction fields as [|f l IH]; intros idx I H; cbn [laid_out layout_fmt map] in *.
  - apply unpack_pads. rewrite skipn_length. lia.
  - destruct H as [H1 [H2 H3]]. pose proof (type_size_pos _ H2) as TS. pose proof (laid_out_le _ _ _ H3) as LE.
    set (sz := type_size (datatype f)) in *.
    assert (EP : skipn (Z.to_nat idx) p = slice p idx (offset f - idx) ++ slice p (offset f) sz ++ skipn (Z.to_nat (offset f + sz)) p).
    { unfold slice.
      assert (E1 : skipn (Z.to_nat (offset f + sz)) p = skipn (Z.to_nat sz) (skipn (Z.to_nat (offset f)) p)) by (rewrite skipn_skipn; f_equal; lia).
      rewrite E1, firstn_skipn.
      assert (E2 : skipn (Z.to_nat (offset f)) p = skipn (Z.to_nat (offset f - idx)) (skipn (Z.to_nat idx) p)) by (rewrite skipn_skipn; f_equal; lia).
      rewrite E2, firstn_skipn. reflexivity. }
    assert (L1 : length (slice p idx (offset f - idx)) = Z.to_nat (offset f - idx)) by (unfold slice; rewrite firstn_length, skipn_length; lia).
    assert (L2 : length (slice p (offset f) sz) = Z.to_nat sz) by (unfold slice; rewrite firstn_length, skipn_length; lia).
    rewrite EP, unpack_app by (rewrite total_pads, L1; reflexivity). rewrite unpack_pads by auto. cbn [bind].
    change (Val (dtype_of (datatype f)) :: layout_fmt (offset f + sz) l step) with ([Val (dtype_of (datatype f))] ++ layout_fmt (offset f + sz) l step).
    rewrite unpack_app.
    2: { unfold total. cbn [fold_right char_size]. rewrite dtype_size by auto. fold sz. lia. }
    rewrite unpack_one. 2: { rewrite dtype_size by auto. fold sz. lia. }
    rewrite (IH (offset f + sz) ltac:(lia) H3). reflexivity.
Qed.

(** ** Packing *)
Lemma pack_app big f1 v1 b1 f2 v2 : pack big f1 v1 = Ok b1 -> pack big (f1 ++ f2) (v1 ++ v2) = (b2 <- pack big f2 v2 ;; Ok (b1 ++ b2)).
Proof.
  revert v1 b1. induction f1 as [|c f1 IH]; intros v1 b1 H; cbn [app ConvertModel.pack] in *.
  - destruct v1; [|discriminate]. injection H as <-. cbn [app]. destruct (pack big f2 v2); reflexivity.
  - destruct c as [|d].
    + destruct (pack big f1 v1) as [r| | | | |] eqn:E; try discriminate H. injection H as <-. rewrite (IH _ _ E). destruct (pack big f2 v2); reflexivity.
    + destruct v1 as [|v v1]; [discriminate|]. cbn [app]. destruct (encode big d v) as [b| | | | |]; try discriminate H. cbn [bind] in *.
      destruct (pack big f1 v1) as [r| | | | |] eqn:E; try discriminate H. injection H as <-. rewrite (IH _ _ E).
      destruct (pack big f2 v2); cbn [bind]; auto. rewrite <- app_assoc. reflexivity.
Qed.
Lemma pack_pads big n : pack big (repeat Pad n) [] = Ok (repeat 0 n).
Proof. induction n as [|n IH]; cbn [repeat ConvertModel.pack]; auto. rewrite IH. reflexivity. Qed.

Lemma pack_layout big fields step : forall idx values, laid_out idx fields step -> Forall2 (fun f v => holds (datatype f) v) fields values ->
  exists b, pack big (layout_fmt idx fields step) values = Ok b /\ Z.of_nat (length b) = step - idx /\ Forall is_byte b /\
    unpack big (layout_fmt idx fields step) b = Ok values.
Proof.
  assert (ZB : forall n, Forall is_byte (repeat 0 n)) by (induction n; cbn; constructor; auto; unfold is_byte; lia).
  induction fields as [|f l IH]; intros idx values H HV; cbn [laid_out layout_fmt] in *.
  - inversion HV; subst. rewrite pack_pads. eexists. split; [reflexivity|]. split; [rewrite repeat_length; lia|]. split; auto. apply unpack_pads. apply repeat_length.
  - destruct H as [H1 [H2 H3]]. inversion HV as [|? v ? vs Hv Hvs]; subst.
    destruct (IH _ _ H3 Hvs) as [b [P1 [P2 [P3 P4]]]]. destruct (encode_ok big _ _ H2 Hv) as [e [E1 [E2 [E3 E4]]]].
    exists (repeat 0 (Z.to_nat (offset f - idx)) ++ e ++ b).
    change (v :: vs) with ([] ++ [v] ++ vs). rewrite (pack_app _ _ _ _ _ _ (pack_pads big _)).
    split. { cbn [app ConvertModel.pack]. rewrite E1. cbn [bind]. rewrite P1. reflexivity. }
    split. { rewrite !app_length, repeat_length. lia. }
    split. { apply Forall_app; split; auto. apply Forall_app; split; auto. }
    rewrite unpack_app by (rewrite total_pads, repeat_length; reflexivity). rewrite unpack_pads by apply repeat_length. cbn [bind app].
    change (Val (dtype_of (datatype f)) :: layout_fmt (offset f + type_size (datatype f)) l step) with ([Val (dtype_of (datatype f))] ++ layout_fmt (offset f + type_size (datatype f)) l step).
    rewrite unpack_app. 2: { unfold total. cbn [fold_right char_size]. rewrite dtype_size by auto. lia. }
    rewrite unpack_one by (rewrite dtype_size by auto; auto). rewrite P4, E4. reflexivity.
Qed.

(** ** Many points *)
Lemma split_chunks {A} m (l : list (list A)) fuel : (0 < m)%nat -> Forall (fun c => length c = m) l -> (length (concat l) <= fuel)%nat ->
  split_fuel fuel (concat l) m = l.
Proof.
  intros Hm. revert fuel. induction l as [|c l IH]; intros fuel HF Hf; [destruct fuel; reflexivity|].
  inversion HF as [|? ? Hc Hl]; subst. destruct c as [|x c]; [cbn in Hm; lia|].
  cbn [concat app length] in *. destruct fuel as [|fuel]; [lia|]. cbn [split_fuel].
  rewrite app_length in Hf. change (x :: c ++ concat l) with ((x :: c) ++ concat l).
  rewrite firstn_app, skipn_app. change (length (x :: c)) with (S (length c)). rewrite Nat.sub_diag. rewrite firstn_O, skipn_O, app_nil_r.
  change (S (length c)) with (length (x :: c)). rewrite firstn_all, skipn_all. cbn [app]. f_equal. apply IH; auto. lia.
Qed.
Lemma split_ok {A} m (l : list (list A)) : (0 < m)%nat -> Forall (fun c => length c = m) l -> split (concat l) m = Ok l.
Proof. intros Hm HF. unfold split. destruct m; [lia|]. rewrite split_chunks; auto. Qed.

Lemma unpack_repeat big fmt pts vals : Forall2 (fun p v => total fmt = Z.of_nat (length p) /\ unpack big fmt p = Ok v) pts vals ->
  unpack big (concat (repeat fmt (length pts))) (concat pts) = Ok (concat vals).
Proof.
  induction 1 as [|p v pts vals [H1 H2] HF IH]; [reflexivity|]. cbn [length repeat concat]. rewrite unpack_app by auto. rewrite H2, IH. reflexivity.
Qed.
Lemma pack_repeat big fmt vals bs : Forall2 (fun v b => pack big fmt v = Ok b) vals bs ->
  pack big (concat (repeat fmt (length vals))) (concat vals) = Ok (concat bs).
Proof.
  induction 1 as [|v b vals bs H HF IH]; [reflexivity|]. cbn [length repeat concat]. rewrite (pack_app _ _ _ _ _ _ H), IH. reflexivity.
Qed.
Lemma concat_length_const {A} m (l : list (list A)) : Forall (fun c => length c = m) l -> length (concat l) = (length l * m)%nat.
Proof. induction 1 as [|c l H HF IH]; cbn [concat length]; auto. rewrite app_length, H, IH. lia. Qed.
Lemma Forall2_map_r' {A B} (P : A -> B -> Prop) f l : Forall (fun a => P a (f a)) l -> Forall2 P l (map f l).
Proof. induction 1; cbn; constructor; auto. Qed.

Lemma unpack_points big fields step pts : laid_out 0 fields step -> fields <> [] -> 0 < step ->
  Forall (fun p => Z.of_nat (length p) = step) pts ->
  unpack_point_bytes (concat pts) fields step big = Ok (map (fun p => map (reading big p) fields) pts).
Proof.
  intros H NE S HL. unfold unpack_point_bytes.
  assert (LC : zlen (concat pts) = step * Z.of_nat (length pts)).
  { unfold zlen. rewrite (concat_length_const (Z.to_nat step)); [lia|]. eapply Forall_impl; [|exact HL]. cbn. intros. lia. }
  replace (step =? 0) with false by (symmetry; apply Z.eqb_neq; lia).
  rewrite LC, Z.mul_comm, Z.mod_mul, Z.div_mul by lia. cbn [Z.eqb assert_].
  unfold create_points_format. rewrite create_layout by auto. cbn [bind]. rewrite Nat2Z.id.
  rewrite (unpack_repeat big _ pts (map (fun p => map (reading big p) fields) pts)).
  - cbn [bind]. apply split_ok; [destruct fields; [congruence|cbn; lia]|]. apply Forall_forall. intros c Hc. apply in_map_iff in Hc. destruct Hc as [p [<- _]]. apply map_length.
  - apply Forall2_map_r'. eapply Forall_impl; [|exact HL]. cbn. intros p Hp. split; [rewrite layout_total by auto; lia|].
    apply (unpack_layout big fields step p Hp 0); auto; lia.
Qed.

Lemma pack_points big fields step vals : laid_out 0 fields step ->
  Forall (fun vs => Forall2 (fun f v => holds (datatype f) v) fields vs) vals ->
  exists bs, pack_point_data to_f32 to_f64 vals fields step big = Ok (concat bs) /\
    Forall2 (fun v b => pack big (layout_fmt 0 fields step) v = Ok b) vals bs /\
    Forall (fun b => Z.of_nat (length b) = step /\ Forall is_byte b) bs /\
    Forall2 (fun v b => unpack big (layout_fmt 0 fields step) b = Ok v) vals bs.
Proof.
  intros H HV.
  assert (G : exists bs, Forall2 (fun v b => pack big (layout_fmt 0 fields step) v = Ok b) vals bs /\
    Forall (fun b => Z.of_nat (length b) = step /\ Forall is_byte b) bs /\
    Forall2 (fun v b => unpack big (layout_fmt 0 fields step) b = Ok v) vals bs).
  { induction HV as [|v vals Hv HF IH]; [exists []; auto|]. destruct IH as [bs [I1 [I2 I3]]].
    destruct (pack_layout big fields step 0 v H Hv) as [b [P1 [P2 [P3 P4]]]]. exists (b :: bs).
    split; [constructor; auto|]. split; [constructor; auto; split; [lia|auto]|constructor; auto]. }
  destruct G as [bs [G1 [G2 G3]]]. exists bs. split; auto.
  unfold pack_point_data, create_points_format. rewrite create_layout by auto. cbn [bind]. unfold zlen. rewrite Nat2Z.id. apply pack_repeat. auto.
Qed.
End Conv.
