(** Property C117 and a part of C76: the point type converter raises on clouds that do not match their announced
    layout. *)
From Coq Require Import String List ZArith Bool Lia.
From Verif Require Import Base ConvertModel SpecConvert ConvertProofs.
Import ListNotations.
Open Scope Z_scope.

(** An exception is raised, so nothing is published. *)
Definition raises {A : Type} (o : outcome A) : Prop := o = AssertFail \/ o = ThrowRange \/ o = ThrowOther.

Lemma insert_in f g l : In f (insert g l) <-> f = g \/ In f l.
Proof.
  induction l as [|h l IH]; cbn [insert]; [cbn; intuition|]. destruct (offset g <=? offset h); cbn [In]; [intuition|]. rewrite IH. intuition.
Qed.
Lemma sort_in f l : In f (sort_fields l) <-> In f l.
Proof. induction l as [|g l IH]; cbn [sort_fields fold_right]; [tauto|]. rewrite insert_in. fold (sort_fields l). rewrite IH. cbn [In]. intuition. Qed.
Lemma type_ok i d : get_datatype i = Ok d -> i <= 8 /\ (1 <= i -> data_size d = type_size i).
Proof.
  unfold get_datatype, vat. cbv zeta. destruct (i - 1 <? 0) eqn:E1.
  - intros _. split; lia.
  - rewrite E1. destruct (nth_error datatypes (Z.to_nat (i - 1))) eqn:E; [|discriminate]. intros H. injection H as ->.
    assert (L : (Z.to_nat (i - 1) < 8)%nat) by (change 8%nat with (length datatypes); apply nth_error_Some; rewrite E; discriminate).
    split; [lia|]. intros _. assert (C : i = 1 \/ i = 2 \/ i = 3 \/ i = 4 \/ i = 5 \/ i = 6 \/ i = 7 \/ i = 8) by lia.
    repeat (destruct C as [-> | C]; [injection E as <-; reflexivity|]). subst i. injection E as <-. reflexivity.
Qed.
Lemma type_raises i : (exists d, get_datatype i = Ok d) \/ get_datatype i = ThrowRange.
Proof. unfold get_datatype, vat. cbv zeta. repeat match goal with |- context [if ?b then _ else _] => destruct b end; try (right; reflexivity); destruct (nth_error _ _); eauto. Qed.

(** * The format covers every field *)
Definition size (fmt : list fchar) : Z := fold_right (fun c s => char_size c + s) 0 fmt.
Lemma size_app a b : size (a ++ b) = size a + size b.
Proof. unfold size. induction a as [|x a IH]; cbn [app fold_right]; [lia|]. lia. Qed.
Lemma size_pad n : size (repeat Pad n) = Z.of_nat n.
Proof. unfold size. induction n as [|n IH]; cbn [repeat fold_right]; [reflexivity|]. rewrite IH. cbn [char_size]. lia. Qed.
Lemma size_pos d : 0 < data_size d.
Proof. destruct d; cbn; lia. Qed.
Lemma format_fold fields : forall fmt index, size fmt = index ->
  (exists fmt' index', foldM format_step (fmt, index) fields = Ok (fmt', index') /\ size fmt' = index' /\ index <= index' /\
     Forall (fun f => datatype f <= 8 /\ (1 <= datatype f -> offset f + type_size (datatype f) <= index')) fields)
  \/ foldM format_step (fmt, index) fields = ThrowRange.
Proof.
  induction fields as [|f fields IH]; intros fmt index S; cbn [foldM]; [left; exists fmt, index; repeat split; auto; lia|].
  unfold format_step at 1 3. set (s := if index <? offset f then _ else _).
  assert (E : exists fmt1 i1, s = (fmt1, i1) /\ size fmt1 = i1 /\ index <= i1 /\ offset f <= i1).
  { unfold s. destruct (index <? offset f) eqn:E; eexists; eexists; (split; [reflexivity|]).
    - rewrite size_app, size_pad. lia.
    - lia. }
  destruct E as (fmt1 & i1 & -> & S1 & L1 & L2).
  destruct (type_raises (datatype f)) as [[d E]|E]; rewrite E; cbn [bind]; [|right; reflexivity].
  destruct (type_ok _ _ E) as [T1 T2]. pose proof (size_pos d).
  destruct (IH (fmt1 ++ [Val d]) (i1 + data_size d)) as [(fmt' & i' & E' & S' & L' & F)|E'].
  - rewrite size_app. cbn. lia.
  - left. exists fmt', i'. split; [exact E'|]. split; [auto|]. split; [lia|]. constructor; auto. split; [auto|]. intros H1. rewrite <- (T2 H1). lia.
  - right. exact E'.
Qed.
Lemma format_covers fields step : 
  (exists fmt, create_point_format fields step = Ok fmt /\ step <= size fmt /\
     Forall (fun f => datatype f <= 8 /\ (1 <= datatype f -> offset f + type_size (datatype f) <= size fmt)) fields)
  \/ create_point_format fields step = ThrowRange.
Proof.
  unfold create_point_format. destruct (format_fold fields [] 0 eq_refl) as [(fmt & i & -> & S & _ & F)| ->]; cbn [bind]; [left|right; reflexivity].
  eexists. split; [reflexivity|]. destruct (i <? step) eqn:E.
  - assert (Z1 : size (fmt ++ repeat Pad (Z.to_nat (step - i))) = step) by (rewrite size_app, size_pad; lia). rewrite Z1. split; [lia|].
    eapply Forall_impl; [|exact F]. cbn. intros f [F1 F2]. split; auto. intros. specialize (F2 H). lia.
  - rewrite S. split; [lia|]. exact F.
Qed.
Lemma size_repeat n fmt : size (concat (repeat fmt n)) = Z.of_nat n * size fmt.
Proof. induction n as [|n IH]; cbn [repeat concat]; [reflexivity|]. rewrite size_app, IH. lia. Qed.
Lemma char_pos c : 0 < char_size c.
Proof. destruct c; cbn; [lia|apply size_pos]. Qed.
Lemma unpack_size big fmt : forall bytes, (exists v, unpack big fmt bytes = Ok v /\ Z.of_nat (length bytes) = size fmt) \/ unpack big fmt bytes = ThrowOther.
Proof.
  induction fmt as [|c fmt IH]; intros bytes; cbn [unpack].
  - destruct bytes; [left; eexists; split; reflexivity|right; reflexivity].
  - pose proof (char_pos c). destruct (Nat.ltb_spec (length bytes) (Z.to_nat (char_size c))); [right; reflexivity|].
    destruct (IH (skipn (Z.to_nat (char_size c)) bytes)) as [(v & -> & L)| ->]; cbn [bind]; [left|right; reflexivity].
    eexists. split; [reflexivity|]. rewrite skipn_length in L. cbn [size fold_right]. fold (size fmt). lia.
Qed.

Section Reject.
Variable to_f32 to_f64 : value -> option Z.
(** What is rejected: a step of zero, data that are no whole number of steps, a field of a type
    above 8 (even if there are no points), and, if there are points, a field that does not end
    inside the step. *)
Theorem C117_rejected_partial input : 0 <= point_step input ->
  point_step input = 0 \/ ~ (point_step input | Z.of_nat (length (data input))) \/
  (exists f, In f (cfields input) /\ 8 < datatype f) \/
  (data input <> [] /\ exists f, In f (cfields input) /\ 1 <= datatype f /\ point_step input < offset f + type_size (datatype f)) ->
  raises (callback to_f32 to_f64 input).
Proof.
  intros P0 H. unfold callback, unpack_point_bytes. set (fields := sort_fields _).
  assert (IN : forall f, In f (cfields input) -> In f fields) by (intros f Hf; apply sort_in, in_or_app; auto).
  set (step := point_step input) in *. set (bytes := data input) in *.
  destruct (step =? 0) eqn:E0; [right; right; reflexivity|]. unfold zlen.
  destruct (Z.of_nat (length bytes) mod step =? 0) eqn:EM; cbn [assert_ bind]; [|left; reflexivity].
  assert (DV : (step | Z.of_nat (length bytes))) by (apply Z.mod_divide; lia).
  unfold create_points_format. destruct (format_covers fields step) as [(fmt & -> & S1 & F)| ->]; cbn [bind]; [|right; left; reflexivity].
  rewrite Forall_forall in F.
  destruct H as [H|[H|[(f & Hf & Ht)|(NE & f & Hf & H1 & H2)]]]; [lia|contradiction| |].
  - destruct (F f (IN f Hf)) as [F1 _]. lia.
  - destruct (F f (IN f Hf)) as [_ F2]. specialize (F2 H1).
    match goal with |- context [unpack ?b ?m ?y] => destruct (unpack_size b m y) as [(v & _ & L)| ->] end; [|right; right; reflexivity].
    exfalso. rewrite size_repeat in L.
    assert (0 < Z.of_nat (length bytes)) by (destruct bytes; [congruence|cbn; lia]).
    destruct DV as [k K]. rewrite K in L, H. rewrite Z.div_mul in L by lia. nia.
Qed.
End Reject.

(** * Integers that do not fit are not packed (part of C76) *)
Definition vals (fmt : list fchar) : list dtype := flat_map (fun c => match c with Pad => [] | Val d => [d] end) fmt.
Lemma vals_app a b : vals (a ++ b) = vals a ++ vals b.
Proof. unfold vals. apply flat_map_app. Qed.
Lemma vals_pad n : vals (repeat Pad n) = [].
Proof. induction n; cbn; auto. Qed.
Lemma vals_layout fields step : forall idx, vals (layout_fmt idx fields step) = map (fun f => dtype_of (datatype f)) fields.
Proof.
  induction fields as [|f l IH]; intros idx; cbn [layout_fmt map]; [apply vals_pad|]. rewrite vals_app, vals_pad. cbn [app]. unfold vals. cbn [flat_map app]. f_equal. apply IH.
Qed.
Lemma laid_valid fields step : forall idx, laid_out idx fields step -> Forall (fun f => valid_type (datatype f)) fields.
Proof. induction fields as [|f l IH]; intros idx H; [constructor|]. cbn in H. destruct H as [_ [V H]]. constructor; [auto|]. apply (IH _ H). Qed.

Section Pack.
Variable to_f32 to_f64 : value -> option Z.
Lemma pack_encodes big fmt : forall values bytes, pack to_f32 to_f64 big fmt values = Ok bytes ->
  Forall2 (fun d v => exists b, encode to_f32 to_f64 big d v = Ok b) (vals fmt) values.
Proof.
  induction fmt as [|[|d] fmt IH]; intros values bytes H; cbn [pack] in H.
  - destruct values; [constructor|discriminate H].
  - destruct (pack to_f32 to_f64 big fmt values) eqn:E; try discriminate H. apply (IH _ _ E).
  - destruct values as [|v values]; [discriminate H|]. destruct (encode to_f32 to_f64 big d v) eqn:E1; try discriminate H. cbn [bind] in H.
    destruct (pack to_f32 to_f64 big fmt values) eqn:E; try discriminate H. unfold vals. cbn [flat_map app]. constructor; [eauto|]. apply (IH _ _ E).
Qed.
Lemma encode_fits big id v b : valid_type id -> id <= 6 -> encode to_f32 to_f64 big (dtype_of id) v = Ok b -> holds id v.
Proof.
  unfold valid_type. intros V L H. assert (C : id = 1 \/ id = 2 \/ id = 3 \/ id = 4 \/ id = 5 \/ id = 6) by lia.
  destruct C as [-> |[-> |[-> |[-> |[-> | ->]]]]]; destruct v as [z|z|z]; cbn in H; try discriminate H; cbn;
    match type of H with (if ?c then _ else _) = _ => destruct c eqn:E; [|discriminate H] end; lia.
Qed.
Lemma concat_split {A B : Type} (P : A -> B -> Prop) (ds : list A) points :
  Forall (fun vs => length vs = length ds) points ->
  Forall2 P (concat (repeat ds (length points))) (concat points) -> Forall (Forall2 P ds) points.
Proof.
  induction points as [|vs points IH]; intros L H; [constructor|]. inversion L as [|? ? LV LP]; subst. cbn [length repeat concat] in H.
  apply Forall2_app_inv_l in H. destruct H as (l1 & l2 & H1 & H2 & E).
  assert (L1 : length l1 = length vs) by (rewrite LV; clear - H1; induction H1; cbn; auto).
  assert (E2 : l1 = vs /\ l2 = concat points).
  { clear - E L1. revert vs L1 E. induction l1 as [|a l1 IH]; intros [|v vs] L E; try discriminate L; cbn in *; [auto|].
    injection E as -> E. injection L as L. destruct (IH _ L E) as [-> ->]. auto. }
  destruct E2 as [-> ->]. constructor; auto.
Qed.
Lemma concat_vals n fmt : vals (concat (repeat fmt n)) = concat (repeat (vals fmt) n).
Proof. induction n as [|n IH]; cbn [repeat concat]; [reflexivity|]. rewrite vals_app, IH. reflexivity. Qed.

(** If packing succeeds, every integer fits into its field, so nothing wrapped: together with
    [C76_round_trip], whatever integers could be packed are read back. *)
Theorem C76_packed_in_range big fields step points bytes : laid_out 0 fields step ->
  Forall (fun vs => length vs = length fields) points ->
  pack_point_data to_f32 to_f64 points fields step big = Ok bytes ->
  Forall (Forall2 (fun f v => datatype f <= 6 -> holds (datatype f) v) fields) points.
Proof.
  intros H L HP. unfold pack_point_data, create_points_format in HP. rewrite create_layout in HP by auto. cbn [bind] in HP. unfold zlen in HP. rewrite Nat2Z.id in HP.
  apply pack_encodes in HP. rewrite concat_vals, vals_layout in HP. apply concat_split in HP.
  - apply laid_valid in H. clear - H HP. induction HP as [|vs points HV _ IH]; constructor; auto. clear IH.
    revert vs HV. induction H as [|f fields V _ IH]; intros vs HV; inversion HV; subst; constructor; auto.
    intros L6. destruct H1 as [b E]. apply (encode_fits big _ _ b V L6 E).
  - rewrite map_length. exact L.
Qed.
End Pack.

(** * Type 0 *)
(** Type 0, the value of a field that was never set, is no type of the message definition, but
    Python reads index -1 of the list of types: the field is taken for a double.  A cloud with
    such a field is converted. *)
Definition type0_fields : list field :=
  [Field "x" 0 7 1; Field "y" 4 7 1; Field "z" 8 7 1; Field "intensity" 16 7 1; Field "ring" 20 4 1; Field "time" 24 0 1].
Definition type0_point : list Z := [0; 0; 128; 63; 0; 0; 0; 0; 0; 0; 0; 0; 0; 0; 0; 0; 0; 0; 160; 64; 3; 1; 7; 7; 1; 2; 3; 4; 5; 6; 7; 8].
Theorem C117_unset_type_refuted to_f32 to_f64 : exists input out f,
  In f (cfields input) /\ ~ valid_type (datatype f) /\ data input <> [] /\ callback to_f32 to_f64 input = Ok out /\ ConvertModel.width out = 1.
Proof.
  exists (Cloud2 0 1 1 type0_fields false 32 32 type0_point true). eexists. exists (Field "time" 24 0 1).
  split; [cbn; tauto|]. split; [unfold valid_type; cbn; lia|]. split; [discriminate|]. split; [vm_compute; reflexivity|reflexivity].
Qed.
(** A field of type 0 is read as a double. *)
Theorem C117_read_as_double_refuted big p : length p = 8%nat ->
  exists v, unpack_point_bytes p [Field "time" 0 0 1] 8 big = Ok [[v]] /\ stored big 8 p v.
Proof.
  intros L. do 8 (destruct p as [|? p]; [discriminate L|]). destruct p; [|discriminate L]. eexists. split.
  - unfold unpack_point_bytes, zlen, split. cbn -[decode]. reflexivity.
  - split; [reflexivity|]. unfold decode. cbv zeta.
    rewrite from_bytes_place. reflexivity.
Qed.
Print Assumptions C76_packed_in_range.
Print Assumptions C117_rejected_partial.
Print Assumptions C117_unset_type_refuted.
Print Assumptions C117_read_as_double_refuted.

(** A field of type 9; a point cut off after 31 bytes; a field reaching beyond the step. *)
Example ex_C117 :
  (exists f, In f (cfields (Cloud2 0 1 1 (Field "a" 24 9 1 :: type0_fields) false 32 32 type0_point true)) /\ 8 < datatype f) /\
  ~ (32 | Z.of_nat (length (removelast type0_point))) /\
  (exists f, In f (cfields (Cloud2 0 1 1 (Field "b" 30 7 1 :: type0_fields) false 32 32 type0_point true)) /\ 1 <= datatype f /\ 32 < offset f + type_size (datatype f)).
Proof.
  split; [exists (Field "a" 24 9 1); cbn; split; [auto|lia]|]. split.
  - intros [k K]. cbn in K. lia.
  - exists (Field "b" 30 7 1). cbn. split; [auto|lia].
Qed.
(** 200 fits into an unsigned byte, 300 does not. *)
Example ex_C76_range to_f32 to_f64 :
  laid_out 0 [Field "ring" 1 2 1] 3 /\
  pack_point_data to_f32 to_f64 [[VInt 200]] [Field "ring" 1 2 1] 3 false = Ok [0; 200; 0] /\
  pack_point_data to_f32 to_f64 [[VInt 300]] [Field "ring" 1 2 1] 3 false = ThrowOther.
Proof. split; [cbn; unfold valid_type; cbn; lia|]. split; vm_compute; reflexivity. Qed.
