(** Properties C75 and C76: the point type converter. *)
From Coq Require Import String List ZArith Bool Lia Permutation Sorting.
From Verif Require Import Base ConvertModel SpecConvert ConvertProofs ConvertProofs2.
Import ListNotations.
Open Scope Z_scope.

(** Size in bytes of a struct format: a padding byte counts one. *)
Definition format_size (fmt : list fchar) : Z :=
  fold_right Z.add 0 (map (fun c => match c with Pad => 1 | Val d => type_size (datatype_id d) end) fmt).
Lemma format_size_total fmt : format_size fmt = total fmt.
Proof. unfold format_size, total. induction fmt as [|c l IH]; cbn [map fold_right]; auto. rewrite IH. f_equal. destruct c as [|[]]; reflexivity. Qed.

(** ** C76 *)
(** The generated format consumes exactly point_step bytes per point. *)
Theorem C76_format_size fields step n : laid_out 0 fields step ->
  exists fmt, create_points_format fields (Z.of_nat n) step = Ok fmt /\ format_size fmt = step * Z.of_nat n.
Proof.
  intros H. unfold create_points_format. rewrite create_layout by auto. cbn [bind]. eexists. split; [reflexivity|].
  rewrite format_size_total, Nat2Z.id. pose proof (layout_total fields step 0 H) as E. induction n as [|n IH]; cbn [repeat concat]; [cbn; lia|].
  rewrite total_app, IH, E. lia.
Qed.
(** Any list of non-overlapping fields inside the step, once sorted the way the node does. *)
Theorem C76_sorted_format_size fields step : ForallOrdPairs apart fields -> 0 <= step ->
  Forall (fun f => 0 <= offset f /\ offset f + type_size (datatype f) <= step /\ valid_type (datatype f)) fields ->
  Permutation (sort_fields fields) fields /\
  exists fmt, create_point_format (sort_fields fields) step = Ok fmt /\ format_size fmt = step.
Proof.
  intros HA HS HF. split; [apply sort_perm|].
  assert (L : laid_out 0 (sort_fields fields) step).
  { apply sorted_laid_out; [apply sort_sorted| | | |lia].
    - eapply pairs_perm; [apply apart_sym|apply Permutation_sym, sort_perm|auto].
    - eapply Permutation_Forall; [apply Permutation_sym, sort_perm|exact HF].
    - eapply Permutation_Forall; [apply Permutation_sym, sort_perm|]. eapply Forall_impl; [|exact HF]. cbn. tauto. }
  rewrite create_layout by auto. eexists. split; [reflexivity|]. rewrite format_size_total, layout_total by auto. lia.
Qed.
(** Reading: for every point and every field, the value stored in the bytes at the field's
    offset. *)
Theorem C76_values_at_offsets big fields step pts : laid_out 0 fields step -> fields <> [] -> 0 < step ->
  Forall (fun p => Z.of_nat (length p) = step /\ Forall is_byte p) pts ->
  exists values, unpack_point_bytes (concat pts) fields step big = Ok values /\
    Forall2 (fun p vs => Forall2 (fun f v => stored big (datatype f) (slice p (offset f) (type_size (datatype f))) v) fields vs) pts values.
Proof.
  intros H NE S HP. eexists. split.
  - apply unpack_points; auto. eapply Forall_impl; [|exact HP]. cbn. tauto.
  - apply Forall2_map_r'. eapply Forall_impl; [|exact HP]. cbn. intros p [L B]. clear - H L B.
    apply Forall2_map_r'.
    assert (G : forall start, 0 <= start -> laid_out start fields step ->
      Forall (fun f => stored big (datatype f) (slice p (offset f) (type_size (datatype f))) (reading big p f)) fields);
      [|apply (G 0); auto; lia].
    clear H. induction fields as [|f l IH]; intros start I H; [constructor|]. cbn [laid_out] in H. destruct H as [H1 [V H3]].
    pose proof (type_size_pos _ V) as TS. pose proof (laid_out_le _ _ _ H3) as LE. constructor.
    + unfold reading. destruct (slice_ok p (offset f) (type_size (datatype f))) as [A1 A2]; try lia; auto.
      apply decode_stored; auto. rewrite A1. lia.
    + apply (IH (offset f + type_size (datatype f))); auto. lia.
Qed.
(** The value stored in given bytes is unique. *)
Theorem C76_stored_unique big id bytes v w : stored big id bytes v -> stored big id bytes w -> v = w.
Proof. exact (stored_unique big id bytes v w). Qed.

Section Conversions.
Variable to_f32 to_f64 : value -> option Z.
(** Packing well-typed values and unpacking them with the same layout gives them back, in
    either byte order; the packed data has point_step bytes per point. *)
Theorem C76_round_trip big fields step points : laid_out 0 fields step -> fields <> [] -> 0 < step ->
  Forall (fun vs => Forall2 (fun f v => holds (datatype f) v) fields vs) points ->
  exists bytes, pack_point_data to_f32 to_f64 points fields step big = Ok bytes /\
    Z.of_nat (length bytes) = step * Z.of_nat (length points) /\ Forall is_byte bytes /\
    unpack_point_bytes bytes fields step big = Ok points.
Proof.
  intros H NE S HV. destruct (pack_points to_f32 to_f64 big fields step points H HV) as [bs [P1 [P2 [P3 P4]]]].
  exists (concat bs). split; auto.
  assert (LB : length bs = length points) by (clear - P2; induction P2; cbn; auto).
  assert (LF : Forall (fun b => Z.of_nat (length b) = step) bs) by (eapply Forall_impl; [|exact P3]; cbn; tauto).
  split. { rewrite (concat_length_const (Z.to_nat step)), LB; [lia|]. eapply Forall_impl; [|exact LF]. cbn. intros. lia. }
  split. { clear - P3. induction P3 as [|b bs [_ B] _ IH]; cbn; auto. apply Forall_app; auto. }
  rewrite (unpack_points big fields step bs H NE S LF). f_equal.
  assert (U : Forall (fun b => unpack big (layout_fmt 0 fields step) b = Ok (map (reading big b) fields)) bs).
  { eapply Forall_impl; [|exact LF]. intros b Hb. exact (unpack_layout big fields step b Hb 0 ltac:(lia) H). }
  clear - P4 U. revert P4. generalize points. induction U as [|b bs Hb HF IH]; intros ps P4; inversion P4; subst; cbn; auto.
  f_equal; [congruence|apply IH; auto].
Qed.

(** ** C75: for every layout that leaves bytes 12..15 free and has intensity before ring
    (what the sensor drivers named in the package produce), every header, both byte orders,
    all bytes.  Missing: layouts outside this class, refuted below. *)
Theorem C75_converted_partial fields step oi or big header height width row dense pts :
  gap_layout fields step oi or ->
  Forall (fun p => Z.of_nat (length p) = step /\ Forall is_byte p) pts ->
  exists ks, kept (fun p => ~ at_origin big p) pts ks /\
    callback to_f32 to_f64 (Cloud2 header height width fields big step row (concat pts) dense) =
    Ok (Cloud2 header 1 (Z.of_nat (length ks))
          [Field "x" 0 7 1; Field "y" 4 7 1; Field "z" 8 7 1; Field "padding" 12 7 1; Field "intensity" 16 7 1; Field "ring" 20 4 1]
          false 32 (32 * Z.of_nat (length ks)) (concat (map (converted big oi or) ks)) true).
Proof. exact (callback_spec to_f32 to_f64 fields step oi or big header height width row dense pts). Qed.
(** The announced row_step is the length of the data. *)
Theorem C75_row_step_partial fields step oi or big header height width row dense pts :
  gap_layout fields step oi or ->
  Forall (fun p => Z.of_nat (length p) = step /\ Forall is_byte p) pts ->
  exists out, callback to_f32 to_f64 (Cloud2 header height width fields big step row (concat pts) dense) = Ok out /\
    row_step out = Z.of_nat (length (data out)) /\ row_step out = 32 * ConvertModel.width out.
Proof.
  intros HL HP. destruct (callback_spec to_f32 to_f64 fields step oi or big header height width row dense pts HL HP) as [ks [K E]].
  eexists. split; [exact E|]. cbn [row_step data ConvertModel.width]. split; auto.
  rewrite (concat_length_const 32). { rewrite map_length. lia. }
  assert (IK : forall p, In p ks -> In p pts). { clear - K. induction K; cbn; intros q; [auto|intros [<-|I]; auto|auto]. }
  apply Forall_forall. intros c Hc. apply in_map_iff in Hc. destruct Hc as [p [<- Ip]]. apply IK in Ip.
  rewrite Forall_forall in HP. destruct (HP p Ip) as [L B].
  destruct HL as (_ & _ & _ & [ci Ii] & [cr Ir] & _ & _ & _ & FI & H16). rewrite Forall_forall in FI.
  destruct (FI _ Ii) as [I1 [I2 _]]. destruct (FI _ Ir) as [R1 [R2 _]]. cbn in I1, I2, R1, R2.
  unfold converted. rewrite !app_length, !little_length, repeat_length.
  assert (SL : forall off n, 0 <= off -> 0 <= n -> off + n <= step -> length (slice p off n) = Z.to_nat n).
  { intros off n A1 A2 A3. destruct (slice_ok p off n) as [A4 _]; try lia; auto. }
  rewrite !SL by lia. reflexivity.
Qed.
End Conversions.

(** ** Counterexamples to C75 for well-formed clouds without the gap at byte 12. *)
Section Refuted.
Variable to_f32 to_f64 : value -> option Z.
(** x, y, z, intensity at 0, 4, 8, 12 and ring at 16, step 32: non-overlapping, in order. *)
Definition packed_fields : list field :=
  [Field "x" 0 7 1; Field "y" 4 7 1; Field "z" 8 7 1; Field "intensity" 12 7 1; Field "ring" 16 4 1].
(** x = 1, y = z = 0, intensity = 5, ring = 3. *)
Definition packed_point (step : nat) : list Z :=
  [0; 0; 128; 63; 0; 0; 0; 0; 0; 0; 0; 0; 0; 0; 160; 64; 3; 0] ++ repeat 0 (step - 18).
Definition packed_cloud (step : nat) : cloud2 :=
  Cloud2 0 1 1 packed_fields false (Z.of_nat step) (Z.of_nat step) (packed_point step) true.

(** Step 32: published with the ring 3 as intensity and the ring field read from the padding
    bytes. *)
Theorem C75_ring_refuted :
  ForallOrdPairs apart packed_fields /\ laid_out 0 packed_fields 32 /\ ~ at_origin false (packed_point 32) /\
  exists out, callback to_f32 to_f64 (packed_cloud 32) = Ok out /\
    slice (data out) 20 2 = [0; 0] /\ slice (packed_point 32) 16 2 = [3; 0].
Proof.
  split; [repeat constructor; unfold apart; cbn; lia|]. split; [cbn; unfold valid_type; lia|].
  split. { intros [A _]. vm_compute in A. destruct A; discriminate. }
  eexists. split; [vm_compute; reflexivity|]. split; reflexivity.
Qed.
(** Step 18 (no trailing bytes): the conversion raises. *)
Theorem C75_packed_raises_refuted :
  laid_out 0 packed_fields 18 /\ callback to_f32 to_f64 (packed_cloud 18) = ThrowOther.
Proof. split; [cbn; unfold valid_type; lia|]. vm_compute. reflexivity. Qed.
(** Gap at byte 12, but ring before intensity: the values are packed in input order, the
    float goes to the 16 bit integer field, and the conversion raises. *)
Definition swapped_fields : list field :=
  [Field "x" 0 7 1; Field "y" 4 7 1; Field "z" 8 7 1; Field "ring" 16 4 1; Field "intensity" 20 7 1].
Definition swapped_point : list Z :=
  [0; 0; 128; 63; 0; 0; 0; 0; 0; 0; 0; 0; 0; 0; 0; 0; 3; 0; 0; 0; 0; 0; 160; 64].
Theorem C75_swapped_raises_refuted (H : exists b, to_f32 (VInt 3) = Some b) :
  ForallOrdPairs apart (Field "padding" 12 7 1 :: swapped_fields) /\ laid_out 0 swapped_fields 24 /\
  callback to_f32 to_f64 (Cloud2 0 1 1 swapped_fields false 24 24 swapped_point true) = ThrowOther.
Proof.
  split; [repeat constructor; unfold apart; cbn; lia|]. split; [cbn; unfold valid_type; lia|]. destruct H as [b E].
  cbv. cbv in E. rewrite E. reflexivity.
Qed.
End Refuted.

(** ** Concrete cases *)
Definition no_conv (v : value) : option Z := None.
Definition gap_fields : list field :=
  [Field "ring" 20 4 1; Field "x" 0 7 1; Field "y" 4 7 1; Field "z" 8 7 1; Field "intensity" 16 7 1; Field "time" 24 8 1].
Example ex_C75_layout : gap_layout gap_fields 32 16 20.
Proof.
  unfold gap_layout, has. do 5 (split; [eexists; cbn; tauto|]). split; [lia|].
  split. { repeat (constructor; [cbn; intuition discriminate|]). constructor. }
  split; [repeat (apply FOP_cons; [repeat (apply Forall_cons; [unfold apart; cbn; lia|]); apply Forall_nil|]); apply FOP_nil|]. split; [repeat (apply Forall_cons; [cbn; unfold valid_type; lia|]); apply Forall_nil|lia].
Qed.
Definition gap_point (x : list Z) : list Z := x ++ [0; 0; 0; 0; 0; 0; 0; 128; 9; 9; 9; 9; 0; 0; 160; 64; 3; 1; 7; 7; 1; 2; 3; 4; 5; 6; 7; 8].
(** Two points, the second of which is at the origin (with a negative zero). *)
Example ex_C75 : exists out,
  callback no_conv no_conv (Cloud2 77 1 2 gap_fields false 32 64 (gap_point [0; 0; 128; 63] ++ gap_point [0; 0; 0; 0]) true) = Ok out /\
  data out = [0; 0; 128; 63; 0; 0; 0; 0; 0; 0; 0; 128; 9; 9; 9; 9; 0; 0; 160; 64; 3; 1] ++ repeat 0 10 /\ ConvertModel.width out = 1.
Proof. eexists. split; [vm_compute; reflexivity|]. split; reflexivity. Qed.
Example ex_C76_layout : laid_out 0 (sort_fields gap_fields) 32 /\
  Forall2 (fun f v => holds (datatype f) v) (sort_fields gap_fields) [VF32 1; VF32 2; VF32 3; VF32 4; VInt 65535; VF64 6].
Proof. split; [cbn; unfold valid_type; lia|]. repeat constructor; cbn; lia. Qed.
(** int16 -2 stored big endian. *)
Example ex_C76_stored : stored true 3 [255; 254] (VInt (-2)).
Proof. split; [reflexivity|]. cbv zeta. exists (-2). cbn. repeat split; lia. Qed.

Print Assumptions C76_format_size.
Print Assumptions C76_sorted_format_size.
Print Assumptions C76_values_at_offsets.
Print Assumptions C76_stored_unique.
Print Assumptions C76_round_trip.
Print Assumptions C75_converted_partial.
Print Assumptions C75_row_step_partial.
Print Assumptions C75_ring_refuted.
Print Assumptions C75_packed_raises_refuted.
Print Assumptions C75_swapped_raises_refuted.
