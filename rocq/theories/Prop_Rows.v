(** Property C146: which points of a message the point type converter reads. *)
From Coq Require Import String List ZArith Bool Lia.
From Verif Require Import Base ConvertModel SpecConvert ConvertProofs ConvertProofs2 Prop_Convert Prop_Driver.
Import ListNotations.
Notation length := List.length.
Open Scope Z_scope.

(** ** Specification: the points that a PointCloud2 announces *)
(** height rows that start row_step bytes after each other, of width points of point_step bytes. *)
Definition announced (c : cloud2) : list (list Z) :=
  flat_map (fun row => map (fun col => slice (data c) (Z.of_nat row * row_step c + Z.of_nat col * point_step c) (point_step c))
                           (seq 0 (Z.to_nat (width c)))) (seq 0 (Z.to_nat (height c))).

(** ** Proofs *)
Lemma skipn_add {X} a b (l : list X) : skipn (a + b) l = skipn b (skipn a l).
Proof. revert l. induction a as [|a IH]; intros l; [reflexivity|]. destruct l as [|x l]; cbn [Nat.add skipn]; [now rewrite skipn_nil|apply IH]. Qed.
Lemma chunks {X} n s (l : list X) : length l = (n * s)%nat -> concat (map (fun k => firstn s (skipn (k * s) l)) (seq 0 n)) = l.
Proof.
  revert l. induction n as [|n IH]; intros l E; [destruct l; [reflexivity|discriminate]|]. cbn [seq map concat Nat.mul skipn].
  rewrite <- seq_shift, map_map. erewrite map_ext; [rewrite (IH (skipn s l))|].
  - apply firstn_skipn.
  - rewrite skipn_length. cbn [Nat.mul] in E. lia.
  - intros k. cbn [Nat.mul]. now rewrite skipn_add.
Qed.
Lemma concat_flat_map {X Y} (f : X -> list (list Y)) l : concat (flat_map f l) = concat (map (fun x => concat (f x)) l).
Proof. induction l as [|x l IH]; cbn; auto. now rewrite concat_app, IH. Qed.
Lemma announced_nat h w row step d : 0 <= row -> 0 <= step ->
  flat_map (fun r => map (fun k => slice d (Z.of_nat r * row + Z.of_nat k * step) step) (seq 0 w)) (seq 0 h) =
  flat_map (fun r => map (fun k => firstn (Z.to_nat step) (skipn (k * Z.to_nat step) (skipn (r * Z.to_nat row) d))) (seq 0 w)) (seq 0 h).
Proof.
  intros Hr Hs. rewrite !flat_map_concat_map. f_equal. apply map_ext. intros r. apply map_ext. intros k. unfold slice. f_equal.
  rewrite <- skipn_add. f_equal. nia.
Qed.
Lemma packed_rows h w s (d : list Z) : length d = (h * (w * s))%nat ->
  let a := flat_map (fun r => map (fun k => firstn s (skipn (k * s) (skipn (r * (w * s)) d))) (seq 0 w)) (seq 0 h) in
  concat a = d /\ Forall (fun p => length p = s /\ incl p d) a.
Proof.
  intros E. split.
  - rewrite concat_flat_map. transitivity (concat (map (fun k => firstn (w * s) (skipn (k * (w * s)) d)) (seq 0 h))); [|now apply chunks]. f_equal. apply map_ext_in. intros r Hr. apply in_seq in Hr.
    rewrite <- (chunks w s (firstn (w * s) (skipn (r * (w * s)) d))).
    + f_equal. apply map_ext_in. intros k Hk. apply in_seq in Hk. rewrite skipn_firstn_comm, firstn_firstn. f_equal. nia.
    + rewrite firstn_length, skipn_length, E. assert ((r + 1) * (w * s) <= h * (w * s))%nat by (apply Nat.mul_le_mono_r; lia). rewrite Nat.mul_add_distr_r in *. lia.
  - apply Forall_forall. intros p Hp. apply in_flat_map in Hp. destruct Hp as [r [Hr Hp]]. apply in_map_iff in Hp. destruct Hp as [k [<- Hk]]. apply in_seq in Hr, Hk. split.
    + rewrite firstn_length, !skipn_length, E. assert ((r + 1) * (w * s) <= h * (w * s))%nat by (apply Nat.mul_le_mono_r; lia).
      assert ((k + 1) * s <= w * s)%nat by (apply Nat.mul_le_mono_r; lia). rewrite Nat.mul_add_distr_r in *. lia.
    + intros x Hx. assert (IN : forall n (l : list Z), In x (skipn n l) -> In x l) by (intros n l H; rewrite <- (firstn_skipn n l); apply in_or_app; now right).
      apply (IN (r * (w * s))%nat), (IN (k * s)%nat). rewrite <- (firstn_skipn s). apply in_or_app. now left.
Qed.

Section Rows.
Variable to_f32 to_f64 : value -> option Z.
Notation callback := (callback to_f32 to_f64).

(** Rows without padding, as many bytes as announced: exactly the announced points that are not
    at the origin are converted, in their order. *)
Theorem C146_packed_rows_partial fields step oi or big header height width dense data :
  gap_layout fields step oi or -> 0 <= height -> 0 <= width -> zlen data = height * (width * step) -> Forall is_byte data ->
  let c := Cloud2 header height width fields big step (width * step) data dense in
  exists ks out, kept (fun p => ~ at_origin big p) (announced c) ks /\ callback c = Ok out /\
    ConvertModel.width out = zlen ks /\ ConvertModel.data out = concat (map (converted big oi or) ks).
Proof.
  intros HL Hh Hw E HB c. assert (S0 : 0 < step) by (destruct HL as (_ & _ & _ & _ & _ & _ & _ & _ & _ & ?); lia).
  assert (EA : announced c = flat_map (fun r => map (fun k => firstn (Z.to_nat step) (skipn (k * Z.to_nat step) (skipn (r * (Z.to_nat width * Z.to_nat step)) data))) (seq 0 (Z.to_nat width))) (seq 0 (Z.to_nat height))).
  { unfold announced, c. cbn [ConvertModel.data row_step point_step ConvertModel.width ConvertModel.height]. rewrite announced_nat by nia. rewrite Z2Nat.inj_mul by lia. reflexivity. }
  destruct (packed_rows (Z.to_nat height) (Z.to_nat width) (Z.to_nat step) data) as [P1 P2].
  { unfold zlen in E. apply Nat2Z.inj. rewrite E, !Nat2Z.inj_mul, !Z2Nat.id by lia. reflexivity. }
  rewrite <- EA in P1, P2.
  destruct (C75_converted_partial to_f32 to_f64 fields step oi or big header height width (width * step) dense (announced c) HL) as [ks [K EK]].
  { eapply Forall_impl; [|exact P2]. intros p [L I]. split; [rewrite L; lia|]. rewrite Forall_forall in *. auto. }
  rewrite P1 in EK. fold c in EK. exists ks. eexists. split; [exact K|]. split; [exact EK|]. split; reflexivity.
Qed.

(** Padding at the end of the rows, of k times the size of a point: the message announces the
    points without the padding, but the converter takes the padding for points. *)
Lemma padded_rows s w k (rows : list (list (list Z) * list (list Z))) rest :
  Forall (fun r => length (fst r) = w /\ length (snd r) = k) rows ->
  Forall (fun p => length p = s) (flat_map (fun r => fst r ++ snd r) rows) ->
  flat_map (fun r => map (fun c => firstn s (skipn (c * s) (skipn (r * ((w + k) * s)) (concat (flat_map (fun r => fst r ++ snd r) rows) ++ rest)))) (seq 0 w)) (seq 0 (length rows))
  = flat_map fst rows.
Proof.
  assert (ONE : forall pts d, Forall (fun p : list Z => length p = s) pts -> map (fun c => firstn s (skipn (c * s) (concat pts ++ d))) (seq 0 (length pts)) = pts).
  { intros pts d H. induction H as [|p pts L H IH]; [reflexivity|]. cbn [length seq map concat Nat.mul skipn]. f_equal.
    - rewrite <- app_assoc, firstn_app, L, Nat.sub_diag, <- L, firstn_all. cbn [firstn]. apply app_nil_r.
    - rewrite <- seq_shift, map_map. rewrite <- IH at 2. apply map_ext. intros c. cbn [Nat.mul]. rewrite skipn_add. do 2 f_equal.
      rewrite <- app_assoc, skipn_app, L, Nat.sub_diag, <- L, skipn_all. reflexivity. }
  assert (LC : forall pts, Forall (fun p : list Z => length p = s) pts -> length (concat pts) = (length pts * s)%nat).
  { intros pts H. induction H as [|p pts L H IH]; cbn [concat length Nat.mul]; auto. rewrite app_length. lia. }
  intros H. induction H as [|[a g] rows [Hw Hk] H IH]; intros HS; [reflexivity|]. cbn [flat_map fst snd] in *. apply Forall_app in HS. destruct HS as [HS1 HS2].
  apply Forall_app in HS1. destruct HS1 as [HA HG]. cbn [length seq flat_map]. f_equal.
  - cbn [Nat.mul skipn]. rewrite !concat_app, <- !app_assoc. rewrite <- Hw. apply ONE. exact HA.
  - rewrite <- (IH HS2). rewrite <- seq_shift. rewrite !flat_map_concat_map, map_map. f_equal. apply map_ext. intros r. apply map_ext. intros c. do 2 f_equal.
    cbn [Nat.mul]. rewrite skipn_add. f_equal. rewrite concat_app, <- app_assoc, skipn_app.
    assert (L : length (concat (a ++ g)) = ((w + k) * s)%nat) by (rewrite LC by (apply Forall_app; auto); rewrite app_length, Hw, Hk; reflexivity).
    rewrite L, Nat.sub_diag. rewrite <- L, skipn_all. reflexivity.
Qed.
Theorem C146_row_padding_refuted fields step oi or big header width k dense (rows : list (list (list Z) * list (list Z))) :
  gap_layout fields step oi or -> Forall (fun r => length (fst r) = width /\ length (snd r) = k) rows ->
  well_sized step (flat_map (fun r => fst r ++ snd r) rows) ->
  let c := Cloud2 header (zlen rows) (Z.of_nat width) fields big step (Z.of_nat (width + k) * step) (concat (flat_map (fun r => fst r ++ snd r) rows)) dense in
  announced c = flat_map fst rows /\
  exists ks out, callback c = Ok out /\ data out = concat (map (converted big oi or) ks) /\
    forall r g, In r rows -> In g (snd r) -> ~ at_origin big g -> In g ks.
Proof.
  intros HL HR HW c. assert (S0 : 0 < step) by (destruct HL as (_ & _ & _ & _ & _ & _ & _ & _ & _ & ?); lia). split.
  - unfold announced, c. cbn [data row_step point_step ConvertModel.width height]. rewrite announced_nat by nia. unfold zlen. rewrite !Nat2Z.id.
    rewrite Z2Nat.inj_mul, Nat2Z.id by lia. rewrite <- (app_nil_r (concat _)). apply padded_rows; auto.
    eapply Forall_impl; [|exact HW]. intros p [L _]. lia.
  - destruct (C75_converted_partial to_f32 to_f64 fields step oi or big header (zlen rows) (Z.of_nat width) (Z.of_nat (width + k) * step) dense _ HL HW) as [ks [K EK]].
    exists ks. eexists. split; [exact EK|]. split; [reflexivity|]. intros r g Hr Hg N.
    assert (I : In g (flat_map (fun r => fst r ++ snd r) rows)) by (apply in_flat_map; exists r; split; auto; apply in_or_app; now right).
    clear - K I N. induction K as [|x l l' H K IH|x l l' H K IH]; [destruct I| |].
    + destruct I as [->|I]; [now left|right; auto].
    + destruct I as [->|I]; [contradiction|auto].
Qed.
End Rows.
Print Assumptions C146_packed_rows_partial.
Print Assumptions C146_row_padding_refuted.

(** ** Cases *)
(** Two rows of two points. *)
Definition four : list Z := concat [raw one one; raw one two; raw zero zero; raw two one].
Example C146_packed_case : gap_layout gap_fields 32 16 20 /\ zlen four = 2 * (2 * 32) /\ Forall is_byte four /\
  announced (Cloud2 77 2 2 gap_fields false 32 64 four true) = [raw one one; raw one two; raw zero zero; raw two one].
Proof.
  split; [apply ex_C75_layout|]. split; [reflexivity|]. split; [|reflexivity]. apply Forall_concat.
  assert (W : well_sized 32 [raw one one; raw one two; raw zero zero; raw two one]).
  { apply raw_sized. repeat constructor; do 2 eexists; (split; [|split]); [| |reflexivity| | |reflexivity| | |reflexivity| | |reflexivity]; cbn; tauto. }
  eapply Forall_impl; [|exact W]. intros p [_ B]. exact B.
Qed.
(** Two rows of one point, padded by bytes left over from something else: two points announced,
    four converted. *)
Definition two_rows : list (list (list Z) * list (list Z)) := [([raw one one], [raw two two]); ([raw one two], [raw two two])].
Example C146_padding_case : Forall (fun r => length (fst r) = 1%nat /\ length (snd r) = 1%nat) two_rows /\
  well_sized 32 (flat_map (fun r => fst r ++ snd r) two_rows) /\ ~ at_origin false (raw two two) /\
  exists out, callback no_conv no_conv (Cloud2 77 2 1 gap_fields false 32 64 (concat (flat_map (fun r => fst r ++ snd r) two_rows)) true) = Ok out /\ width out = 4.
Proof.
  split; [repeat constructor|]. split.
  { apply raw_sized. repeat constructor; do 2 eexists; (split; [|split]); [| |reflexivity| | |reflexivity| | |reflexivity| | |reflexivity]; cbn; tauto. }
  split; [intros ([H|H] & _); discriminate H|]. eexists. split; [vm_compute; reflexivity|reflexivity].
Qed.
