(** Property C143: the converter in front of the extraction. *)
From Coq Require Import String List ZArith Bool Lia.
From Flocq Require Import IEEE754.BinarySingleNaN.
From Verif Require Import Base Arith Spec ExtractModel NodeModel FillProofs LabelProofs RingMapProofs ConvertModel SpecConvert ConvertProofs ConvertProofs2 DriverModel Prop_Convert SpecBearing Prop_Bearing.
Import ListNotations.
Notation length := List.length.
Open Scope Z_scope.

(** ** Specification *)
(** The return stored in the bytes of a point of the driver's message: x, y, z at 0, 4, 8, intensity
    at oi, ring at or. *)
Definition float_at (big : bool) (p : list Z) (off : Z) : b32 := float_of_bits (place_value (little big (slice p off 4))).
Definition return_of acosf (big : bool) (oi or : Z) (p : list Z) : point (ieee acosf) :=
  {| px := float_at big p 0 : F (ieee acosf); py := float_at big p 4; pz := float_at big p 8; pintensity := float_at big p oi;
     pring := place_value (little big (slice p or 2)) |}.
(** A message of the driver with the given points. *)
Definition well_sized (step : Z) (pts : list (list Z)) : Prop := Forall (fun p => Z.of_nat (length p) = step /\ Forall is_byte p) pts.

(** ** Reading the converter's output *)
Lemma chunk_at (c : list Z) (ks : list (list Z)) k off n (pre : Forall (fun b => length b = 32%nat) ks) : nth_error ks k = Some c -> (off + n <= 32)%nat ->
  firstn n (skipn (k * 32 + off) (concat ks)) = firstn n (skipn off c) /\ (k * 32 + off + n <= length (concat ks))%nat.
Proof.
  revert k. induction pre as [|b bs Lb H IH]; intros k E Hn; [destruct k; discriminate|]. destruct k as [|k]; cbn [nth_error concat] in *.
  - injection E as ->. cbn [Nat.mul Nat.add]. rewrite skipn_app, firstn_app, app_length, skipn_length, Lb.
    replace (n - (32 - off))%nat with 0%nat by lia. rewrite firstn_O, app_nil_r. split; [reflexivity|lia].
  - destruct (IH k E Hn) as [I1 I2]. rewrite app_length, Lb. split; [|lia].
    rewrite skipn_app, (skipn_all2 b) by lia. rewrite Lb. replace (S k * 32 + off - 32)%nat with (k * 32 + off)%nat by lia. exact I1.
Qed.
Definition out_fields : list field :=
  [Field "x" 0 7 1; Field "y" 4 7 1; Field "z" 8 7 1; Field "padding" 12 7 1; Field "intensity" 16 7 1; Field "ring" 20 4 1].
Lemma in_converted big oi or p a b c d e f : 
  length (little big (slice p 0 4)) = 4%nat -> length (little big (slice p 4 4)) = 4%nat -> length (little big (slice p 8 4)) = 4%nat -> length (little big (slice p 12 4)) = 4%nat ->
  length (little big (slice p oi 4)) = 4%nat -> length (little big (slice p or 2)) = 2%nat ->
  a = little big (slice p 0 4) -> b = little big (slice p 4 4) -> c = little big (slice p 8 4) -> d = little big (slice p 12 4) -> e = little big (slice p oi 4) -> f = little big (slice p or 2) ->
  let q := converted big oi or p in
  length q = 32%nat /\ firstn 4 (skipn 0 q) = a /\ firstn 4 (skipn 4 q) = b /\ firstn 4 (skipn 8 q) = c /\ firstn 4 (skipn 16 q) = e /\ firstn 2 (skipn 20 q) = f.
Proof.
  intros La Lb Lc Ld Le Lf Ea Eb Ec Ed Ee Ef. unfold converted. rewrite <- Ea, <- Eb, <- Ec, <- Ed, <- Ee, <- Ef in *. clear Ea Eb Ec Ed Ee Ef.
  do 5 (destruct a as [|? a]; try discriminate). do 5 (destruct b as [|? b]; try discriminate). do 5 (destruct c as [|? c]; try discriminate).
  do 5 (destruct d as [|? d]; try discriminate). do 5 (destruct e as [|? e]; try discriminate). do 3 (destruct f as [|? f]; try discriminate).
  cbn. repeat split.
Qed.

Section Driver.
Variable acosf : b64 -> b64.
Notation A := (ieee acosf).
Variable to_f32 to_f64 : value -> option Z.

Lemma read_converted fields step oi or big header pts : gap_layout fields step oi or -> well_sized step pts ->
  from_ros_msg acosf (Cloud2 header 1 (Z.of_nat (length pts)) out_fields false 32 (32 * Z.of_nat (length pts)) (concat (map (converted big oi or) pts)) true)
  = Ok (map (return_of acosf big oi or) pts).
Proof.
  intros HL HP.
  assert (S : forall p, In p pts -> forall off n, 0 <= off -> 0 <= n -> off + n <= step -> length (little big (slice p off n)) = Z.to_nat n).
  { intros p Hp off n A1 A2 A3. unfold well_sized in HP. rewrite Forall_forall in HP. destruct (HP p Hp) as [L B]. rewrite little_length. destruct (slice_ok p off n) as [A4 _]; try lia; auto. }
  destruct HL as (_ & _ & _ & [ci Ii] & [cr Ir] & _ & _ & _ & FI & H16). rewrite Forall_forall in FI.
  destruct (FI _ Ii) as [I1 [I2 _]]. destruct (FI _ Ir) as [R1 [R2 _]]. cbn in I1, I2, R1, R2. clear Ii Ir FI HP.
  assert (Q : forall p, In p pts -> let q := converted big oi or p in
    length q = 32%nat /\ firstn 4 (skipn 0 q) = little big (slice p 0 4) /\ firstn 4 (skipn 4 q) = little big (slice p 4 4) /\ firstn 4 (skipn 8 q) = little big (slice p 8 4) /\
    firstn 4 (skipn 16 q) = little big (slice p oi 4) /\ firstn 2 (skipn 20 q) = little big (slice p or 2)).
  { intros p Hp. eapply in_converted; try reflexivity; apply S; auto; lia. }
  assert (L32 : Forall (fun b => length b = 32%nat) (map (converted big oi or) pts)).
  { apply Forall_map, Forall_forall. intros p Hp. apply (Q p Hp). }
  unfold from_ros_msg. cbn [width height row_step point_step]. rewrite Nat2Z.id. change (zrange (Z.to_nat 1)) with [0]. cbn [flat_map]. rewrite app_nil_r.
  set (d := repeat 0 32).
  rewrite (mapM_ok _ (fun s => return_of acosf big oi or (nth (Z.to_nat (s / 32)) pts d))).
  - f_equal. rewrite map_map. unfold zrange. rewrite map_map. 
    transitivity (map (return_of acosf big oi or) (map (fun i => nth i pts d) (seq 0 (length pts)))).
    + rewrite map_map. apply map_ext. intros i. f_equal. f_equal. rewrite Z.add_0_l, Z.div_mul by lia. apply Nat2Z.id.
    + f_equal. clear. induction pts as [|p l IH]; cbn [length seq map nth]; [reflexivity|]. f_equal. rewrite <- seq_shift, map_map. exact IH.
  - intros s Hs. apply in_map_iff in Hs. destruct Hs as [cc [<- Hs]]. apply in_map_iff in Hs. destruct Hs as [k [<- Hk]]. apply in_seq in Hk.
    rewrite Z.add_0_l. replace (0 * (32 * Z.of_nat (length pts)) + Z.of_nat k * 32) with (Z.of_nat k * 32) by lia.
    rewrite Z.div_mul by lia. rewrite Nat2Z.id. destruct (nth_error pts k) as [p|] eqn:E; [|apply nth_error_None in E; lia].
    rewrite (nth_error_nth _ _ d E). specialize (Q p (nth_error_In _ _ E)). cbn zeta in Q. destruct Q as (_ & Q1 & Q2 & Q3 & Q4 & Q5).
    assert (E' : nth_error (map (converted big oi or) pts) k = Some (converted big oi or p)) by (now apply map_nth_error).
    unfold read_point. cbn [data cfields out_fields field_of find fname datatype count String.eqb Ascii.eqb Bool.eqb andb orb Z.eqb Pos.eqb option_map offset].
    assert (RD : forall off n, (off + n <= 32)%nat -> read (concat (map (converted big oi or) pts)) (Z.of_nat k * 32) (Z.of_nat n) (Some (Z.of_nat off)) = Ok (from_bytes (firstn n (skipn off (converted big oi or p))))).
    { intros off n Hn. destruct (chunk_at _ _ k off n L32 E' Hn) as [C1 C2]. unfold read. 
      replace (Z.of_nat k * 32 + Z.of_nat off) with (Z.of_nat (k * 32 + off)) by lia. unfold zlen.
      replace (0 <=? Z.of_nat (k * 32 + off)) with true by (symmetry; apply Z.leb_le; lia).
      match goal with |- context [?a <=? ?b] => replace (a <=? b) with true by (symmetry; apply Z.leb_le; lia) end. cbn [andb]. rewrite !Nat2Z.id. now rewrite C1. }
    pose proof (RD 0%nat 4%nat ltac:(lia)) as D1. pose proof (RD 4%nat 4%nat ltac:(lia)) as D2. pose proof (RD 8%nat 4%nat ltac:(lia)) as D3.
    pose proof (RD 16%nat 4%nat ltac:(lia)) as D4. pose proof (RD 20%nat 2%nat ltac:(lia)) as D5.
    rewrite Q1 in D1. rewrite Q2 in D2. rewrite Q3 in D3. rewrite Q4 in D4. rewrite Q5 in D5.
    cbn [Z.of_nat Pos.of_succ_nat Pos.succ] in D1, D2, D3, D4, D5. rewrite D1, D2, D3, D4, D5. cbn [bind]. unfold return_of, float_at. now rewrite !from_bytes_place.
Qed.

Variable srt : sorter.
Variable ord : list (Z * list Z) -> list (Z * list Z).
Variable prm : params A.
Notation drive := (drive acosf srt ord prm to_f32 to_f64).

(** The features are those of the returns that are not at the origin, in the order of the
    message, with their coordinates and rings, whatever the driver says about their validity.
    Layouts as in C75; others are refuted there. *)
Theorem C143_returns_partial fields step oi or big header height width row dense pts :
  gap_layout fields step oi or -> well_sized step pts ->
  exists ks, kept (fun p => ~ at_origin big p) pts ks /\
    drive (Cloud2 header height width fields big step row (concat pts) dense) =
    ExtractModel.callback A srt ord prm true true (map (return_of acosf big oi or) ks).
Proof.
  intros HL HP. destruct (C75_converted_partial to_f32 to_f64 fields step oi or big header height width row dense pts HL HP) as [ks [K E]].
  exists ks. split; [exact K|]. unfold DriverModel.drive. rewrite E. cbn [bind]. unfold extraction. fold out_fields. rewrite (read_converted fields step oi or big header ks HL).
  - reflexivity.
  - assert (IK : forall p, In p ks -> In p pts). { clear - K. induction K; cbn; intros q; [auto|intros [<-|I]; auto|auto]. }
    unfold well_sized in *. rewrite Forall_forall in *. auto.
Qed.
(** Valid returns that single precision can tell apart: features are published. *)
Theorem C143_published_partial fields step oi or big header height width row dense pts :
  gap_layout fields step oi or -> well_sized step pts ->
  valid_sort srt -> valid_order ord -> valid_params A prm ->
  (forall ks, kept (fun p => ~ at_origin big p) pts ks -> well_resolved (map (return_of acosf big oi or) ks)) ->
  zlen pts + p_padding A prm + 2 < 2 ^ 31 -> zlen pts * p_blocks A prm <= 2 ^ 53 ->
  exists out, drive (Cloud2 header height width fields big step row (concat pts) dense) = Ok out.
Proof.
  intros HL HP VS VO VP W H1 H2. destruct (C143_returns_partial fields step oi or big header height width row dense pts HL HP) as [ks [K E]].
  rewrite E. assert (LE : zlen (map (return_of acosf big oi or) ks) <= zlen pts).
  { unfold zlen. rewrite map_length. clear - K. induction K; cbn [length]; lia. }
  apply C129_always_published; auto; [lia|]. destruct VP as (_ & B & _). nia.
Qed.

(** ** The checks of the extraction are out of action behind the converter *)
(** Whatever the driver sends, dense or not, with or without rings: the extraction never asks
    for the shutdown. *)
Theorem C143_shutdown_refuted input out : drive input = Ok out -> o_shutdown A out = false.
Proof.
  unfold DriverModel.drive. intros H. apply bind_ok in H. destruct H as [c [Hc H]].
  assert (FC : is_dense c = true /\ cfields c = make_fields).
  { unfold ConvertModel.callback in Hc. apply bind_ok in Hc. destruct Hc as [? [_ Hc]]. apply bind_ok in Hc. destruct Hc as [? [_ Hc]].
    apply bind_ok in Hc. destruct Hc as [? [_ Hc]]. apply bind_ok in Hc. destruct Hc as [? [_ Hc]]. injection Hc as <-. split; reflexivity. }
  destruct FC as [F1 F2]. unfold extraction in H. apply bind_ok in H. destruct H as [pts [_ H]]. rewrite F1, F2 in H.
  unfold NodeModel.on_scan, ExtractModel.callback in H. apply bind_ok in H. destruct H as [rings [_ H]]. apply bind_ok in H. destruct H as [st [_ H]].
  injection H as <-. reflexivity.
Qed.

(** An invalid return (NaN) and two valid ones, to the left and in different directions, in a
    ring: the comparison by angle is no order on them, std::sort is undefined. *)
Lemma nan_incomparable (n p : point A) : (py A n : b32) = B754_nan -> f_ltb A (f_zero A) (py A p) = true ->
  polar_less A (px A n) (py A n) (px A p) (py A p) = false /\ polar_less A (px A p) (py A p) (px A n) (py A n) = false.
Proof.
  intros N P. destruct n as [nx ny nz ni nr]. destruct p as [x y z i r]. cbn [px py] in *. subst ny.
  cbn [f_ltb f_zero ieee F] in P. change (Bltb (B754_zero false : b32) y = true) in P.
  assert (Y0 : Beqb (y : b32) (B754_zero false) = false) by (destruct y as [| [] | |[]]; try discriminate; reflexivity).
  assert (Y1 : Bltb (y : b32) (B754_zero false) = false) by (destruct y as [| [] | |[]]; try discriminate; reflexivity).
  assert (M1 : mul32 (B754_nan : b32) y = B754_nan) by reflexivity.
  assert (M2 : mul32 y (B754_nan : b32) = B754_nan) by (destruct y; reflexivity).
  assert (E1 : forall a : b32, Beqb (B754_nan : b32) a = false) by reflexivity.
  assert (E2 : forall a : b32, Beqb a (B754_nan : b32) = false) by (intros []; reflexivity).
  assert (L1 : forall a : b32, Bltb (B754_nan : b32) a = false) by reflexivity.
  assert (L2 : forall a : b32, Bltb a (B754_nan : b32) = false) by (intros []; reflexivity).
  assert (A1 : forall a : b32, add32 a (B754_nan : b32) = B754_nan) by (intros []; reflexivity).
  assert (M3 : mul32 (B754_nan : b32) B754_nan = B754_nan) by reflexivity.
  unfold polar_less. cbn [f_eqb f_ltb f_zero f_add f_mul f_leb ieee F].
  change (F (ieee acosf)) with b32 in *.
  rewrite ?M1, ?M2, ?M3, ?A1, ?E1, ?E2, ?L1, ?L2, ?Y0, ?Y1, ?andb_false_r. cbn [andb].
  rewrite ?M1, ?M2, ?M3, ?A1, ?E1, ?E2, ?L1, ?L2, ?Y0, ?Y1, ?andb_false_r. 
  split; repeat match goal with |- context [if ?b then _ else _] => destruct b end; auto.
Qed.
Lemma sorts_ok_or_undefined cloud rings r : In r rings -> (forall s, sort_by_atan2 A srt cloud (snd r) = Ok s -> False) -> sort_each_ring A srt cloud rings = UB.
Proof.
  unfold sort_each_ring. intros Hr HU. induction rings as [|r0 l IH]; [destruct Hr|]. cbn [mapM].
  assert (C : forall ix, (exists s, sort_by_atan2 A srt cloud ix = Ok s) \/ sort_by_atan2 A srt cloud ix = UB).
  { intros ix. unfold sort_by_atan2, std_sort. destruct (swo_on _ _); eauto. }
  destruct (C (snd r0)) as [[s E]|E]; rewrite E; cbn [bind]; [|reflexivity].
  destruct Hr as [->|Hr]; [exfalso; eapply HU; exact E|]. rewrite (IH Hr). reflexivity.
Qed.
Lemma nan_undefined cloud n p q dense ring : In n cloud -> In p cloud -> In q cloud ->
  (py A n : b32) = B754_nan -> f_ltb A (f_zero A) (py A p) = true -> f_ltb A (f_zero A) (py A q) = true ->
  polar_less A (px A p) (py A p) (px A q) (py A q) = true -> pring A p = pring A n -> pring A q = pring A n ->
  ExtractModel.callback A srt ord prm dense ring cloud = UB.
Proof.
  intros In1 In2 In3 N P Q L R1 R2. unfold ExtractModel.callback, extract_rings.
  destruct (make_point_indices_spec A cloud) as (_ & M1 & M2).
  assert (G : forall x, In x cloud -> exists i, Spec.get cloud i = Some x /\ nth_error cloud (Z.to_nat i) = Some x).
  { intros x Hx. apply In_nth_error in Hx. destruct Hx as [i Hi]. exists (Z.of_nat i). unfold Spec.get.
    replace (Z.of_nat i <? 0) with false by (symmetry; apply Z.ltb_ge; lia). rewrite Nat2Z.id. auto. }
  destruct (G n In1) as (a & A1 & A2). destruct (G p In2) as (b & B1 & B2). destruct (G q In3) as (c & C1 & C2).
  destruct (M1 a n A1) as [ix Hix]. destruct (M2 _ _ Hix) as (_ & _ & _ & MI).
  rewrite (sorts_ok_or_undefined cloud _ _ Hix); [reflexivity|]. cbn [snd]. intros s E. unfold sort_by_atan2 in E. apply std_sort_ok in E. destruct E as [(_ & _ & T) _].
  destruct (nan_incomparable n p N P) as [X1 X2]. destruct (nan_incomparable n q N Q) as [X3 X4].
  destruct (T b a c) as [T1 _]; try (apply MI; eauto; fail); unfold polar_less_ix; rewrite ?A2, ?B2, ?C2; auto.
  unfold polar_less_ix in T1. rewrite B2, C2 in T1. congruence.
Qed.
Theorem C143_invalid_refuted fields step oi or big header height width row pts n p q :
  gap_layout fields step oi or -> well_sized step pts -> In n pts -> In p pts -> In q pts ->
  (float_at big n 4 : b32) = B754_nan ->
  Bltb (B754_zero false : b32) (float_at big p 4) = true -> Bltb (B754_zero false : b32) (float_at big q 4) = true ->
  polar_less A (float_at big p 0) (float_at big p 4) (float_at big q 0) (float_at big q 4) = true ->
  little big (slice p or 2) = little big (slice n or 2) -> little big (slice q or 2) = little big (slice n or 2) ->
  drive (Cloud2 header height width fields big step row (concat pts) false) = UB.
Proof.
  intros HL HP I1 I2 I3 N P Q L R1 R2. destruct (C143_returns_partial fields step oi or big header height width row false pts HL HP) as [ks [K ->]].
  assert (IK : forall x, In x pts -> (float_at big x 4 : b32) = B754_nan \/ Bltb (B754_zero false : b32) (float_at big x 4) = true -> In x ks).
  { intros x Hx F. assert (NO : ~ at_origin big x).
    { intros (_ & O & _). unfold float_at in F. destruct O as [O|O]; rewrite O in F; vm_compute in F; destruct F; discriminate. }
    clear - K Hx NO. induction K as [|y l l' Hy K IH|y l l' Hy K IH]; [destruct Hx| |].
    - destruct Hx as [->|Hx]; [now left|right; auto].
    - destruct Hx as [->|Hx]; [contradiction|auto]. }
  apply (nan_undefined _ (return_of acosf big oi or n) (return_of acosf big oi or p) (return_of acosf big oi or q)); try (apply in_map; apply IK; auto); auto.
  - cbn [return_of pring]. now rewrite R1.
  - cbn [return_of pring]. now rewrite R2.
Qed.
End Driver.
Print Assumptions C143_returns_partial.
Print Assumptions C143_published_partial.
Print Assumptions C143_shutdown_refuted.
Print Assumptions C143_invalid_refuted.

(** ** Cases: a driver with the layout of C75 and returns of ring 0 at (x, y) with z = 0 and
    intensity 0 *)
From Verif Require Import RefSort Prop_Pipeline.
Definition raw (x y : list Z) : list Z := x ++ y ++ [0; 0; 0; 0; 9; 9; 9; 9; 0; 0; 0; 0; 0; 0; 7; 7; 1; 2; 3; 4; 5; 6; 7; 8].
Definition one := [0; 0; 128; 63].
Definition two := [0; 0; 0; 64].
Definition zero := [0; 0; 0; 0].
Definition a_nan := [0; 0; 192; 127].
Lemma raw_sized pts : Forall (fun p => exists x y, In x [one; two; zero; a_nan] /\ In y [one; two; zero; a_nan] /\ p = raw x y) pts -> well_sized 32 pts.
Proof.
  apply Forall_impl. intros p (x & y & Hx & Hy & ->). cbn in Hx, Hy.
  destruct Hx as [<-|[<-|[<-|[<-|[]]]]], Hy as [<-|[<-|[<-|[<-|[]]]]]; (split; [reflexivity|repeat (constructor; [unfold is_byte; lia|]); constructor]).
Qed.
(** An invalid return between (1, 1) and (1, 2): undefined, for every sort, every order of the
    rings and all parameters; the driver said that the cloud is not dense. *)
Definition with_nan : list (list Z) := [raw one one; raw a_nan a_nan; raw one two].
Example C143_invalid_case acosf srt ord prm to_f32 to_f64 :
  drive acosf srt ord prm to_f32 to_f64 (Cloud2 77 1 3 gap_fields false 32 96 (concat with_nan) false) = UB.
Proof.
  apply C143_invalid_refuted with (oi := 16) (or := 20) (n := raw a_nan a_nan) (p := raw one one) (q := raw one two).
  - apply ex_C75_layout.
  - apply raw_sized. repeat constructor; do 2 eexists; (split; [|split]); [| |reflexivity| | |reflexivity| | |reflexivity]; cbn; tauto.
  - right; now left.
  - now left.
  - right; right; now left.
  - apply B2SF_inj. vm_compute. reflexivity.
  - vm_compute. reflexivity.
  - vm_compute. reflexivity.
  - vm_compute. reflexivity.
  - reflexivity.
  - reflexivity.
Qed.
(** Two valid returns and one at the origin: processed; the shutdown is not requested though the
    driver said that the cloud is not dense. *)
Definition valid_pts : list (list Z) := [raw one one; raw zero zero; raw one two].
Lemma valid_kept ks : kept (fun p => ~ at_origin false p) valid_pts ks -> ks = [raw one one; raw one two].
Proof.
  assert (N1 : ~ at_origin false (raw one one)) by (intros ([H|H] & _); discriminate H).
  assert (N2 : ~ at_origin false (raw one two)) by (intros ([H|H] & _); discriminate H).
  assert (Y : at_origin false (raw zero zero)) by (repeat split; left; reflexivity).
  intros K. inversion K as [|? ? ? _ K1|? ? ? C _]; subst; [|tauto]. inversion K1 as [|? ? ? C _|? ? ? _ K2]; subst; [tauto|].
  inversion K2 as [|? ? ? _ K3|? ? ? C _]; subst; [|tauto]. inversion K3; subst. reflexivity.
Qed.
Lemma bits_of b z : B2SF (float_of_bits b) = B2SF (of_Z32 z) -> float_of_bits b = of_Z32 z.
Proof. apply B2SF_inj. Qed.
Example C143_valid_case to_f32 to_f64 : gap_layout gap_fields 32 16 20 /\ well_sized 32 valid_pts /\
  (forall ks, kept (fun p => ~ at_origin false p) valid_pts ks -> well_resolved (map (return_of ex_acos false 16 20) ks)) /\
  exists out, drive ex_acos isort (fun l => l) ex_params to_f32 to_f64 (Cloud2 77 1 3 gap_fields false 32 96 (concat valid_pts) false) = Ok out /\ o_shutdown XA out = false.
Proof.
  assert (G := ex_C75_layout).
  assert (W : well_sized 32 valid_pts) by (apply raw_sized; repeat constructor; do 2 eexists; (split; [|split]); [| |reflexivity| | |reflexivity| | |reflexivity]; cbn; tauto).
  assert (R : forall ks, kept (fun p => ~ at_origin false p) valid_pts ks -> well_resolved (map (return_of ex_acos false 16 20) ks)).
  { intros ks K. rewrite (valid_kept ks K).
    replace (map (return_of ex_acos false 16 20) [raw one one; raw one two]) with (map (fun t => ex_pt (fst t) (fst (snd t)) (snd (snd t))) [(0, (1, 1)); (0, (1, 2))]); [apply whole_cloud; reflexivity|].
    cbn [map fst snd]. unfold return_of, ex_pt, float_at.
    assert (F0 : float_of_bits (place_value (little false zero)) = of_Z32 0) by (apply bits_of; vm_compute; reflexivity).
    assert (F1 : float_of_bits (place_value (little false one)) = of_Z32 1) by (apply bits_of; vm_compute; reflexivity).
    assert (F2 : float_of_bits (place_value (little false two)) = of_Z32 2) by (apply bits_of; vm_compute; reflexivity).
    change (slice (raw one one) 0 4) with one. change (slice (raw one one) 4 4) with one. change (slice (raw one one) 8 4) with zero. change (slice (raw one one) 16 4) with zero. change (slice (raw one one) 20 2) with [0; 0].
    change (slice (raw one two) 0 4) with one. change (slice (raw one two) 4 4) with two. change (slice (raw one two) 8 4) with zero. change (slice (raw one two) 16 4) with zero. change (slice (raw one two) 20 2) with [0; 0].
    rewrite F0, F1, F2. reflexivity. }
  split; [exact G|]. split; [exact W|]. split; [exact R|].
  destruct (C143_published_partial ex_acos to_f32 to_f64 isort (fun l => l) ex_params gap_fields 32 16 20 false 77 1 3 96 false valid_pts G W isort_valid id_order ex_valid_params R) as [out E].
  - vm_compute. reflexivity.
  - vm_compute. discriminate.
  - exists out. split; [exact E|]. exact (C143_shutdown_refuted ex_acos to_f32 to_f64 isort (fun l => l) ex_params _ out E).
Qed.
