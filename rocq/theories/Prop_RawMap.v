(** Property C144: from the messages of the sensor's driver to the map file. *)
From Coq Require Import String List ZArith Bool Reals Sorted Lia.
From Flocq Require Import IEEE754.BinarySingleNaN.
From Verif Require Import Base Arith Spec ExtractModel NodeModel SyncModel SpecSync SyncProofs ChainModel SpecChain ChainProofs Prop_Chain
  PoseModel SpecPose MapModel SpecMap MapProofs MsgModel MapChainModel SpecMapChain Prop_Sync Prop_MapChain FullMapModel Prop_FullMap
  ConvertModel SpecConvert ConvertProofs ConvertProofs2 DriverModel Prop_Convert Prop_Reject Prop_Driver RawMapModel.
Import ListNotations.
Notation length := List.length.
Open Scope Z_scope.

Section RawMap.
Variable acosf : b64 -> b64.
Notation A := (ieee acosf).
Variable to_f32 to_f64 : value -> option Z.
Variable srt : sorter.
Variable ord : list (Z * list Z) -> list (Z * list Z).
Variable prm : params A.
Variable val : F A -> R.
Variable indeterminate : pose.
Notation converter := (converter to_f32 to_f64).
Notation extraction_process := (extraction_process acosf srt ord prm).
Notation the_map l := (points (map_ (snd (mapper_run indeterminate l)))).
Notation unit_poses l := (forall t m, In (Second t m) l -> SpecPose.unit (orientation m)).

(** ** Specification *)
(** The message is one of a layout of C75 and rs are its returns that are not at the origin, in
    their order. *)
Definition carries (c : cloud2) (rs : list (point A)) : Prop :=
  exists fields step oi or big stamp height width row dense pts ks,
    c = Cloud2 stamp height width fields big step row (concat pts) dense /\ gap_layout fields step oi or /\ well_sized step pts /\
    kept (fun p => ~ at_origin big p) pts ks /\ rs = map (return_of acosf big oi or) ks.
Definition readable (c : cloud2) : Prop := exists rs, carries c rs.

(** ** Proofs *)
Lemma converted_message c : readable c ->
  exists o rs, ConvertModel.callback to_f32 to_f64 c = Ok o /\ header o = header c /\ carries c rs /\
    scan_of acosf o = Ok {| s_stamp := header c; s_dense := true; s_fields := map fname make_fields; s_points := rs |}.
Proof.
  intros (? & fields & step & oi & or & big & stamp & h & w & row & dense & pts & ? & -> & HL & HP & _ & _).
  destruct (C75_converted_partial to_f32 to_f64 fields step oi or big stamp h w row dense pts HL HP) as [ks [K E]].
  eexists. exists (map (return_of acosf big oi or) ks). split; [exact E|]. split; [reflexivity|].
  split; [exists fields, step, oi, or, big, stamp, h, w, row, dense, pts, ks; auto|].
  unfold scan_of. pose proof (read_converted acosf fields step oi or big stamp ks HL) as R.
  match goal with |- context [from_ros_msg acosf ?m] => match type of R with _ -> from_ros_msg acosf ?m' = _ => change m' with m in R end end.
  rewrite R; [reflexivity|]. clear R.
  assert (IK : forall p, In p ks -> In p pts). { clear - K. induction K; cbn; intros q; [auto|intros [<-|I]; auto|auto]. }
  unfold well_sized in *. rewrite Forall_forall in *. auto.
Qed.
Definition read_from (o : cloud2) (c : cloud2) (s : lidar_scan A) : Prop :=
  header o = header c /\ s_stamp s = header c /\ carries c (s_points s) /\ scan_of acosf o = Ok s.
Lemma converter_all raws : Forall readable raws ->
  Forall2 (fun o c => exists s, read_from o c s) (converter raws) raws.
Proof.
  induction 1 as [|c r H HR IH]; cbn [RawMapModel.converter]; [constructor|]. destruct (converted_message c H) as (o & rs & -> & Hh & Hc & E).
  constructor; auto. exists {| s_stamp := header c; s_dense := true; s_fields := map fname make_fields; s_points := rs |}.
  split; [exact Hh|]. split; [reflexivity|]. split; [exact Hc|exact E].
Qed.
(** What the extraction hears belongs to some of the driver's messages, in their order. *)
Lemma heard_from raws heard : Forall readable raws -> left_out heard (converter raws) ->
  exists cs scans, left_out cs raws /\ Forall2 (fun o s => scan_of acosf o = Ok s /\ header o = s_stamp s) heard scans /\
    Forall2 (fun c s => s_stamp s = header c /\ carries c (s_points s)) cs scans.
Proof.
  intros HR L. pose proof (converter_all raws HR) as F. clear HR. revert L F. generalize (converter raws) as os. intros os L. revert raws. induction L as [|o x y L IH|o x y L IH]; intros raws F.
  - inversion F; subst. exists [], []. repeat constructor.
  - inversion F as [|? c ? r (s & H1 & H2 & H3 & H4) F']; subst. destruct (IH r F') as (cs & scans & I1 & I2 & I3).
    exists (c :: cs), (s :: scans). split; [now constructor|]. split; constructor; auto. split; congruence.
  - inversion F as [|? c ? r _ F']; subst. destruct (IH r F') as (cs & scans & I1 & I2 & I3).
    exists cs, scans. split; [now constructor|]. auto.
Qed.
Lemma process_scans heard scans : Forall2 (fun o s => scan_of acosf o = Ok s /\ header o = s_stamp s) heard scans ->
  extraction_process heard = extractor A srt ord prm scans.
Proof.
  induction 1 as [|o s l r [H1 H2] H IH]; [reflexivity|]. cbn [RawMapModel.extraction_process extractor]. rewrite H1, H2. cbn [bind].
  destruct (extract A srt ord prm s) as [out| | | | |]; auto. now rewrite IH.
Qed.
Lemma both_in {X Y} (P : X -> Y -> Prop) l r y : Forall2 P l r -> In y r -> exists x, In x l /\ P x y.
Proof. induction 1 as [|a b l r H F IH]; intros I; [destruct I|]. destruct I as [<-|I]; [exists a; cbn; auto|]. destruct (IH I) as (x & I1 & I2). exists x. cbn. auto. Qed.
Lemma few_returns c rs : carries c rs -> zlen rs <= zlen (data c).
Proof.
  intros (fields & step & oi & or & big & stamp & h & w & row & dense & pts & ks & -> & HL & HP & K & ->). cbn [data]. unfold zlen. rewrite map_length.
  assert (S0 : 0 < step) by (destruct HL as (_ & _ & _ & _ & _ & _ & _ & _ & _ & ?); lia).
  assert (L1 : (length ks <= length pts)%nat) by (clear - K; induction K; cbn [length]; lia).
  assert (L2 : (length pts <= length (concat pts))%nat).
  { clear - HP S0. induction HP as [|p l [H _] HP IH]; cbn [concat length]; [lia|]. rewrite app_length. lia. }
  lia.
Qed.

(** ** Theorems *)
(** Whatever is lost between the four programs, in whatever order messages arrive at the mapping,
    whatever the stamps are: every point of the map is a return in a message of the driver that
    is not at the origin and whose distance is within the limits, at the place where a pose with
    the stamp of this message puts it. *)
Theorem C144_measured_partial raws heard l p : valid_sort srt -> valid_order ord -> valid_params A prm ->
  Forall readable raws -> (forall c, In c raws -> zlen (data c) + p_padding A prm + 2 < 2 ^ 31) ->
  left_out heard (converter raws) -> left_out (firsts l) (edge_topic A val (extraction_process heard)) -> unit_poses l ->
  In p (the_map l) ->
  exists c rs pt m, In c raws /\ carries c rs /\ In pt rs /\ In (Second (header c) m) l /\
    p = placed m (V3 (val (px A pt)) (val (py A pt)) (val (pz A pt))) /\
    (let r := xy_norm A (f2d A (px A pt)) (f2d A (py A pt)) in d_leb A (p_min A prm) r = true /\ d_leb A r (p_max A prm) = true).
Proof.
  intros VS VO VP HR HZ HH D HU Hp. destruct (heard_from raws heard HR HH) as (cs & scans & I1 & I2 & I3).
  rewrite (process_scans _ _ I2) in D.
  destruct (C142_measured A srt ord prm val indeterminate scans l p VS VO VP) as (s & pt & m & Hs & Hpt & Hm & -> & _ & Hr); auto.
  { intros s Hs. destruct (both_in _ _ _ _ I3 Hs) as (c & Hc & _ & C). apply (left_out_in _ _ _ I1) in Hc. specialize (HZ c Hc). apply few_returns in C. lia. }
  destruct (both_in _ _ _ _ I3 Hs) as (c & Hc & E & C). rewrite E in Hm. exists c, (s_points s), pt, m. repeat split; auto; try apply Hr. exact (left_out_in _ _ _ I1 Hc).
Qed.

(** With growing stamps and no overflow of the mapping's queue: the map is put together from
    some of the driver's messages, in their order, from each some returns, none twice. *)
Definition frame_of_message (raws : list cloud2) (l : list (arrival (MapModel.cloud vec) pose_msg)) (f : cloud2 * list (point A) * pose_msg * list Z) : Prop :=
  let '(c, rs, m, e) := f in
  In c raws /\ carries c rs /\ In (Second (header c) m) l /\ e <> [] /\ NoDup e /\ forall k, In k e -> 0 <= k < zlen rs.
Definition message_points (f : cloud2 * list (point A) * pose_msg * list Z) : list vec :=
  let '(c, rs, m, e) := f in map (fun q => placed m (as_vec A val q)) (Spec.coords A rs e).
Theorem C144_map_partial raws heard l : valid_sort srt -> valid_order ord ->
  Forall readable raws -> StronglySorted Z.lt (map header raws) -> growing (seconds l) -> never_more_than 1000 l ->
  left_out heard (converter raws) -> left_out (firsts l) (edge_topic A val (extraction_process heard)) -> unit_poses l ->
  exists frames, Forall (frame_of_message raws l) frames /\
    StronglySorted Z.lt (map (fun f => header (fst (fst (fst f)))) frames) /\
    the_map l = concat (map message_points frames).
Proof.
  intros VS VO HR G G2 N HH D HU. destruct (heard_from raws heard HR HH) as (cs & scans & I1 & I2 & I3).
  rewrite (process_scans _ _ I2) in D.
  assert (GS : StronglySorted Z.lt (map (fun s => s_stamp s) scans)).
  { replace (map (fun s : lidar_scan A => s_stamp s) scans) with (map header cs); [exact (left_out_sorted _ _ (left_out_map header _ _ I1) G)|].
    clear - I3. induction I3 as [|c s cs ss [E _] F IH]; cbn [map]; congruence. }
  destruct (C142_map A srt ord prm val indeterminate scans l VS VO GS G2 N D HU) as (frames & F1 & F2 & F3).
  destruct (choose_all (fun f g => frame_of_message raws l g /\ s_stamp (fst (fst f)) = header (fst (fst (fst g))) /\ frame_points A val f = message_points g) frames) as [gs HG].
  { rewrite Forall_forall in F1. intros [[s m] e] Hf. destruct (F1 _ Hf) as (Hs & Hm & Ne & Nd & B). destruct (both_in _ _ _ _ I3 Hs) as (c & Hc & E & C).
    exists (c, s_points s, m, e). split; [|split; [exact E|reflexivity]]. rewrite E in Hm.
    split; [exact (left_out_in _ _ _ I1 Hc)|]. split; [exact C|]. split; [exact Hm|]. split; [exact Ne|]. split; [exact Nd|exact B]. }
  exists gs. rewrite F3. clear - HG F2. split; [|split].
  - induction HG as [|f g fs gs (H & _) HG IH]; constructor; auto. apply IH. now inversion F2.
  - replace (map (fun f => header (fst (fst (fst f)))) gs) with (map (fun f : lidar_scan A * pose_msg * list Z => s_stamp (fst (fst f))) frames); [exact F2|].
    clear - HG. induction HG as [|f g fs gs (_ & H & _) HG IH]; cbn [map]; congruence.
  - f_equal. clear - HG. induction HG as [|f g fs gs (_ & _ & H) HG IH]; cbn [map]; congruence.
Qed.

(** And every message heard by the extraction whose features have edge points, arrive at the
    mapping and find their pose is represented: an earlier message, or itself, from less than a
    metre and about 11.5 degrees away, is in the map with all the edge points that the extraction
    behind the converter computes from it. *)
Notation drive := (drive acosf srt ord prm to_f32 to_f64).
Lemma drive_scan c o s : ConvertModel.callback to_f32 to_f64 c = Ok o -> scan_of acosf o = Ok s -> extract A srt ord prm s = drive c.
Proof.
  intros E H. unfold DriverModel.drive, extraction, extract. rewrite E. unfold scan_of in H. cbn [bind]. apply FillProofs.bind_ok in H. destruct H as [pts [-> H]]. injection H as <-. reflexivity.
Qed.
Lemma heard_drive raws heard : Forall readable raws -> left_out heard (converter raws) ->
  exists cs scans, left_out cs raws /\ Forall2 (fun o s => scan_of acosf o = Ok s /\ header o = s_stamp s) heard scans /\
    Forall2 (fun c s => s_stamp s = header c /\ extract A srt ord prm s = drive c) cs scans /\
    Forall2 (fun c o => ConvertModel.callback to_f32 to_f64 c = Ok o) cs heard.
Proof.
  intros HR L. assert (F : Forall2 (fun o c => ConvertModel.callback to_f32 to_f64 c = Ok o /\ exists s, s_stamp s = header c /\ header o = s_stamp s /\ scan_of acosf o = Ok s) (converter raws) raws).
  { clear L. induction HR as [|c r H HR IH]; cbn [RawMapModel.converter]; [constructor|]. destruct (converted_message c H) as (o & rs & E & Hh & Hc & E2). rewrite E.
    constructor; auto. split; auto. eexists. split; [|split; [|exact E2]]; cbn; auto. }
  clear HR. revert L F. generalize (converter raws) as os. intros os L. revert raws. induction L as [|o x y L IH|o x y L IH]; intros raws F.
  - inversion F; subst. exists [], []. repeat constructor.
  - inversion F as [|? c ? r (E & s & H1 & H2 & H3) F']; subst. destruct (IH r F') as (cs & scans & I1 & I2 & I3 & I4).
    exists (c :: cs), (s :: scans). split; [now constructor|]. split; [constructor; auto|]. split; constructor; auto. split; [auto|]. eapply drive_scan; eauto.
  - inversion F as [|? c ? r _ F']; subst. destruct (IH r F') as (cs & scans & I1 & I2 & I3 & I4).
    exists cs, scans. split; [now constructor|]. auto.
Qed.
Lemma both_in_left {X Y} (P : X -> Y -> Prop) l r x : Forall2 P l r -> In x l -> exists y, In y r /\ P x y.
Proof. induction 1 as [|a b l r H F IH]; intros I; [destruct I|]. destruct I as [<-|I]; [exists b; cbn; auto|]. destruct (IH I) as (y & I1 & I2). exists y. cbn. auto. Qed.
Theorem C144_covered_partial raws heard l o out m : Forall readable raws -> StronglySorted Z.lt (map header raws) -> growing (seconds l) -> never_more_than 1000 l ->
  left_out heard (converter raws) -> left_out (firsts l) (edge_topic A val (extraction_process heard)) -> unit_poses l ->
  In o heard -> extraction acosf srt ord prm o = Ok out -> o_edge A out <> [] ->
  In (First (header o) (as_cloud A val (o_edge A out))) l -> In (Second (header o) m) l ->
  exists c' out' m', In c' raws /\ drive c' = Ok out' /\ o_edge A out' <> [] /\ header c' <= header o /\
    (header c' = header o \/ ~ SpecMapChain.apart (header c', m') (header o, m)) /\
    forall q, In q (o_edge A out') -> In (placed m' (as_vec A val q)) (the_map l).
Proof.
  intros HR G G2 N HH D HU Ho E NE F1 F2. destruct (heard_drive raws heard HR HH) as (cs & scans & I1 & I2 & I3 & I4).
  rewrite (process_scans _ _ I2) in D.
  assert (GS : StronglySorted Z.lt (map (fun s => s_stamp s) scans)).
  { replace (map (fun s : lidar_scan A => s_stamp s) scans) with (map header cs); [exact (left_out_sorted _ _ (left_out_map header _ _ I1) G)|].
    clear - I3. induction I3 as [|c s cs ss [E _] F IH]; cbn [map]; congruence. }
  destruct (both_in_left _ _ _ _ I2 Ho) as (s & Hs & S1 & S2).
  assert (ES : extract A srt ord prm s = Ok out).
  { rewrite <- E. unfold extraction, extract, scan_of in *. apply FillProofs.bind_ok in S1. destruct S1 as [pts [-> S1]]. injection S1 as <-. reflexivity. }
  rewrite S2 in *. destruct (C142_covered A srt ord prm val indeterminate scans l s out m GS G2 N D HU Hs ES NE F1 F2) as (s' & out' & m' & H1 & H2 & H3 & H4 & H5 & H6).
  destruct (both_in _ _ _ _ I3 H1) as (c & Hc & C1 & C2). exists c, out', m'. rewrite <- C1, <- C2. repeat split; auto. exact (left_out_in _ _ _ I1 Hc).
Qed.

(** One message that does not match its announced layout, and nothing that the driver sends
    afterwards is ever converted. *)
Definition malformed (c : cloud2) : Prop :=
  0 <= point_step c /\
  (point_step c = 0 \/ ~ (point_step c | Z.of_nat (length (data c))) \/
   (exists f, In f (cfields c) /\ 8 < datatype f) \/
   (data c <> [] /\ exists f, In f (cfields c) /\ 1 <= datatype f /\ point_step c < offset f + type_size (datatype f))).
Theorem C144_malformed_refuted before bad after : malformed bad -> converter (before ++ bad :: after) = converter before.
Proof.
  intros [P M]. pose proof (C117_rejected_partial to_f32 to_f64 bad P M) as R.
  induction before as [|c l IH]; cbn [app RawMapModel.converter]; [destruct R as [->|[->| ->]]; reflexivity|].
  destruct (ConvertModel.callback to_f32 to_f64 c); auto. now rewrite IH.
Qed.
End RawMap.
Print Assumptions C144_measured_partial.
Print Assumptions C144_map_partial.
Print Assumptions C144_covered_partial.
Print Assumptions C144_malformed_refuted.

(** ** A case
    The bytes of the points of ex_cloud (C13) with one return at the origin, a message without
    points, and the same points again, from a driver that says that its clouds are not dense.
    The empty one is lost. The lidar has moved two metres: eight points in the map. *)
From Coq Require Import Lra.
From Verif Require Import RefSort Prop_Pipeline.
(** The pattern of the float of a whole number from 0 to 2^24. *)
Definition pattern (n : Z) : Z := if n =? 0 then 0 else (Z.log2 n + 126) * 2 ^ 23 + n * 2 ^ (23 - Z.log2 n).
Definition point_bytes (r x y : Z) : list Z :=
  to_bytes 4 (pattern x) ++ to_bytes 4 (pattern y) ++ to_bytes 4 (pattern r) ++ [9; 9; 9; 9; 0; 0; 0; 0] ++ to_bytes 2 r ++ [7; 7; 1; 2; 3; 4; 5; 6; 7; 8].
Definition ring_bytes (r : Z) (dist : list Z) : list (list Z) :=
  map (fun dr => point_bytes r (fst (fst dr) * snd dr) (snd (fst dr) * snd dr)) (combine ex_dirs dist).
Definition cloud_bytes : list (list Z) :=
  ring_bytes 0 [10; 10; 10; 10; 10; 30; 10; 10; 10; 10; 10; 10] ++ [point_bytes 0 0 0] ++
  ring_bytes 1 [10; 11; 12; 13; 14; 19; 19; 14; 13; 12; 11; 10] ++ [point_bytes 2 5 5; point_bytes 2 4 6].
Definition driver_message (t : Z) (pts : list (list Z)) : cloud2 :=
  Cloud2 t 1 (zlen pts) gap_fields false 32 (32 * zlen pts) (concat pts) false.
Definition driver_messages : list cloud2 := [driver_message 100 cloud_bytes; driver_message 200 []; driver_message 300 cloud_bytes].
Definition extracted := extraction_process ex_acos isort (fun l => l) ex_params (converter no_conv no_conv driver_messages).
Lemma bytes_sized pts : forallb (fun p => (Z.of_nat (length p) =? 32) && forallb (fun b => (0 <=? b) && (b <? 256)) p) pts = true -> well_sized 32 pts.
Proof.
  intros H. rewrite forallb_forall in H. apply Forall_forall. intros p Hp. specialize (H p Hp). apply andb_true_iff in H. destruct H as [H1 H2]. split; [lia|].
  rewrite forallb_forall in H2. apply Forall_forall. intros b Hb. specialize (H2 b Hb). unfold is_byte. lia.
Qed.
Lemma messages_readable : Forall (readable ex_acos) driver_messages.
Proof.
  assert (H : forall t pts, well_sized 32 pts -> readable ex_acos (driver_message t pts)).
  { intros t pts W. destruct (C75_converted_partial no_conv no_conv gap_fields 32 16 20 false t 1 (zlen pts) (32 * zlen pts) false pts ex_C75_layout W) as [ks [K _]].
    eexists. exists gap_fields, 32, 16, 20, false, t, 1, (zlen pts), (32 * zlen pts), false, pts, ks. split; [reflexivity|]. split; [apply ex_C75_layout|]. auto. }
  assert (W : well_sized 32 cloud_bytes) by (apply bytes_sized; vm_compute; reflexivity).
  repeat constructor; apply H; auto. constructor.
Qed.
Notation topic := (edge_topic XA (@B2R 24 128) extracted).
Lemma topic_is : exists c d, topic = [(100, Cloud true c); (200, Cloud true []); (300, Cloud true d)] /\ length c = 4%nat /\ length d = 4%nat.
Proof.
  assert (H : map (fun x => (fst (fst x), length (snd (fst x)))) extracted = [(100, 4%nat); (200, 0%nat); (300, 4%nat)]) by (vm_compute; reflexivity).
  destruct extracted as [|[[t1 a1] b1] [|[[t2 a2] b2] [|[[t3 a3] b3] [|d l]]]]; try discriminate.
  cbn [map fst snd] in H. injection H as -> L1 -> L2 -> L3. destruct a2; [|discriminate]. eexists _, _. split; [reflexivity|]. now rewrite !map_length.
Qed.
Example C144_case indeterminate : exists l,
  valid_sort isort /\ valid_order (fun l => l) /\ valid_params XA ex_params /\
  Forall (readable ex_acos) driver_messages /\ (forall c, In c driver_messages -> zlen (data c) + p_padding XA ex_params + 2 < 2 ^ 31) /\
  StronglySorted Z.lt (map header driver_messages) /\ growing (seconds l) /\ never_more_than 1000 l /\
  left_out (firsts l) topic /\ (forall t m, In (Second t m) l -> SpecPose.unit (orientation m)) /\
  length (points (map_ (snd (mapper_run indeterminate l)))) = 8%nat.
Proof.
  destruct topic_is as (c & d & -> & Lc & Ld).
  set (w := [First 100 (Cloud true c); First 300 (Cloud true d); Second 100 (at_x 0); Second 300 (at_x 2)]).
  assert (G1 : growing (firsts w)) by (repeat constructor; cbn; lia).
  assert (G2 : growing (seconds w)) by (repeat constructor; cbn; lia).
  assert (N : never_more_than 1000 w).
  { intros p r E. assert (L : (length p <= 4)%nat) by (apply (f_equal (@List.length _)) in E; rewrite app_length in E; cbn in E; lia).
    unfold waiting. transitivity (length (firsts p) + length (seconds p))%nat.
    - apply Nat.add_le_mono; apply filter_length_le.
    - enough (length (firsts p) + length (seconds p) = length p)%nat by lia. clear. induction p as [|[t a|t b] p IH]; cbn [firsts seconds flat_map app length] in *; auto; unfold firsts, seconds in *; lia. }
  assert (HU : forall t m, In (Second t m) w -> SpecPose.unit (orientation m)).
  { intros t m H. cbn in H. repeat (destruct H as [H|H]; [try discriminate H; injection H as <- <-; unfold SpecPose.unit, qnorm2; cbn; ring|]). destruct H. }
  exists w. split; [apply isort_valid|]. split; [apply id_order|]. split; [apply ex_valid_params|]. split; [apply messages_readable|].
  split. { intros s [<-|[<-|[<-|[]]]]; vm_compute; reflexivity. }
  split. { repeat constructor; cbn; lia. }
  split; [exact G2|]. split; [exact N|]. split. { cbn. repeat constructor. } split; [exact HU|].
  destruct (C140_map indeterminate w G1 G2 N HU) as [k [K1 K2]]. rewrite K2. clear K2.
  cbn [pairs w firsts seconds flat_map app filter map fst snd framed points Z.eqb Pos.eqb] in K1.
  destruct c as [|c1 c]; [discriminate|]. destruct d as [|d1 d]; [discriminate|].
  inversion K1 as [| |? ? ? ? k1 K3| |]; subst.
  inversion K3 as [| | |? ? ? ? ? k2 F K4|? ? ? ? ? ? F K4]; subst.
  - inversion K4; subst. cbn [map concat app fst snd length] in *. repeat (rewrite ?app_length, ?map_length; cbn [length]). lia.
  - exfalso. apply F. apply at_apart. rewrite Rabs_pos_eq; lra.
Qed.
(** A message cut short: 31 bytes for a step of 32. Of the three messages the two before it are
    converted, the third is not. *)
Example C144_malformed_case :
  malformed (Cloud2 250 1 1 gap_fields false 32 32 (repeat 0 31) true) /\
  length (converter no_conv no_conv driver_messages) = 3%nat /\
  map header (converter no_conv no_conv [driver_message 100 cloud_bytes; driver_message 200 []; Cloud2 250 1 1 gap_fields false 32 32 (repeat 0 31) true; driver_message 300 cloud_bytes]) = [100; 200].
Proof.
  split; [|split; vm_compute; reflexivity]. split; [cbn; lia|]. right; left. cbn. intros [k K]. lia.
Qed.
(** The first of them for C144_covered_partial. *)
Example C144_covered_case : exists o out, In o (converter no_conv no_conv driver_messages) /\ header o = 100 /\
  extraction ex_acos isort (fun l => l) ex_params o = Ok out /\ length (o_edge XA out) = 4%nat.
Proof.
  assert (H : map (fun o => match extraction ex_acos isort (fun l => l) ex_params o with Ok out => (header o, length (o_edge XA out)) | _ => (0, 0%nat) end)
    (converter no_conv no_conv driver_messages) = [(100, 4%nat); (200, 0%nat); (300, 4%nat)]) by (vm_compute; reflexivity).
  destruct (converter no_conv no_conv driver_messages) as [|o l]; [discriminate|]. cbn [map] in H. injection H as H _.
  destruct (extraction _ _ _ _ o) as [out| | | | |] eqn:E; try discriminate. injection H as H1 H2. exists o, out. rewrite E. repeat split; auto. now left.
Qed.
