(** Property C145: from the messages of the sensor's driver to the poses of the lidar localizer. *)
From Coq Require Import String List ZArith Bool Sorted Lia.
From Flocq Require Import IEEE754.BinarySingleNaN.
From Verif Require Import Base Arith Spec ExtractModel NodeModel SyncModel LocModel SpecLoc SpecSync SyncProofs ChainModel SpecChain ChainProofs Prop_Chain
  ConvertModel SpecConvert DriverModel Prop_Convert SpecBearing Prop_Driver RawMapModel Prop_RawMap.
Import ListNotations.
Notation length := List.length.
Open Scope Z_scope.

(** ** The returns in a message are determined *)
Lemma kept_same {X} (P : X -> Prop) l a b : kept P l a -> kept P l b -> a = b.
Proof. intros K. revert b. induction K as [|x l l' H K IH|x l l' H K IH]; intros b Kb; inversion Kb; subst; try contradiction; auto. f_equal. auto. Qed.
Lemma concat_same step (a b : list (list Z)) : 0 < step -> well_sized step a -> well_sized step b -> concat a = concat b -> a = b.
Proof.
  intros S0 Ha. revert b. induction Ha as [|x a [L _] Ha IH]; intros b Hb E.
  - destruct Hb as [|y b [Ly _] Hb]; auto. cbn [concat] in E. symmetry in E. apply app_eq_nil in E. destruct E as [-> _]. cbn in Ly. lia.
  - destruct Hb as [|y b [Ly _] Hb]; cbn [concat] in E.
    + apply app_eq_nil in E. destruct E as [-> _]. cbn in L. lia.
    + assert (EL : length x = length y) by lia. assert (x = y).
      { apply (f_equal (firstn (length x))) in E. rewrite !firstn_app, EL, !Nat.sub_diag, <- EL, firstn_all, EL, firstn_all in E. cbn [firstn] in E. now rewrite !app_nil_r in E. }
      subst y. apply app_inv_head in E. f_equal. auto.
Qed.
Lemma named_same fields name o1 o2 ty : NoDup (map fname fields) -> has fields name o1 ty -> has fields name o2 ty -> o1 = o2.
Proof.
  intros ND [c1 H1] [c2 H2]. induction fields as [|f l IH]; [destruct H1|]. cbn [map] in ND. inversion ND as [|? ? N1 N2]; subst.
  destruct H1 as [->|H1], H2 as [H2|H2]; auto.
  - now injection H2.
  - exfalso. apply N1. apply (in_map fname) in H2. exact H2.
  - subst f. exfalso. apply N1. apply (in_map fname) in H1. exact H1.
Qed.
Lemma carries_same acosf c r1 r2 : carries acosf c r1 -> carries acosf c r2 -> r1 = r2.
Proof.
  intros (fields & step & oi & or & big & stamp & hh & w & row & dense & pts & ks & -> & HL & HP & K & ->)
         (fields2 & step2 & oi2 & or2 & big2 & stamp2 & hh2 & w2 & row2 & dense2 & pts2 & ks2 & E & HL2 & HP2 & K2 & ->).
  injection E as _ _ _ <- <- <- _ ED _. destruct HL as (_ & _ & _ & I1 & R1 & _ & ND & _ & _ & H16), HL2 as (_ & _ & _ & I2 & R2 & _).
  inversion ND as [|? ? _ ND']; subst. rewrite <- (named_same _ _ _ _ _ ND' I1 I2), <- (named_same _ _ _ _ _ ND' R1 R2).
  assert (pts = pts2) by (apply (concat_same step); auto; lia). subst pts2. now rewrite (kept_same _ _ _ _ K K2).
Qed.

Section RawPose.
Variable acosf : b64 -> b64.
Notation A := (ieee acosf).
Variable L : arith.
Variable to_f32 to_f64 : value -> option Z.
Variable srt : sorter.
Variable ord : list (Z * list Z) -> list (Z * list Z).
Variable prm : params A.
Variable Pose : Type.
Variable localize : ChainModel.cloud A * ChainModel.cloud A -> Pose -> outcome Pose.
Notation converter := (converter to_f32 to_f64).
Notation extraction_process := (extraction_process acosf srt ord prm).
Notation drive := (drive acosf srt ord prm to_f32 to_f64).
Notation run := (localizer_run A L Pose localize).
Implicit Types (h : list (input A Pose)).

Lemma scans_heard raws heard : Forall (readable acosf) raws -> StronglySorted Z.lt (map header raws) -> left_out heard (converter raws) ->
  exists cs scans, left_out cs raws /\ extraction_process heard = extractor A srt ord prm scans /\
    Forall2 (fun c s => s_stamp s = header c /\ extract A srt ord prm s = drive c) cs scans /\
    StronglySorted Z.lt (map (fun s => s_stamp s) scans).
Proof.
  intros HR G HH. destruct (heard_drive acosf to_f32 to_f64 srt ord prm raws heard HR HH) as (cs & scans & I1 & I2 & I3 & _).
  exists cs, scans. split; [exact I1|]. split; [now apply process_scans|]. split; [exact I3|].
  replace (map (fun s : lidar_scan A => s_stamp s) scans) with (map header cs); [exact (left_out_sorted _ _ (left_out_map header _ _ I1) G)|].
  clear - I3. induction I3 as [|c s cs ss [E _] F IH]; cbn [map]; congruence.
Qed.

(** Whatever is lost between the processes, while the localizer runs: the published poses carry
    the stamps of messages of the sensor, growing, so at most one for each message. *)
Theorem C145_in_order_partial raws heard h st : Forall (readable acosf) raws -> StronglySorted Z.lt (map header raws) ->
  left_out heard (converter raws) -> delivers (extraction_process heard) h -> run h = Ok st ->
  StronglySorted Z.lt (map pub_stamp (outs (snd st))) /\
  forall t, In t (map pub_stamp (outs (snd st))) -> exists c, In c raws /\ header c = t.
Proof.
  intros HR G HH D E. destruct (scans_heard raws heard HR G HH) as (cs & scans & I1 & EQ & I3 & GS). rewrite EQ in D.
  destruct (C139_in_order A L srt ord prm Pose localize scans h st GS D E) as [K1 K2]. split; [exact K1|].
  intros t Ht. destruct (K2 t Ht) as (s & Hs & <-). destruct (both_in _ _ _ _ I3 Hs) as (c & Hc & C1 & _). exists c. split; [exact (left_out_in _ _ _ I1 Hc)|auto].
Qed.
(** Each published pose comes from the edge and the surface points that the extraction computes
    from the returns, not at the origin, of the one message whose stamp it carries, and from a prior that was received. *)
Theorem C145_own_returns_partial raws heard h st o : Forall (readable acosf) raws -> StronglySorted Z.lt (map header raws) ->
  left_out heard (converter raws) -> delivers (extraction_process heard) h -> run h = Ok st -> In o (outs (snd st)) ->
  exists c rs out t p, In c raws /\ header c = pub_stamp o /\ carries acosf c rs /\
    ExtractModel.callback A srt ord prm true true rs = Ok out /\ In (t, p) (received h) /\
    localize (o_edge A out, o_surface A out) p = Ok (pub_pose o) /\ tf_stamp o = pub_stamp o /\ tf_pose o = pub_pose o.
Proof.
  intros HR G HH D E Ho. destruct (scans_heard raws heard HR G HH) as (cs & scans & I1 & EQ & I3 & GS). rewrite EQ in D.
  destruct (C139_own_features A L srt ord prm Pose localize scans h st o GS D E Ho) as (s & out & t & p & Hs & S1 & S2 & S3 & S4 & S5 & S6).
  destruct (both_in _ _ _ _ I3 Hs) as (c & Hc & C1 & C2). apply (left_out_in _ _ _ I1) in Hc.
  rewrite Forall_forall in HR. destruct (HR c Hc) as (? & fields & step & oi & or & big & stamp & hh & w & row & dense & pts & ? & -> & HL & HP & _ & _).
  destruct (C143_returns_partial acosf to_f32 to_f64 srt ord prm fields step oi or big stamp hh w row dense pts HL HP) as [ks [K EK]].
  exists (Cloud2 stamp hh w fields big step row (concat pts) dense), (map (return_of acosf big oi or) ks), out, t, p.
  split; [exact Hc|]. split; [congruence|]. split; [exists fields, step, oi, or, big, stamp, hh, w, row, dense, pts, ks; auto|]. split; [|auto].
  rewrite <- EK. congruence.
Qed.

(** After a message that does not match its announced layout no pose is published for what the
    sensor sends. *)
Theorem C145_malformed_refuted before bad after heard h st : Forall (readable acosf) before -> StronglySorted Z.lt (map header before) -> malformed bad ->
  left_out heard (converter (before ++ bad :: after)) -> delivers (extraction_process heard) h -> run h = Ok st ->
  forall t, In t (map pub_stamp (outs (snd st))) -> exists c, In c before /\ header c = t.
Proof.
  intros HR G M HH D E. rewrite (C144_malformed_refuted to_f32 to_f64 before bad after M) in HH. exact (proj2 (C145_in_order_partial before heard h st HR G HH D E)).
Qed.
End RawPose.

(** With the arithmetic of the processor in the localizer: valid returns that single precision
    can tell apart, nothing lost, neither feature topic ahead of the other by more than ten
    messages, a prior not newer than the messages first: exactly one pose for each message. *)
Section Complete.
Variable acosf acosl : b64 -> b64.
Notation A := (ieee acosf).
Notation L := (ieee acosl).
Variable to_f32 to_f64 : value -> option Z.
Variable srt : sorter.
Variable ord : list (Z * list Z) -> list (Z * list Z).
Variable prm : params A.
Variable Pose : Type.
Variable localize : ChainModel.cloud A * ChainModel.cloud A -> Pose -> outcome Pose.
Notation converter := (converter to_f32 to_f64).
Notation extraction_process := (extraction_process acosf srt ord prm).
Notation drive := (drive acosf srt ord prm to_f32 to_f64).
(** A message of a layout of C75 with valid returns, of a size that the extraction can count. *)
Definition clear (c : cloud2) : Prop :=
  (exists rs, carries acosf c rs /\ well_resolved rs) /\
  zlen (data c) + p_padding A prm + 2 < 2 ^ 31 /\ zlen (data c) * p_blocks A prm <= 2 ^ 53.

Lemma clear_published c : valid_sort srt -> valid_order ord -> valid_params A prm -> clear c -> exists out, drive c = Ok out /\ o_shutdown A out = false.
Proof.
  intros VS VO VP ((rs & CR & W0) & H1 & H2). assert (W : forall r, carries acosf c r -> well_resolved r) by (intros r Hr; now rewrite (carries_same _ _ _ _ Hr CR)).
  destruct CR as (fields & step & oi & or & big & stamp & hh & w & row & dense & pts & ? & -> & HL & HP & _ & _). cbn [data] in H1, H2.
  assert (S0 : 0 < step) by (destruct HL as (_ & _ & _ & _ & _ & _ & _ & _ & _ & ?); lia).
  assert (L2 : zlen pts <= zlen (concat pts)).
  { unfold zlen. clear - HP S0. induction HP as [|p l [H _] HP IH]; cbn [concat length]; [lia|]. rewrite app_length. lia. }
  destruct (C143_published_partial acosf to_f32 to_f64 srt ord prm fields step oi or big stamp hh w row dense pts HL HP VS VO VP) as [out E].
  - intros ks K. apply W. exists fields, step, oi, or, big, stamp, hh, w, row, dense, pts, ks. auto.
  - lia.
  - destruct VP as (_ & B & _). nia.
  - exists out. split; [exact E|]. exact (C143_shutdown_refuted acosf to_f32 to_f64 srt ord prm _ out E).
Qed.
Lemma all_scans raws : Forall (readable acosf) raws ->
  exists scans, Forall2 (fun o s => scan_of acosf o = Ok s /\ header o = s_stamp s) (converter raws) scans /\
    Forall2 (fun c s => s_stamp s = header c /\ extract A srt ord prm s = drive c) raws scans.
Proof.
  induction 1 as [|c r H HR (scans & I1 & I2)]; cbn [RawMapModel.converter]; [exists []; split; constructor|].
  destruct (converted_message acosf to_f32 to_f64 c H) as (o & rs & E & Hh & Hc & E2). rewrite E.
  eexists (_ :: scans). split; constructor; eauto; (split; [|]); try exact E2; try (cbn; now auto). eapply drive_scan; eauto.
Qed.

Theorem C145_every_message_partial raws t0 p0 (h : list (input A Pose)) :
  valid_sort srt -> valid_order ord -> valid_params A prm ->
  Forall clear raws -> StronglySorted Z.lt (map header raws) ->
  delivers_all 10 (extraction_process (converter raws)) (Prior t0 p0 :: h) ->
  (forall x p, exists p', localize x p = Ok p') ->
  (forall c, In c raws -> t0 <= header c < 2 ^ 63) -> - 2 ^ 63 <= t0 < 2 ^ 63 ->
  (forall t p, In (t, p) (received h) -> - 2 ^ 63 <= t < 2 ^ 63) ->
  exists st, localizer_run A L Pose localize (Prior t0 p0 :: h) = Ok st /\
    map pub_stamp (outs (snd st)) = map header raws.
Proof.
  intros VS VO VP HC G D HL HS H0 HP. assert (HR : Forall (readable acosf) raws) by (eapply Forall_impl; [|exact HC]; intros c ((rs & H & _) & _); exists rs; exact H).
  destruct (all_scans raws HR) as (scans & I1 & I2). rewrite (process_scans acosf srt ord prm _ _ I1) in D.
  assert (ES : map (fun s : lidar_scan A => s_stamp s) scans = map header raws) by (clear - I2; induction I2 as [|c s cs ss [E _] F IH]; cbn [map]; congruence).
  rewrite <- ES in *. apply (C139_every_scan A acosl srt ord prm Pose localize scans t0 p0 h G); auto.
  - intros s Hs. destruct (both_in _ _ _ _ I2 Hs) as (c & Hc & _ & ->). rewrite Forall_forall in HC. apply clear_published; auto.
  - intros s Hs. destruct (both_in _ _ _ _ I2 Hs) as (c & Hc & -> & _). auto.
Qed.
End Complete.
Print Assumptions C145_in_order_partial.
Print Assumptions C145_own_returns_partial.
Print Assumptions C145_every_message_partial.
Print Assumptions C145_malformed_refuted.

(** ** Cases *)
From Verif Require Import RefSort Prop_Pipeline Prop_Bearing.
Definition small_ring (r : Z) (dist : list Z) : list (Z * (Z * Z)) :=
  map (fun dr => (r, (fst (fst dr) * snd dr, snd (fst dr) * snd dr))) (combine ex_dirs dist).
Definition small : list (Z * (Z * Z)) := small_ring 0 [1;1;1;1;1;2;1;1;1;1;1;1] ++ small_ring 1 [1;1;1;1;1;1;1;2;1;1;1;1].
Definition small_bytes : list (list Z) := point_bytes 0 0 0 :: map (fun t => point_bytes (fst t) (fst (snd t)) (snd (snd t))) small.
Definition fields_of (p : point XA) := (B2SF (px XA p : b32), B2SF (py XA p : b32), B2SF (pz XA p : b32), B2SF (pintensity XA p : b32), pring XA p).
Lemma fields_same (p q : point XA) : fields_of p = fields_of q -> p = q.
Proof. destruct p, q. unfold fields_of. cbn. intros H. injection H as H1 H2 H3 H4 H5. apply B2SF_inj in H1, H2, H3, H4. congruence. Qed.
Lemma small_carried t : exists rs, carries ex_acos (driver_message t small_bytes) rs /\ well_resolved rs.
Proof.
  assert (W : well_sized 32 small_bytes) by (apply bytes_sized; vm_compute; reflexivity).
  exists (map (return_of ex_acos false 16 20) (tl small_bytes)). split.
  - exists gap_fields, 32, 16, 20, false, t, 1, (zlen small_bytes), (32 * zlen small_bytes), false, small_bytes, (tl small_bytes).
    split; [reflexivity|]. split; [apply ex_C75_layout|]. split; [exact W|]. split; [|reflexivity].
    apply kept_no; [intros N; apply N; repeat split; left; reflexivity|].
    assert (F : forallb (fun p => negb ((nth 0 p 0 =? 0) && (nth 1 p 0 =? 0) && (nth 2 p 0 =? 0))) (tl small_bytes) = true) by (vm_compute; reflexivity).
    change (kept (fun p => ~ at_origin false p) (tl small_bytes) (tl small_bytes)). revert F. generalize (tl small_bytes).
    intros l. induction l as [|p l IH]; intros F; [constructor|]. cbn [forallb] in F. apply andb_true_iff in F. destruct F as [F1 F2]. constructor; auto.
    intros (O & _). unfold zero_bytes, little, slice in O. cbn [skipn Z.to_nat] in O. destruct p as [|a [|b [|d [|e p]]]]; cbn in O; destruct O as [O|O]; try discriminate O; injection O as -> -> -> ->; discriminate F1.
  - replace (map (return_of ex_acos false 16 20) (tl small_bytes)) with (map (fun t => ex_pt (fst t) (fst (snd t)) (snd (snd t))) small); [apply whole_cloud; vm_compute; reflexivity|].
    assert (H : forall l r : list (point XA), map fields_of l = map fields_of r -> l = r).
    { induction l as [|p l IH]; intros [|q r] H; try discriminate; auto. cbn [map] in H. apply f_equal2; [apply fields_same; exact (f_equal (hd (fields_of p)) H)|apply IH; exact (f_equal (@tl _) H)]. }
    apply H. vm_compute. reflexivity.
Qed.
Definition small_messages : list cloud2 := [driver_message 100 small_bytes; driver_message 200 small_bytes].
Definition small_extracted := extraction_process ex_acos isort (fun l => l) ex_params (converter no_conv no_conv small_messages).
Definition small_arrivals : list (input XA Z) :=
  [Prior 50 1000] ++ concat (map (fun m => [Feature (First (fst (fst m)) (snd (fst m))); Feature (Second (fst (fst m)) (snd m))]) small_extracted).
(** Two messages, each with a return at the origin; two edge and six surface points are found
    in each; the pose is a number to which ten is added for each edge point and one for each
    surface point. *)
Example C145_case : valid_sort isort /\ valid_order (fun l => l) /\ valid_params XA ex_params /\
  Forall (clear ex_acos ex_params) small_messages /\ StronglySorted Z.lt (map header small_messages) /\
  delivers_all 10 small_extracted small_arrivals /\ (forall x p, exists p', ex_count x p = Ok p') /\
  match localizer_run XA XA Z ex_count small_arrivals with
  | Ok st => map (fun o => (pub_stamp o, pub_pose o)) (outs (snd st)) = [(100, 1026); (200, 1026)]
  | _ => False
  end.
Proof.
  split; [apply isort_valid|]. split; [apply id_order|]. split; [apply ex_valid_params|].
  split. { assert (C : forall t, clear ex_acos ex_params (driver_message t small_bytes)) by (intros t; split; [apply small_carried|split; vm_compute; [reflexivity|discriminate]]). repeat constructor; apply C. }
  split; [repeat constructor; cbn; lia|]. split; [|split; [intros x p; eexists; reflexivity|vm_compute; reflexivity]].
  assert (M : exists a b, small_extracted = [a; b]).
  { assert (H : length small_extracted = 2%nat) by (vm_compute; reflexivity). destruct small_extracted as [|a [|b [|c l]]]; try discriminate. eauto. }
  unfold small_arrivals. destruct M as ([[t1 a1] b1] & [[t2 a2] b2] & ->). cbn [map concat app fst snd]. split; [reflexivity|]. split; [reflexivity|].
  intros h1 h2 E. do 6 (destruct h1 as [|? h1]; [cbn in *; lia|cbn [app] in E; try discriminate E; injection E as <- E]).
Qed.
