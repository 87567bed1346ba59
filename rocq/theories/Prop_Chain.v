(** Property C139: from the scans of the lidar to the poses of the lidar localizer. *)
From Coq Require Import String List ZArith Bool Sorted Lia.
From Verif Require Import Base Arith ExtractModel NodeModel SyncModel LocModel SpecLoc SpecSync SyncProofs ChainModel SpecChain ChainProofs NodeProofs Prop_Store Prop_Sync RefSort Prop_Pipeline.
Import ListNotations.
Notation length := List.length.
Open Scope Z_scope.

Section Chain.
Variable A L : arith.
Variable srt : sorter.
Variable ord : list (Z * list Z) -> list (Z * list Z).
Variable prm : params A.
Variable Pose : Type.
Variable localize : cloud A * cloud A -> Pose -> outcome Pose.
Notation extractor := (extractor A srt ord prm).
Notation extract := (extract A srt ord prm).
Notation run := (localizer_run A L Pose localize).
Implicit Types (scans : list (lidar_scan A)) (h : list (input A Pose)).
(** The stamps of the scans grow. *)
Notation growing_scans scans := (StronglySorted Z.lt (map (fun s => s_stamp s) scans)).

Lemma delivered_growing scans h : growing_scans scans -> delivers (extractor scans) h ->
  growing (firsts (features h)) /\ growing (seconds (features h)) /\ StronglySorted Z.lt (map (fun m => fst (fst m)) (extractor scans)).
Proof.
  intros G [D1 D2].
  assert (GE : StronglySorted Z.lt (map (fun m => fst (fst m)) (extractor scans))).
  { destruct (extractor_stamps A srt ord prm scans) as [r E]. rewrite E in G. apply (left_out_sorted _ _ (left_out_app _ _ [] r (left_out_refl _) (left_out_none r))) in G.
    now rewrite app_nil_r in G. }
  assert (E1 : map fst (edges (extractor scans)) = map (fun m => fst (fst m)) (extractor scans)) by (unfold edges; rewrite map_map; reflexivity).
  assert (E2 : map fst (surfaces (extractor scans)) = map (fun m => fst (fst m)) (extractor scans)) by (unfold surfaces; rewrite map_map; reflexivity).
  split; [apply (left_out_growing _ _ D1); unfold growing; now rewrite E1|]. split; [apply (left_out_growing _ _ D2); unfold growing; now rewrite E2|auto].
Qed.

(** Whatever the network loses and however it interleaves the two topics, as long as the
    process runs: the published poses have the stamps of scans, growing, so at most one for each
    scan. *)
Theorem C139_in_order scans h st : growing_scans scans -> delivers (extractor scans) h -> run h = Ok st ->
  StronglySorted Z.lt (map pub_stamp (outs (snd st))) /\
  forall t, In t (map pub_stamp (outs (snd st))) -> exists s, In s scans /\ s_stamp s = t.
Proof.
  intros G D E. destruct (delivered_growing scans h G D) as [G1 [G2 G3]]. unfold localizer_run in E. rewrite run_calls in E.
  destruct (foldM _ _ (calls A Pose [] h)) as [n| | | | |] eqn:EN; try discriminate. cbn [bind] in E. injection E as <-. cbn [snd].
  destruct (publishes_run L Pose _ localize _ n EN) as [_ [I2 _]]. rewrite calls_scans, map_map in I2. cbn [fst] in I2.
  fold (callbacks localizer_queue (features h)) in I2. pose proof (C138_in_order _ _ localizer_queue (features h) G1 G2) as C. unfold growing in C. rewrite map_map in C. cbn [fst] in C.
  split; [now apply (left_out_sorted _ _ I2)|]. intros t K. apply (left_out_in _ _ _ I2) in K. apply in_map_iff in K. destruct K as [[[t' a] b] [<- K]]. cbn [fst].
  apply C138_same_scan in K. destruct K as [K _]. assert (K1 : In (t', a) (firsts (features h))) by (apply in_flat_map; exists (First t' a); split; auto; now left).
  apply (left_out_in _ _ _ (proj1 D)) in K1. unfold edges in K1. apply in_map_iff in K1. destruct K1 as [[[t2 a2] b2] [E2 K1]]. cbn [fst snd] in E2. injection E2 as -> ->.
  apply extractor_in in K1. destruct K1 as [s [out [H1 [H2 _]]]]. eauto.
Qed.

(** Each published pose comes from the edge and the surface points of one and the same scan, the
    one whose stamp it carries, and from a prior that was received; the transform says the same. *)
Theorem C139_own_features scans h st o : growing_scans scans -> delivers (extractor scans) h -> run h = Ok st ->
  In o (outs (snd st)) ->
  exists s out t p, In s scans /\ s_stamp s = pub_stamp o /\ extract s = Ok out /\ In (t, p) (received h) /\
    localize (o_edge A out, o_surface A out) p = Ok (pub_pose o) /\ tf_stamp o = pub_stamp o /\ tf_pose o = pub_pose o.
Proof.
  intros G D E Ho. destruct (delivered_growing scans h G D) as [_ [_ G3]]. unfold localizer_run in E. rewrite run_calls in E.
  destruct (foldM _ _ (calls A Pose [] h)) as [n| | | | |] eqn:EN; try discriminate. cbn [bind] in E. injection E as <-. cbn [snd] in Ho.
  destruct (publishes_run L Pose _ localize _ n EN) as [_ [_ I3]]. destruct (I3 o Ho) as [J1 [J2 [[a b] [s [p [J3 [J4 J5]]]]]]].
  assert (K : In (pub_stamp o, (a, b)) (scans_of (calls A Pose [] h))).
  { apply in_flat_map. exists (EvScan (pub_stamp o) (a, b)). split; auto. now left. }
  rewrite calls_scans in K. apply in_map_iff in K. destruct K as [[[t a'] b'] [E1 K]]. cbn [fst snd] in E1. injection E1 as -> -> ->.
  apply C138_same_scan in K. destruct K as [K1 K2].
  assert (F1 : In (pub_stamp o, a) (firsts (features h))) by (apply in_flat_map; exists (First (pub_stamp o) a); split; auto; now left).
  assert (F2 : In (pub_stamp o, b) (seconds (features h))) by (apply in_flat_map; exists (Second (pub_stamp o) b); split; auto; now left).
  apply (left_out_in _ _ _ (proj1 D)) in F1. apply (left_out_in _ _ _ (proj2 D)) in F2. unfold edges, surfaces in F1, F2.
  apply in_map_iff in F1, F2. destruct F1 as [m1 [E1 M1]], F2 as [m2 [E2 M2]].
  assert (EM : m1 = m2).
  { assert (GM : growing (map (fun m => (fst (fst m), m)) (extractor scans))) by (unfold growing; rewrite map_map; exact G3).
    apply (in_map (fun m => (fst (fst m), m))) in M1, M2.
    assert (EE : (fst (fst m1), m1) = (fst (fst m2), m2)).
    { apply (growing_inj _ _ _ GM M1 M2). cbn [fst]. injection E1 as -> _. injection E2 as -> _. reflexivity. }
    now injection EE. }
  subst m2. destruct m1 as [[t x] y]. cbn [fst snd] in E1, E2. injection E1 as -> ->. injection E2 as ->.
  apply extractor_in in M1. destruct M1 as [s' [out [H1 [H2 [H3 [H4 H5]]]]]]. subst a b.
  exists s', out, s, p. repeat split; auto. rewrite <- (calls_priors A Pose h []). clear - J4. induction (calls A Pose [] h) as [|[u r|u r] l IH]; [destruct J4|..]; cbn.
  - destruct J4 as [J|J]; [injection J as -> ->; now left|right; auto].
  - destruct J4 as [J|J]; [discriminate|auto].
Qed.
End Chain.

(** With the arithmetic of the processor: if no message is lost, neither topic gets ahead of the
    other by more than ten messages, the extraction gets through every scan and a prior not newer
    than the scans comes first, then the process keeps running and publishes exactly one pose
    for each scan. *)
Section Complete.
Variable A : arith.
Variable acosf : b64 -> b64.
Variable srt : sorter.
Variable ord : list (Z * list Z) -> list (Z * list Z).
Variable prm : params A.
Variable Pose : Type.
Variable localize : cloud A * cloud A -> Pose -> outcome Pose.
Notation L := (ieee acosf).

Lemma extractor_all scans : (forall s, In s scans -> exists out, extract A srt ord prm s = Ok out /\ o_shutdown A out = false) ->
  map (fun m => fst (fst m)) (extractor A srt ord prm scans) = map (fun s => s_stamp s) scans.
Proof.
  induction scans as [|s scans IH]; intros H; cbn [extractor map]; auto. destruct (H s (or_introl eq_refl)) as [out [-> ->]]. cbn [map fst]. rewrite IH; auto.
  intros s' Hs. apply H. now right.
Qed.
Lemma prefix_features (h : list (input A Pose)) p r : features h = p ++ r -> exists h1 h2, h = h1 ++ h2 /\ features h1 = p.
Proof.
  revert p. induction h as [|[e|t x] h IH]; intros p E; cbn [features flat_map app] in E.
  - destruct p; [|discriminate]. exists [], []. auto.
  - destruct p as [|e' p]; [exists [], (Feature e :: h); auto|]. cbn [app] in E. injection E as -> E. destruct (IH p E) as [h1 [h2 [-> H]]].
    exists (Feature e' :: h1), h2. split; auto. cbn [features flat_map app]. now rewrite <- H.
  - destruct (IH p E) as [h1 [h2 [-> H]]]. exists (Prior t x :: h1), h2. auto.
Qed.
Lemma answered_true {P S} (h : list (event P S)) : answered true h = map fst (scans_of h).
Proof. induction h as [|[t p|t x] h IH]; cbn; auto. now rewrite IH. Qed.
Lemma in_calls h w t x : In (EvScan t x) (calls A Pose w h) -> In (t, x) (scans_of (calls A Pose w h)).
Proof. intros K. apply in_flat_map. exists (EvScan t x). split; auto. now left. Qed.

Theorem C139_every_scan scans t0 p0 (h : list (input A Pose)) :
  StronglySorted Z.lt (map (fun s => s_stamp s) scans) ->
  (forall s, In s scans -> exists out, extract A srt ord prm s = Ok out /\ o_shutdown A out = false) ->
  delivers_all 10 (extractor A srt ord prm scans) (Prior t0 p0 :: h) ->
  (forall x p, exists p', localize x p = Ok p') ->
  (forall s, In s scans -> t0 <= s_stamp s < 2 ^ 63) -> - 2 ^ 63 <= t0 < 2 ^ 63 ->
  (forall t p, In (t, p) (received h) -> - 2 ^ 63 <= t < 2 ^ 63) ->
  exists st, localizer_run A L Pose localize (Prior t0 p0 :: h) = Ok st /\
    map pub_stamp (outs (snd st)) = map (fun s => s_stamp s) scans.
Proof.
  intros G HE [D1 [D2 D3]] HL HS H0 HP. set (hh := Prior t0 p0 :: h) in *.
  pose proof (extractor_all scans HE) as EX.
  assert (E1 : map fst (firsts (features hh)) = map (fun s => s_stamp s) scans) by (rewrite D1, <- EX; unfold edges; now rewrite map_map).
  assert (E2 : map fst (seconds (features hh)) = map (fun s => s_stamp s) scans) by (rewrite D2, <- EX; unfold surfaces; now rewrite map_map).
  assert (C : map (fun c => fst (fst c)) (callbacks localizer_queue (features hh)) = map (fun s => s_stamp s) scans).
  { rewrite C138_every_scan; [| |now rewrite E1, E2|].
    - rewrite map_map. cbn [fst]. rewrite <- E1. assert (EL : length (firsts (features hh)) = length (seconds (features hh))) by (rewrite D1, D2; unfold edges, surfaces; now rewrite !map_length).
      clear - EL. revert EL. generalize (firsts (features hh)) (seconds (features hh)). intros x. induction x as [|a x IH]; intros [|b y] EL; try discriminate; auto.
      cbn [combine map fst]. f_equal. apply IH. now injection EL.
    - unfold growing. now rewrite E1.
    - intros p r E. destruct (prefix_features hh p r E) as [h1 [h2 [Eh <-]]]. exact (D3 h1 h2 Eh). }
  assert (CS : map fst (scans_of (calls A Pose [] hh)) = map (fun s => s_stamp s) scans).
  { rewrite calls_scans, map_map. cbn [fst]. exact C. }
  assert (SI : forall t x, In (EvScan t x) (calls A Pose [] hh) -> t0 <= t < 2 ^ 63).
  { intros t x K. apply in_calls in K. apply (in_map fst) in K. rewrite CS in K. apply in_map_iff in K. destruct K as [s [E K]]. cbn [fst] in E. subst t. auto. }
  assert (I64 : int64_stamps (calls A Pose [] hh)).
  { intros [t p|t x] K.
    - apply prior_in in K. rewrite calls_priors in K. cbn [hh received flat_map app] in K. destruct K as [K|K]; [injection K as <- <-; auto|]. apply (HP t p K).
    - specialize (SI t x K). lia. }
  assert (EC : calls A Pose [] hh = EvPrior t0 p0 :: calls A Pose [] h) by reflexivity.
  destruct (C37_defined_partial acosf Pose _ localize (calls A Pose [] hh) I64 HL) as [n En].
  { intros h1 t x h2 Eh Hne. exists t0, p0.
    assert (K : In (EvScan t x) (calls A Pose [] hh)) by (rewrite Eh; apply in_or_app; right; now left).
    split; [|apply (SI t x K)]. rewrite EC in Eh. destruct h1 as [|e h1]; [destruct Hne; reflexivity|]. cbn [app] in Eh. injection Eh as <- _. now left. }
  exists (fst (sync_run localizer_queue [] (features hh)), n). split.
  - unfold localizer_run. rewrite run_calls. unfold node_run in En. rewrite En. reflexivity.
  - cbn [snd]. destruct (C37_publication_partial acosf Pose _ localize _ n I64 En) as [O1 _]. rewrite O1, EC. cbn [answered]. rewrite answered_true, <- CS, EC. reflexivity.
Qed.
End Complete.
Print Assumptions C139_in_order.
Print Assumptions C139_own_features.
Print Assumptions C139_every_scan.

(** Three scans; the surface cloud of the second one is lost, and all surface clouds are late. The
    pose here is a number to which the localization adds ten for each edge and one for each
    surface point: the features of scan 100 and 300 are four edge and four surface points, those
    of scan 200 none. *)
Definition ex_scan (t : Z) (c : list (point XA)) : lidar_scan XA := {| s_stamp := t; s_dense := true; s_fields := ["x"; "ring"]%string; s_points := c |}.
Definition ex_scans : list (lidar_scan XA) := [ex_scan 100 ex_cloud; ex_scan 200 []; ex_scan 300 ex_cloud].
Definition ex_count (x : cloud XA * cloud XA) (p : Z) : outcome Z := Ok (p + 10 * Z.of_nat (length (fst x)) + Z.of_nat (length (snd x))).
Definition ex_messages := extractor XA isort (fun l => l) ex_params ex_scans.
Definition nth_edge (m : list (Z * cloud XA * cloud XA)) (k : nat) : input XA Z :=
  match nth_error m k with Some (t, e, _) => Feature (First t e) | None => Prior 0 0 end.
Definition nth_surface (m : list (Z * cloud XA * cloud XA)) (k : nat) : input XA Z :=
  match nth_error m k with Some (t, _, s) => Feature (Second t s) | None => Prior 0 0 end.
Definition ex_arrivals : list (input XA Z) :=
  let m := ex_messages in [Prior 50 1000; nth_edge m 0; nth_edge m 1; nth_surface m 0; Prior 250 2000; nth_edge m 2; nth_surface m 2].
Definition poses {L} (r : outcome (localizer XA L Z)) : list (Z * Z) :=
  match r with Ok st => map (fun o => (pub_stamp o, pub_pose o)) (outs (snd st)) | _ => [] end.
Example C139_case :
  StronglySorted Z.lt (map (fun s => s_stamp s) ex_scans) /\ delivers ex_messages ex_arrivals /\
  (exists st, localizer_run XA XA Z ex_count ex_arrivals = Ok st) /\
  poses (localizer_run XA XA Z ex_count ex_arrivals) = [(100, 1044); (300, 2044)].
Proof.
  assert (M : exists a b c, ex_messages = [a; b; c]).
  { assert (H : length ex_messages = 3%nat) by (vm_compute; reflexivity). destruct ex_messages as [|a [|b [|c [|d l]]]]; try discriminate. eauto. }
  split; [repeat constructor; cbn; lia|]. split; [|split].
  - destruct M as [[[t1 a1] b1] [[[t2 a2] b2] [[[t3 a3] b3] M]]]. unfold delivers, ex_arrivals. rewrite M. cbn. split; repeat constructor.
  - assert (H : match localizer_run XA XA Z ex_count ex_arrivals with Ok _ => True | _ => False end) by (vm_compute; exact I).
    destruct (localizer_run XA XA Z ex_count ex_arrivals); try contradiction. eauto.
  - vm_compute. reflexivity.
Qed.
(** Nothing lost: all three. *)
Definition ex_all_arrivals : list (input XA Z) :=
  let m := ex_messages in [Prior 50 1000; nth_edge m 0; nth_edge m 1; nth_surface m 0; Prior 250 2000; nth_surface m 1; nth_surface m 2; nth_edge m 2].
Example C139_every_scan_case :
  delivers_all 10 ex_messages ex_all_arrivals /\
  (forall s, In s ex_scans -> exists out, extract XA isort (fun l => l) ex_params s = Ok out /\ o_shutdown XA out = false) /\
  poses (localizer_run XA XA Z ex_count ex_all_arrivals) = [(100, 1044); (200, 2000); (300, 2044)].
Proof.
  assert (M : exists a b c, ex_messages = [a; b; c]).
  { assert (H : length ex_messages = 3%nat) by (vm_compute; reflexivity). destruct ex_messages as [|a [|b [|c [|d l]]]]; try discriminate. eauto. }
  split; [|split].
  - destruct M as [[[t1 a1] b1] [[[t2 a2] b2] [[[t3 a3] b3] M]]]. unfold delivers_all, ex_all_arrivals. rewrite M. cbn. split; auto. split; auto.
    intros h1 h2 E.
    do 9 (destruct h1 as [|? h1]; [cbn; lia|cbn [app] in E; injection E as <- E || discriminate E]). 
  - intros s [<-|[<-|[<-|[]]]].
    all: match goal with |- exists out, ?e = _ /\ _ => assert (H : match e with Ok out => o_shutdown XA out = false | _ => False end) by (vm_compute; reflexivity); destruct e; try contradiction; eauto end.
  - vm_compute. reflexivity.
Qed.
(** The stamps have to grow: of two scans with one stamp, the pose is computed from the edge points
    of one and the surface points of the other (four surface points, no edge points). *)
Example C139_equal_stamps :
  let m := extractor XA isort (fun l => l) ex_params [ex_scan 100 ex_cloud; ex_scan 100 []] in
  poses (localizer_run XA XA Z ex_count [Prior 50 1000; nth_edge m 0; nth_edge m 1; nth_surface m 0; nth_surface m 1]) = [(100, 1004)].
Proof. vm_compute. reflexivity. Qed.
