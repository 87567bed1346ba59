(** Property C142: from the scans of the lidar to the map file. *)
From Coq Require Import String List ZArith Bool Reals Sorted Lia Lra.
From Verif Require Import Base Arith Spec ExtractModel NodeModel SyncModel SpecSync SyncProofs ChainModel SpecChain ChainProofs Prop_Pipeline Prop_Chain
  PoseModel SpecPose MapModel SpecMap MapProofs MsgModel MapChainModel SpecMapChain Prop_Sync Prop_MapChain FullMapModel.
Import ListNotations.
Notation length := List.length.
Open Scope Z_scope.

Lemma choose_all {X Y} (P : X -> Y -> Prop) l : (forall x, In x l -> exists y, P x y) -> exists ys, Forall2 P l ys.
Proof.
  induction l as [|x l IH]; intros H; [exists []; constructor|]. destruct (H x (or_introl eq_refl)) as [y Hy].
  destruct IH as [ys Hys]; [intros z Hz; apply H; now right|]. exists (y :: ys). now constructor.
Qed.

Section FullMap.
Variable A : arith.
Variable srt : sorter.
Variable ord : list (Z * list Z) -> list (Z * list Z).
Variable prm : params A.
Variable val : F A -> R.
Variable indeterminate : pose.
Notation extractor := (extractor A srt ord prm).
Notation extract := (extract A srt ord prm).
Notation the_map l := (points (map_ (snd (mapper_run indeterminate l)))).
Implicit Types (scans : list (lidar_scan A)) (l : list (arrival (MapModel.cloud vec) pose_msg)).
Notation growing_scans scans := (StronglySorted Z.lt (map (fun s => s_stamp s) scans)).
(** The poses have unit orientations. *)
Notation unit_poses l := (forall t m, In (Second t m) l -> SpecPose.unit (orientation m)).

Lemma edge_message scans t c : In (t, c) (edge_topic A val (extractor scans)) ->
  exists s out, In s scans /\ s_stamp s = t /\ extract s = Ok out /\ c = as_cloud A val (o_edge A out).
Proof.
  intros H. apply in_map_iff in H. destruct H as [[[u e] f] [E H]]. cbn [fst snd] in E. injection E as -> <-.
  apply extractor_in in H. destruct H as (s & out & H1 & H2 & H3 & -> & _). eauto 7.
Qed.
Lemma arrived_first l t c : In (First t c) l <-> In (t, c) (firsts l).
Proof.
  unfold firsts. rewrite in_flat_map. split.
  - intros H. exists (First t c). split; auto. now left.
  - intros [[u a|u b] [H K]]; [|destruct K]. destruct K as [K|[]]. now injection K as -> ->.
Qed.
Lemma get_in (X : Type) (v : list X) k p : Spec.get v k = Some p -> In p v.
Proof. unfold Spec.get. destruct (k <? 0); [discriminate|]. apply nth_error_In. Qed.

(** The point is entry i of a ring of the scan, sorted by angle, and the curvature of the ranges
    of the ring there reaches the threshold for edges (C13). *)
Definition bent (s : lidar_scan A) (pt : point A) : Prop :=
  exists rings k ix i j ranges curv v,
    extract_rings A srt (s_points s) = Ok rings /\ In (k, ix) rings /\ Spec.get ix i = Some j /\ Spec.get (s_points s) j = Some pt /\
    range_interval A {| m_cloud := s_points s; m_indices := ix |} 0 (zlen ix) = Ok ranges /\
    calc_curvature A ranges (p_padding A prm) = Ok curv /\ Spec.get curv i = Some v /\ d_leb A (p_edge A prm) v = true.
(** Whatever is lost on the way, in whatever order the messages arrive, and whatever the
    stamps are: every point of the map was measured by the lidar, at a distance within the
    limits, where its ring bends, and lies where a pose with the stamp of its scan puts it. *)
Theorem C142_measured scans l p : valid_sort srt -> valid_order ord -> valid_params A prm ->
  (forall s, In s scans -> zlen (s_points s) + p_padding A prm + 2 < 2 ^ 31) ->
  left_out (firsts l) (edge_topic A val (extractor scans)) -> unit_poses l ->
  In p (the_map l) ->
  exists s pt m, In s scans /\ In pt (s_points s) /\ In (Second (s_stamp s) m) l /\
    p = placed m (V3 (val (px A pt)) (val (py A pt)) (val (pz A pt))) /\ bent s pt /\
    (let r := xy_norm A (f2d A (px A pt)) (f2d A (py A pt)) in d_leb A (p_min A prm) r = true /\ d_leb A r (p_max A prm) = true).
Proof.
  intros VS VO VP HZ D HU Hp. destruct (C140_own_pose indeterminate l p HU Hp) as (t & c & m & x & F1 & F2 & Hx & ->).
  apply arrived_first in F1. apply (left_out_in _ _ _ D) in F1. apply edge_message in F1. destruct F1 as (s & out & Hs & <- & E & ->).
  cbn [as_cloud points] in Hx. apply in_map_iff in Hx. destruct Hx as (q & <- & Hq).
  destruct (C13_features_clean A srt prm (s_points s) ord _ _ out VS VO VP (HZ s Hs) E Edge q (or_introl (conj eq_refl Hq)))
    as (rings & k & ix & i & j & pt & curv & v & ranges & R1 & R2 & R3 & Hpt & -> & Hr & _ & R4 & _ & R5 & R6 & R7).
  exists s, pt, m. split; [exact Hs|]. split; [exact (get_in _ _ _ _ Hpt)|]. split; [exact F2|]. split; [reflexivity|]. split; [|exact Hr]. do 8 eexists; repeat split; eauto.
Qed.

(** Growing stamps of the scans and of the poses, never more than a thousand messages waiting:
    the map is put together from some of the scans, in their order; of each scan it holds some
    of its points, each once, placed by the pose that was received for this scan. *)
Definition frame_of_scan scans l (f : lidar_scan A * pose_msg * list Z) : Prop :=
  let '(s, m, e) := f in
  In s scans /\ In (Second (s_stamp s) m) l /\ e <> [] /\ NoDup e /\ forall k, In k e -> 0 <= k < zlen (s_points s).
Definition frame_points (f : lidar_scan A * pose_msg * list Z) : list vec :=
  let '(s, m, e) := f in map (fun q => placed m (as_vec A val q)) (Spec.coords A (s_points s) e).

Lemma edge_growing scans l : growing_scans scans -> left_out (firsts l) (edge_topic A val (extractor scans)) -> growing (firsts l).
Proof.
  intros G D. apply (left_out_growing _ _ D). unfold growing, edge_topic. rewrite map_map. cbn [fst].
  destruct (extractor_stamps A srt ord prm scans) as [r E]. rewrite E in G. apply (left_out_sorted _ _ (left_out_app _ _ [] r (left_out_refl _) (left_out_none r))) in G.
  now rewrite app_nil_r in G.
Qed.
Theorem C142_map scans l : valid_sort srt -> valid_order ord ->
  growing_scans scans -> growing (seconds l) -> never_more_than 1000 l ->
  left_out (firsts l) (edge_topic A val (extractor scans)) -> unit_poses l ->
  exists frames, Forall (frame_of_scan scans l) frames /\
    StronglySorted Z.lt (map (fun f => s_stamp (fst (fst f))) frames) /\
    the_map l = concat (map frame_points frames).
Proof.
  intros VS VO G G2 N D HU. pose proof (edge_growing scans l G D) as G1. destruct (C140_map indeterminate l G1 G2 N HU) as [k [K1 K2]].
  pose proof (key_frames_left _ _ _ _ K1) as KL. destruct (key_frames_far _ _ _ _ K1) as [_ NF]. rewrite Forall_forall in NF.
  destruct (choose_all (fun f g => frame_of_scan scans l g /\ fst (fst f) = s_stamp (fst (fst g)) /\ map (placed (snd (fst f))) (snd f) = frame_points g) k) as [frames HF].
  { intros f Hf. specialize (NF f Hf). apply (left_out_in _ _ _ KL) in Hf. apply in_map_iff in Hf. destruct Hf as [[[t c] m] [<- Hf]].
    rewrite <- (C138_pairs _ _ mapping_queue l G1 G2 N) in Hf. apply C138_same_scan in Hf. destruct Hf as [F1 F2].
    apply arrived_first in F1. apply (left_out_in _ _ _ D) in F1. apply edge_message in F1. destruct F1 as (s & out & Hs & <- & E & ->).
    destruct (C14_duplicate_free_subset A srt prm (s_points s) ord _ _ out VO VS E) as (e & e2 & E1 & _ & ND & B).
    exists (s, m, e). cbn [framed fst snd as_cloud points frame_of_scan frame_points] in *. split; [|split; [reflexivity|]].
    - repeat split; auto.
      + intros ->. rewrite E1 in NF. now apply NF.
      + clear - ND. induction e as [|a e IH]; constructor; cbn [app] in ND; inversion ND as [|? ? N1 N2]; subst; auto. intros K. apply N1. apply in_or_app. now left.
      + apply B. apply in_or_app. now left.
      + apply B. apply in_or_app. now left.
    - rewrite map_map, E1. reflexivity. }
  exists frames. split; [|split].
  - clear - HF. induction HF as [|f g fs gs (H & _) HF IH]; constructor; auto.
  - assert (S1 : StronglySorted Z.lt (map (fun f => fst (fst f)) k)).
    { apply (left_out_sorted _ _ (left_out_map (fun f => fst (fst f)) _ _ KL)). pose proof (C138_in_order _ _ mapping_queue l G1 G2) as C.
      rewrite (C138_pairs _ _ mapping_queue l G1 G2 N) in C. unfold growing in C. rewrite map_map in *. exact C. }
    replace (map (fun f => s_stamp (fst (fst f))) frames) with (map (fun f : (Z * pose_msg) * list vec => fst (fst f)) k); [exact S1|].
    clear - HF. induction HF as [|f g fs gs (_ & H & _) HF IH]; cbn [map]; congruence.
  - rewrite K2. f_equal. clear - HF. induction HF as [|f g fs gs (_ & _ & H) HF IH]; cbn [map]; congruence.
Qed.
(** And every scan with edge points whose edge message and pose arrived is represented: an
    earlier scan, or itself, from less than a metre and about 11.5 degrees away, is in the map
    with all its edge points. *)
Theorem C142_covered scans l s out m : growing_scans scans -> growing (seconds l) -> never_more_than 1000 l ->
  left_out (firsts l) (edge_topic A val (extractor scans)) -> unit_poses l ->
  In s scans -> extract s = Ok out -> o_edge A out <> [] ->
  In (First (s_stamp s) (as_cloud A val (o_edge A out))) l -> In (Second (s_stamp s) m) l ->
  exists s' out' m', In s' scans /\ extract s' = Ok out' /\ o_edge A out' <> [] /\ s_stamp s' <= s_stamp s /\
    (s_stamp s' = s_stamp s \/ ~ apart (s_stamp s', m') (s_stamp s, m)) /\
    forall q, In q (o_edge A out') -> In (placed m' (as_vec A val q)) (the_map l).
Proof.
  intros G G2 N D HU Hs E NE F1 F2. pose proof (edge_growing scans l G D) as G1.
  destruct (C140_covered indeterminate l (s_stamp s) _ m G1 G2 N HU F1 F2) as (t' & c' & m' & H1 & H2 & H3 & H4 & H5 & H6).
  { cbn. intros K. apply map_eq_nil in K. auto. }
  apply arrived_first in H1. apply (left_out_in _ _ _ D) in H1. apply edge_message in H1. destruct H1 as (s' & out' & Hs' & <- & E' & ->).
  exists s', out', m'. split; auto. split; auto. split; [intros K; apply H3; cbn; now rewrite K|]. split; auto. split; auto.
  intros q Hq. apply H6. cbn. now apply in_map.
Qed.
End FullMap.
Print Assumptions C142_measured.
Print Assumptions C142_map.
Print Assumptions C142_covered.

(** Three scans, the second empty; its edge message is lost. The lidar has moved two metres
    between the first and the third: the four edge points of each of them make the map. *)
From Flocq Require Import IEEE754.BinarySingleNaN.
From Verif Require Import RefSort.
Definition ex_topic := edge_topic XA (@B2R 24 128) ex_messages.
Definition sent (k : nat) : Z * MapModel.cloud vec := nth k ex_topic (0, Cloud true []).
Definition ex_way : list (arrival (MapModel.cloud vec) pose_msg) :=
  [First (fst (sent 0)) (snd (sent 0)); First (fst (sent 2)) (snd (sent 2)); Second 100 (at_x 0); Second 300 (at_x 2)].
Lemma ex_topic_is : exists c d, ex_topic = [(100, Cloud true c); (200, Cloud true []); (300, Cloud true d)] /\ length c = 4%nat /\ length d = 4%nat.
Proof.
  assert (H : map (fun x => (fst (fst x), length (snd (fst x)))) ex_messages = [(100, 4%nat); (200, 0%nat); (300, 4%nat)]) by (vm_compute; reflexivity).
  unfold ex_topic. destruct ex_messages as [|[[t1 a1] b1] [|[[t2 a2] b2] [|[[t3 a3] b3] [|d l]]]]; try discriminate.
  cbn [map fst snd] in H. injection H as -> L1 -> L2 -> L3. destruct a2; [|discriminate]. eexists _, _. split; [reflexivity|]. now rewrite !map_length.
Qed.
Example C142_case indeterminate :
  valid_sort isort /\ valid_order (fun l => l) /\ valid_params XA ex_params /\
  (forall s, In s ex_scans -> zlen (s_points s) + p_padding XA ex_params + 2 < 2 ^ 31) /\
  StronglySorted Z.lt (map (fun s => s_stamp s) ex_scans) /\ growing (seconds ex_way) /\ never_more_than 1000 ex_way /\
  left_out (firsts ex_way) (edge_topic XA (@B2R 24 128) (extractor XA isort (fun l => l) ex_params ex_scans)) /\
  (forall t m, In (Second t m) ex_way -> SpecPose.unit (orientation m)) /\
  length (points (map_ (snd (mapper_run indeterminate ex_way)))) = 8%nat.
Proof.
  destruct ex_topic_is as (c & d & E & Lc & Ld).
  assert (W : ex_way = [First 100 (Cloud true c); First 300 (Cloud true d); Second 100 (at_x 0); Second 300 (at_x 2)]) by (unfold ex_way, sent; now rewrite E).
  fold ex_messages. fold ex_topic. rewrite E, W. clear E W.
  set (w := [First 100 (Cloud true c); First 300 (Cloud true d); Second 100 (at_x 0); Second 300 (at_x 2)]).
  assert (G1 : growing (firsts w)) by (repeat constructor; cbn; lia).
  assert (G2 : growing (seconds w)) by (repeat constructor; cbn; lia).
  assert (N : never_more_than 1000 w).
  { intros p r E. assert (L : (length p <= 4)%nat) by (apply (f_equal (@List.length _)) in E; rewrite app_length in E; cbn in E; lia).
    unfold waiting. transitivity (length (firsts p) + length (seconds p))%nat.
    - apply Nat.add_le_mono; apply filter_length_le.
    - enough (length (firsts p) + length (seconds p) = length p)%nat by lia. clear. induction p as [|[t a|t b] p IH]; cbn [firsts seconds flat_map app length] in *; auto; unfold firsts, seconds in *; lia. }
  assert (HU : forall t m, In (Second t m) w -> SpecPose.unit (orientation m)).
  { intros t m H. cbn in H. repeat (destruct H as [H|H]; [try discriminate H; injection H as <- <-; unfold SpecPose.unit, qnorm2; cbn; ring|]). destruct H. }
  split; [apply isort_valid|]. split; [apply id_order|]. split; [apply ex_valid_params|].
  split. { intros s [<-|[<-|[<-|[]]]]; vm_compute; reflexivity. }
  split. { repeat constructor; cbn; lia. }
  split; [exact G2|]. split; [exact N|]. split. { cbn. repeat constructor. } split; [exact HU|].
  destruct (C140_map indeterminate w G1 G2 N HU) as [k [K1 K2]]. rewrite K2. clear K2.
  cbn [pairs w firsts seconds flat_map app filter map fst snd framed points Z.eqb Pos.eqb] in K1.
  destruct c as [|c1 c]; [discriminate|]. destruct d as [|d1 d]; [discriminate|].
  inversion K1 as [| |? ? ? ? k1 K3| |]; subst.
  inversion K3 as [| | |? ? ? ? ? k2 F K4|? ? ? ? ? ? F K4]; subst.
  - inversion K4; subst. cbn [map concat app fst snd length] in *. repeat (rewrite ?app_length, ?map_length; cbn [length]). lia.
  - exfalso. apply F. apply at_apart. rewrite Rabs_pos_eq; lra.
Qed.
