(** Properties C136 and C137: the nodes as they are launched, and the files they hand to
    each other. *)
From Coq Require Import List String Ascii Bool ZArith Reals Lia.
From Verif Require Import Base MapModel LaunchModel SpecLaunch.
From Verif Require PoseModel SpecPose SpecMap Prop_Map.
Import ListNotations.
Open Scope string_scope.

Lemma abs_inv t : absolute t = true -> exists t', t = String "/" t'.
Proof. destruct t as [|c t]; [discriminate|]. cbn. intros H. apply Ascii.eqb_eq in H. subst c. now exists t. Qed.

Ltac cases := repeat match goal with
  | H : In ?x _ |- _ => progress cbn [In runs subscriptions publications converter_program extraction_program localization_program
    map_loader_program ekf_program mapping_program path_program localization_launch mapping_launch odometry_launch converter_node] in H
  | H : _ \/ _ |- _ => destruct H as [H|H]
  | H : False |- _ => destruct H
  | H : _ = ?y |- _ => is_var y; subst y end.
Ltac pick := first [left; reflexivity | right; pick].
(** Tries each node and each endpoint. *)
Ltac each l tac := lazymatch l with ?x :: ?r => first [tac x | each r tac] end.
Ltac nodes_of tac := match goal with |- context [localization_launch ?g ?a] => let l := eval cbv [localization_launch converter_node a_points a_twist a_initial_pose a_lidar_pose a_edge_map a_surface_map a_odom] in (localization_launch g a) in each l tac
  | |- context [mapping_launch ?g ?a ?b] => let l := eval cbv [mapping_launch converter_node] in (mapping_launch g a b) in each l tac end.
Ltac finds := nodes_of ltac:(fun n => exists n; let e := eval cbn in (subscriptions (runs n)) in
  each e ltac:(fun i => exists i; repeat split; [pick|pick])).
Ltac delivered := nodes_of ltac:(fun n => exists n; let e := eval cbn in (publications (runs n)) in
  each e ltac:(fun o => exists o; repeat split; first [pick|reflexivity|discriminate|intros; assumption])).
Ltac member E := first [exact E | exact (eq_sym E) | left; first [exact E | exact (eq_sym E)] | right; member E].
Ltac refutes := let E := fresh in intros E; first [discriminate E | match goal with N : ~ _ |- _ => solve [apply N; member E] end].

Theorem C136_localization (a : localization_args) : sound_localization_args a ->
  let s := localization_launch "/" a in
  only_outside s "point_type_converter" "/points_raw" (a_points a) /\
  only_from s "lidar_feature_extraction" "points_raw" "point_type_converter" "/points_converted" /\
  only_from s "lidar_feature_localization" "scan_edge" "lidar_feature_extraction" "scan_edge" /\
  only_from s "lidar_feature_localization" "scan_surface" "lidar_feature_extraction" "scan_surface" /\
  only_from s "lidar_feature_localization" "optimization_start_odom" "ekf_localizer" "ekf_odom" /\
  only_from s "ekf_localizer" "in_pose_with_covariance" "lidar_feature_localization" "estimated_pose" /\
  only_outside s "ekf_localizer" "in_twist_with_covariance" (a_twist a) /\
  only_outside s "ekf_localizer" "initialpose" (a_initial_pose a).
Proof.
  intros [HA HN]. destruct a as [a1 a2 a3 a4 a5 a6 a7]. cbn [a_points a_twist a_initial_pose a_lidar_pose a_edge_map a_surface_map a_odom] in *.
  destruct (abs_inv a1) as [b1 ->]; [apply HA; cbn; tauto|].
  destruct (abs_inv a2) as [b2 ->]; [apply HA; cbn; tauto|].
  destruct (abs_inv a3) as [b3 ->]; [apply HA; cbn; tauto|].
  destruct (abs_inv a4) as [b4 ->]; [apply HA; cbn; tauto|].
  destruct (abs_inv a5) as [b5 ->]; [apply HA; cbn; tauto|].
  destruct (abs_inv a6) as [b6 ->]; [apply HA; cbn; tauto|].
  destruct (abs_inv a7) as [b7 ->]; [apply HA; cbn; tauto|].
  clear HA. repeat match goal with H : NoDup (_ :: _) |- _ => apply NoDup_cons_iff in H; let N := fresh "N" in destruct H as [N H]; cbn [In] in N end.
  cbv zeta. unfold only_from, only_outside, input_of.
  repeat apply conj.
  all: match goal with
  | |- exists b i, _ => finds
  | |- forall b i, _ => intros b i [H1 [H2 [H3 H4]]]; cases; try discriminate H2; cases; try discriminate H4; split
  end.
  all: match goal with
  | |- exists a o, _ => delivered
  | |- forall a o, _ => intros a o K1 K2 K3; cases; cases; cbn in K3 |- *; first [split; reflexivity|exfalso; revert K3; refutes]
  | |- _ => reflexivity
  end.
Qed.
Print Assumptions C136_localization.

Theorem C136_mapping points pose : sound_mapping_args points pose ->
  let s := mapping_launch "/" points pose in
  only_outside s "point_type_converter" "/points_raw" points /\
  only_from s "lidar_feature_extraction" "points_raw" "point_type_converter" "/points_converted" /\
  only_from s "edge_map_builder" "scan_edge" "lidar_feature_extraction" "scan_edge" /\
  only_outside s "edge_map_builder" "pose" pose.
Proof.
  intros [H1 [H2 HN]]. destruct (abs_inv _ H1) as [b1 ->], (abs_inv _ H2) as [b2 ->]. clear H1 H2.
  repeat match goal with H : NoDup (_ :: _) |- _ => apply NoDup_cons_iff in H; let N := fresh "N" in destruct H as [N H]; cbn [In] in N end.
  cbv zeta. unfold only_from, only_outside, input_of.
  repeat apply conj.
  all: match goal with
  | |- exists b i, _ => finds
  | |- forall b i, _ => intros b i [H1 [H2 [H3 H4]]]; cases; try discriminate H2; cases; try discriminate H4; split
  end.
  all: match goal with
  | |- exists a o, _ => delivered
  | |- forall a o, _ => intros a o K1 K2 K3; cases; cases; cbn in K3 |- *; first [split; reflexivity|exfalso; revert K3; refutes]
  | |- _ => reflexivity
  end.
Qed.
Print Assumptions C136_mapping.

(** ** Below a namespace *)
Lemma eqb_app g x y : String.eqb (g ++ x) (g ++ y) = String.eqb x y.
Proof. induction g as [|c g IH]; cbn; auto. rewrite Ascii.eqb_refl. exact IH. Qed.
Lemma length_app g x : String.length (g ++ x) = (String.length g + String.length x)%nat.
Proof. induction g as [|c g IH]; cbn; auto. Qed.
Lemma proper_inv g : proper_namespace g -> exists c g', g = String "/" (String c g').
Proof.
  intros [H1 H2]. destruct (abs_inv _ H1) as [t ->]. destruct t as [|c t]; [now destruct H2|]. eauto.
Qed.

(** What [expand] puts before a relative name (localization.launch.py:81-84). *)
Definition prefix g := if String.eqb g "/" then "/" else g ++ "/".
Lemma app_assoc3 a b c : (a ++ b) ++ c = a ++ (b ++ c).
Proof. induction a as [|x a IH]; cbn; auto. now rewrite IH. Qed.
Lemma expand_rel g m : absolute m = false -> expand g m = prefix g ++ m.
Proof. intros H. unfold expand, prefix. rewrite H. destruct (String.eqb g "/"); auto. now rewrite app_assoc3. Qed.
Lemma expand_abs g m : absolute m = true -> expand g m = m.
Proof. unfold expand. now intros ->. Qed.
(** Rules with relative left sides look a relative name up. *)
Lemma remap_rel g l n : forallb (fun r => negb (absolute (fst r))) l = true -> absolute n = false ->
  remap g l (expand g n) = match find (fun r => String.eqb (fst r) n) l with Some r => expand g (snd r) | None => expand g n end.
Proof.
  intros HL HN. induction l as [|[f t] l IH]; cbn [remap find fst snd forallb] in *; auto.
  apply andb_prop in HL. destruct HL as [H1 H2]. apply negb_true_iff in H1.
  rewrite (expand_rel g f H1), (expand_rel g n HN), eqb_app. destruct (String.eqb f n); auto. rewrite <- (expand_rel g n HN). apply IH. exact H2.
Qed.
(** In any namespace, what is remapped on both sides is connected. *)
Theorem C136_group_partial group (a : localization_args) : absolute (a_odom a) = true -> absolute (a_lidar_pose a) = true ->
  let s := localization_launch group a in
  fed s "lidar_feature_localization" "scan_edge" "lidar_feature_extraction" /\
  fed s "lidar_feature_localization" "optimization_start_odom" "ekf_localizer" /\
  fed s "ekf_localizer" "in_pose_with_covariance" "lidar_feature_localization".
Proof.
  intros HO HL. cbv zeta. unfold fed, input_of.
  split; [|split].
  - exists (Node "lidar_feature_localization" group
     [("scan_edge", "/scan_edge"); ("optimization_start_odom", a_odom a); ("estimated_pose", a_lidar_pose a)] localization_program),
     (Endpoint "scan_edge" PointCloud2 reliable_volatile),
     (Node "lidar_feature_extraction" group
     [("points_raw", "/points_converted"); ("colored_scan", "/colored_scan"); ("curvature_scan", "/curvature_scan");
      ("scan_edge", "/scan_edge"); ("scan_surface", "/scan_surface")] extraction_program), (Endpoint "scan_edge" PointCloud2 reliable_volatile).
    repeat split; try pick; try (intros; assumption).
    unfold topic; cbn [namespace rules ep_name]; rewrite !remap_rel by reflexivity; reflexivity.
  - exists (Node "lidar_feature_localization" group
     [("scan_edge", "/scan_edge"); ("optimization_start_odom", a_odom a); ("estimated_pose", a_lidar_pose a)] localization_program),
     (Endpoint "optimization_start_odom" Odometry reliable_volatile),
     (Node "ekf_localizer" group
     [("initialpose", a_initial_pose a); ("ekf_odom", a_odom a); ("in_pose_with_covariance", a_lidar_pose a);
      ("in_twist_with_covariance", a_twist a)] ekf_program), (Endpoint "ekf_odom" Odometry reliable_volatile).
    repeat split; try pick; try (intros; assumption).
    unfold topic; cbn [namespace rules ep_name]; rewrite !remap_rel by reflexivity; reflexivity.
  - exists (Node "ekf_localizer" group
     [("initialpose", a_initial_pose a); ("ekf_odom", a_odom a); ("in_pose_with_covariance", a_lidar_pose a);
      ("in_twist_with_covariance", a_twist a)] ekf_program), (Endpoint "in_pose_with_covariance" PoseWithCovarianceStamped reliable_volatile),
     (Node "lidar_feature_localization" group
     [("scan_edge", "/scan_edge"); ("optimization_start_odom", a_odom a); ("estimated_pose", a_lidar_pose a)] localization_program),
     (Endpoint "estimated_pose" PoseWithCovarianceStamped reliable_volatile).
    repeat split; try pick; try (intros; assumption).
    unfold topic; cbn [namespace rules ep_name]; rewrite !remap_rel by reflexivity; reflexivity.
Qed.
Print Assumptions C136_group_partial.

(** Below every proper namespace, nothing the extraction publishes arrives at the localizer
    as surface scan, and the points of the sensor are read from /points_raw whatever the
    argument says. *)
Theorem C136_namespace_refuted group (a : localization_args) : proper_namespace group ->
  let s := localization_launch group a in
  ~ fed s "lidar_feature_localization" "scan_surface" "lidar_feature_extraction" /\
  (forall b i, input_of s "point_type_converter" "/points_raw" b i -> topic b i = "/points_raw").
Proof.
  intros HG. cbv zeta. split.
  - intros [b [i [n [o [[H1 [H2 [H3 H4]]] [K1 [K2 [D1 [D2 [D3 _]]]]]]]]]].
    cases; try discriminate H2; cases; try discriminate K2; cases; try discriminate H4; cases.
    all: revert D3; unfold topic; cbn [namespace rules ep_name]; rewrite !remap_rel by reflexivity; cbn [find fst snd String.eqb Ascii.eqb Bool.eqb].
    all: rewrite expand_abs by reflexivity; unfold expand; cbn [absolute Ascii.eqb Bool.eqb].
    all: destruct (String.eqb_spec group "/") as [->|_]; [now destruct HG as [_ []]|].
    all: destruct (proper_inv _ HG) as [c [g ->]].
    all: intros E; apply (f_equal String.length) in E; rewrite length_app in E; cbn in E; lia.
  - intros b i [H1 [H2 [H3 H4]]]. cases; try discriminate H2; cases; try discriminate H4.
    destruct (proper_inv _ HG) as [c [g ->]]. unfold topic, converter_node. cbn [namespace rules ep_name].
    change (expand (String "/" (String c g)) "/points_raw") with "/points_raw". cbn [remap].
    rewrite (expand_rel _ "points_raw"), (expand_rel _ "points_converted") by reflexivity. unfold prefix. cbn [String.eqb Ascii.eqb Bool.eqb].
    repeat match goal with |- context [String.eqb ?x "/points_raw"] =>
      destruct (String.eqb_spec x "/points_raw") as [E|_]; [exfalso; apply (f_equal String.length) in E; rewrite !length_app in E; cbn in E; lia|] end.
    reflexivity.
Qed.
Print Assumptions C136_namespace_refuted.

(** ** The launch file of the odometry *)
(** Unless told otherwise, the feature extraction reads the points of the sensor directly. *)
Theorem C136_odometry_refuted group points out_pose out_path : absolute points = true -> points <> "/points_converted" ->
  let s := odometry_launch group points out_pose out_path in
  ~ fed s "lidar_feature_extraction" "points_raw" "point_type_converter" /\
  (forall n o, topic n o = points -> reliable (ep_qos o) = false -> forall b i, input_of s "lidar_feature_extraction" "points_raw" b i -> ~ delivers n o b i).
Proof.
  intros HA HP. cbv zeta. split.
  - intros [b [i [n [o [[H1 [H2 [H3 H4]]] [K1 [K2 [D1 [D2 [D3 _]]]]]]]]]].
    cases; try discriminate H2; cases; try discriminate K2; cases; try discriminate H4; cases.
    revert D3; unfold topic; cbn [namespace rules ep_name]. rewrite (remap_rel group _ "points_raw") by reflexivity. cbn [remap find fst snd String.eqb Ascii.eqb Bool.eqb].
    rewrite expand_abs by reflexivity. rewrite expand_abs by exact HA. intros E. now apply HP.
  - intros n o E R b i [H1 [H2 [H3 H4]]] D. destruct D as [_ [_ [_ [_ [C _]]]]].
    cases; try discriminate H2; cases; try discriminate H4. cbn in C. rewrite R in C. discriminate (C eq_refl).
Qed.
Print Assumptions C136_odometry_refuted.

(** The defaults of the launch files. *)
Example C136_case :
  sound_localization_args localization_defaults /\ sound_mapping_args "/points_raw" "/pose" /\ proper_namespace "/vehicle1" /\
  topic (converter_node "/" "/velodyne_points") (Endpoint "/points_raw" PointCloud2 best_effort) = "/velodyne_points" /\
  topic (converter_node "/vehicle1" "/velodyne_points") (Endpoint "/points_raw" PointCloud2 best_effort) = "/points_raw" /\
  map (fun n => map (topic n) (subscriptions (runs n))) (localization_launch "/vehicle1" localization_defaults) =
    [["/points_raw"]; ["/points_converted"]; ["/scan_edge"; "/vehicle1/scan_surface"; "/ekf_odom"; "/vehicle1/optimization_start_pose"];
     []; []; ["/initialpose3d"; "/lidar_feature_pose"; "/twist"]] /\
  map (fun n => map (topic n) (publications (runs n))) (localization_launch "/vehicle1" localization_defaults) =
    [["/points_converted"]; ["/colored_scan"; "/scan_edge"; "/scan_surface"]; ["/lidar_feature_pose"]; ["/edge_map"]; ["/surface_map"]; ["/ekf_odom"]].
Proof.
  repeat apply conj; try reflexivity; try discriminate.
  - intros t H. cbn in H. cases; reflexivity.
  - repeat constructor; cbn; intros H; cases; discriminate.
  - repeat constructor; cbn; intros H; cases; discriminate.
Qed.

(** ** C137 *)
Section Maps.
Variable Point : Type.
Variable move : bool -> PoseModel.pose -> Point -> Point.
Notation run := (builder_run PoseModel.pose Point move pose_diff_small).
Notation messages := (list (PoseModel.pose * cloud Point)).
Notation after indeterminate l f := (mapping_exit _ (save_map _ _ (run indeterminate l)) f).
(** Without a surface map from elsewhere the localizer gives up, whatever has been mapped. *)
Theorem C137_localizable_refuted indeterminate (l : messages) (f : files (cloud Point)) : f "maps/surface.pcd" = None ->
  localization_start _ (after indeterminate l f) = inl (-1)%Z.
Proof.
  intros H. unfold localization_start. assert (E : after indeterminate l f "maps/surface.pcd" = None).
  { unfold mapping_exit. destruct (save_map _ _ _); auto. }
  rewrite E. destruct (after indeterminate l f "maps/edge.pcd"); reflexivity.
Qed.
(** With one, it starts as soon as one message with points has been mapped, with the map that
    was built, whatever edge map was there before; it keeps every other file. *)
Theorem C137_localizable_partial indeterminate (l : messages) (f : files (cloud Point)) surface : f "maps/surface.pcd" = Some surface ->
  (forall m, In m l -> SpecPose.is_rotation (PoseModel.lin (fst m))) -> (exists m, In m l /\ points (snd m) <> []) ->
  exists (edge : cloud Point) (k : messages), localization_start _ (after indeterminate l f) = inr (edge, surface) /\
    SpecMap.key_frames SpecMap.far_apart None (Prop_Map.arrived Point l) (Prop_Map.arrived Point k) /\
    points edge = concat (map (fun m => map (move (dense (snd m)) (fst m)) (points (snd m))) k) /\
    (forall p, p <> "maps/edge.pcd" -> after indeterminate l f p = f p).
Proof.
  intros HS HR [m [Hm Pm]]. destruct (Prop_Map.C54_key_frames Point move indeterminate l HR) as [k [K1 [K2 _]]].
  destruct (Prop_Map.C55_saved_iff Point move indeterminate l) as [S1 S2].
  destruct (save_map _ _ (run indeterminate l)) as [c|] eqn:E; [|exfalso; apply Pm; apply (proj1 S1 eq_refl m Hm)].
  specialize (S2 c eq_refl). exists c, k. unfold mapping_exit, localization_start, write. cbn [String.eqb Ascii.eqb Bool.eqb]. rewrite HS.
  repeat split; auto.
  - rewrite S2. exact K2.
  - intros p Hp. destruct (String.eqb_spec p "maps/edge.pcd"); [contradiction|reflexivity].
Qed.
(** If nothing with points has been mapped, the files stay as they are. *)
Theorem C137_nothing_mapped indeterminate (l : messages) (f : files (cloud Point)) : (forall m, In m l -> points (snd m) = []) ->
  forall p, after indeterminate l f p = f p.
Proof.
  intros H p. rewrite (proj2 (proj1 (Prop_Map.C55_saved_iff Point move indeterminate l)) H). reflexivity.
Qed.
End Maps.
Print Assumptions C137_localizable_refuted.
Print Assumptions C137_localizable_partial.
Print Assumptions C137_nothing_mapped.

(** One scan mapped where the mapping starts: with an old edge map and a surface map at hand,
    and without. *)
Example C137_case :
  let l := [(PoseModel.Iso SpecPose.id3 (PoseModel.V3 0%R 0%R 0%R), Cloud true [7%nat])] in
  let saved := save_map _ _ (builder_run PoseModel.pose nat (fun _ _ p => p) pose_diff_small (PoseModel.Iso SpecPose.id3 (PoseModel.V3 0%R 0%R 0%R)) l) in
  (forall m, In m l -> SpecPose.is_rotation (PoseModel.lin (fst m))) /\ (exists m, In m l /\ points (snd m) <> []) /\
  localization_start _ (mapping_exit _ saved (fun p => if String.eqb p "maps/surface.pcd" then Some (Cloud true [3%nat]) else Some (Cloud true [5%nat]))) =
    inr (Cloud true [7%nat], Cloud true [3%nat]) /\
  localization_start _ (mapping_exit _ saved (fun _ => None)) = inl (-1)%Z.
Proof.
  cbv zeta. repeat apply conj; try reflexivity.
  - intros m [<-|[]]. exact Prop_Map.id3_rotation.
  - eexists. split; [left; reflexivity|discriminate].
Qed.
