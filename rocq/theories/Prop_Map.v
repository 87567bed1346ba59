(** Properties C51, C52, C54, C55, C74, C77 and C78: scans, odometry, map and paths. *)
From Coq Require Import List ZArith Bool Lia Lra Reals String.
From Flocq Require Import IEEE754.BinarySingleNaN.
From Verif Require Import Base Arith PoseModel SpecPose MapModel SpecMap AngleProofs RotProofs WitnessProofs MapProofs.
Import ListNotations.
Open Scope string_scope.
Open Scope list_scope.

Section Scans.
Variable Pose Point : Type.
Variable move : bool -> Pose -> Point -> Point.
(** The state after a history of Add calls. *)
Definition after (adds : list (Pose * cloud Point)) : list (cloud Point) :=
  fold_left (fun s a => scans_add Pose Point move s (fst a) (snd a)) adds [].
(** The points an addition contributes. *)
Definition contribution (a : Pose * cloud Point) : list Point := seen_from move (fst a) (dense (snd a)) (points (snd a)).

(** ** C51 *)
Theorem C51_recent adds n : (0 <= n)%Z ->
  exists old recent c, adds = old ++ recent /\ length recent = Nat.min (Z.to_nat n) (length adds) /\
    get_recent Point (after adds) n = Ok c /\ points c = concat (map contribution recent).
Proof.
  intros Hn. destruct (get_recent_ok Pose Point move adds n Hn) as [old [recent [H1 [H2 [c [H3 H4]]]]]].
  exists old, recent, c. split; auto. split; auto. split; auto. unfold after. rewrite added_acc. exact H3.
Qed.
Theorem C51_all adds : points (get_all Point (after adds)) = concat (map contribution adds).
Proof. unfold get_all, after. rewrite merge_points, added_acc. cbn [app]. rewrite map_map. reflexivity. Qed.
(** ** C55, for the scans accumulated by the localization package *)
Theorem C55_accumulated adds :
  (save_if_not_empty Point (get_all Point (after adds)) = None <-> forall a, In a adds -> points (snd a) = []) /\
  (forall c, save_if_not_empty Point (get_all Point (after adds)) = Some c -> points c = concat (map contribution adds)).
Proof.
  unfold save_if_not_empty. pose proof (C51_all adds) as E. split.
  - transitivity (points (get_all Point (after adds)) = []).
    { destruct (points (get_all Point (after adds))); cbn; split; auto; discriminate. }
    rewrite E. clear E. induction adds as [|a adds IH]; cbn [map concat]; [split; [intros _ b []|auto]|].
    split.
    + intros H. apply app_eq_nil in H. destruct H as [H1 H2]. unfold contribution, seen_from in H1. apply map_eq_nil in H1.
      intros b [<-|Hb]; auto. apply (proj1 IH); auto.
    + intros H. rewrite (proj2 IH) by (intros b Hb; apply H; right; auto). unfold contribution, seen_from. rewrite (H a) by (left; auto). reflexivity.
  - intros c H. destruct (Nat.eqb (length (points (get_all Point (after adds)))) 0); [discriminate|]. injection H as <-. exact E.
Qed.
(** Later additions never change what was added. *)
Theorem C51_append_only adds later : points (get_all Point (after (adds ++ later))) =
  points (get_all Point (after adds)) ++ concat (map contribution later).
Proof. rewrite !C51_all, map_app, concat_app. reflexivity. Qed.
(** The whole is dense exactly if every scan was. *)
Theorem C51_dense adds : dense (get_all Point (after adds)) = forallb (fun a => dense (snd a)) adds.
Proof.
  unfold get_all, merge_clouds, after. rewrite added_acc. cbn [app]. change (forallb (fun a => dense (snd a)) adds) with (true && forallb (fun a : Pose * cloud Point => dense (snd a)) adds)%bool.
  change true with (dense (empty_cloud Point)). generalize (empty_cloud Point). induction adds as [|a l IH]; intros c; cbn [map fold_left forallb]; [symmetry; apply andb_true_r|].
  rewrite IH. cbn. symmetry. apply andb_assoc.
Qed.
(** A negative n is undefined (the iterator passes the end); the package only uses
    positive constants. *)
Theorem C51_negative_undefined adds n : (n < 0)%Z -> get_recent Point (after adds) n = UB.
Proof.
  intros H. unfold get_recent. replace (_ <? 0)%Z with true; [reflexivity|]. symmetry. apply Z.ltb_lt. unfold zlen. lia.
Qed.

(** ** C52: one pose for each scan; the first is the identity, every later one is what the
    updater answers for the local map (the last n_local scans before it), the scan and
    the pose before it. *)
Variable n_local : Z.
Variable identity : Pose.
Variable updater : cloud Point -> cloud Point -> Pose -> outcome Pose.
Theorem C52_each_scan_once scans p m :
  odometry_run Pose Point move n_local updater (odometry_init Pose Point identity) scans = Ok (p, m) ->
  exists poses, length poses = length scans /\
    points (get_all Point m) = concat (map contribution (combine poses scans)) /\ length m = length scans /\
    (scans <> [] -> nth_error poses 0 = Some identity) /\ last poses identity = current_pose Pose Point (p, m) /\
    forall k T scan, nth_error poses k = Some T -> nth_error scans (S k) = Some scan ->
      exists T' local old recent, nth_error poses (S k) = Some T' /\ updater local scan T = Ok T' /\
        firstn (S k) (combine poses scans) = old ++ recent /\ length recent = Nat.min (Z.to_nat n_local) (S k) /\
        points local = concat (map contribution recent).
Proof.
  intros H. destruct (run_poses Pose Point move n_local identity updater scans p m H) as [poses [L [M [LP [F ES]]]]].
  exists poses. split; auto.
  assert (LC : length (combine poses scans) = length scans) by (rewrite combine_length; lia).
  split. { unfold get_all. rewrite merge_points, M, map_map. reflexivity. }
  split. { rewrite M, map_length. auto. }
  split; auto. split; auto.
  intros k T scan Hk Hs. destruct (ES k T scan Hk Hs) as [T' [local [E1 [E2 E3]]]].
  assert (KL : (S k < length scans)%nat) by (apply nth_error_Some; congruence).
  destruct (Z.ltb_spec n_local 0) as [Neg|Pos].
  { unfold get_recent in E2. replace (_ <? 0)%Z with true in E2; [discriminate|]. symmetry. apply Z.ltb_lt. unfold zlen. lia. }
  destruct (get_recent_ok Pose Point move (firstn (S k) (combine poses scans)) n_local Pos) as [old [recent [A1 [A2 [c [A3 A4]]]]]].
  rewrite E2 in A3. injection A3 as <-. exists T', local, old, recent. split; auto. split; auto. split; auto.
  split; [rewrite A2, firstn_length, LC; lia|auto].
Qed.
(** Every run is defined when the updater is. *)
Theorem C52_defined scans : (0 <= n_local)%Z -> (forall local scan T, exists T', updater local scan T = Ok T') ->
  exists p m, odometry_run Pose Point move n_local updater (odometry_init Pose Point identity) scans = Ok (p, m).
Proof.
  intros Hn HU. unfold odometry_run. generalize (odometry_init Pose Point identity).
  induction scans as [|scan scans IH]; intros [p m]; cbn [foldM]; [eauto|].
  unfold odometry_update at 1. destruct (scans_empty Point m); cbn [bind]; [apply IH|].
  unfold get_recent. replace (Z.min n_local (zlen m) <? 0)%Z with false by (symmetry; apply Z.ltb_ge; unfold zlen; lia). cbn [bind].
  match goal with |- context[updater ?a ?b ?c] => destruct (HU a b c) as [T' ->] end. cbn [bind]. apply IH.
Qed.
End Scans.
Print Assumptions C51_recent.
Print Assumptions C55_accumulated.
Print Assumptions C51_all.
Print Assumptions C51_append_only.
Print Assumptions C51_dense.
Print Assumptions C51_negative_undefined.
Print Assumptions C52_each_scan_once.
Print Assumptions C52_defined.

(** Poses and points are numbers here; a pose moves a point by adding. *)
Definition shift (_ : bool) (T p : Z) : Z := (T + p)%Z.
Example ex_C51 : get_recent Z (after Z Z shift [(1, Cloud true [1; 2]); (10, Cloud true [3]); (100, Cloud false [4; 5])]%Z) 2 =
  Ok (Cloud false [13; 104; 105]%Z).
Proof. reflexivity. Qed.
Example ex_C55_accumulated : save_if_not_empty Z (get_all Z (after Z Z shift [(1, Cloud true []); (10, Cloud true [3; 4])]%Z)) = Some (Cloud true [13; 14]%Z) /\
  save_if_not_empty Z (get_all Z (after Z Z shift [(1, Cloud true []); (10, Cloud true [])]%Z)) = None.
Proof. split; reflexivity. Qed.
Example ex_C52 : odometry_run Z Z shift 2 (fun local scan T => Ok (T + zlen (points local))%Z) (odometry_init Z Z 0%Z)
    [Cloud true [5]; Cloud true [6; 7]; Cloud true [8]]%Z =
  Ok (4%Z, [Cloud true [5]; Cloud true [7; 8]; Cloud true [12]]%Z).
Proof. reflexivity. Qed.

(** ** C54 and C55, real poses *)
Section Build.
Variable Point : Type.
Variable move : bool -> pose -> Point -> Point.
Notation run := (builder_run pose Point move pose_diff_small).
Notation messages := (list (pose * cloud Point)).
Definition arrived (l : messages) : list (pose * list Point) := map (fun m => (fst m, points (snd m))) l.

(** Whatever the uninitialised previous pose contains. *)
Theorem C54_key_frames indeterminate (l : messages) : (forall m, In m l -> is_rotation (lin (fst m))) ->
  exists k : messages, key_frames far_apart None (arrived l) (arrived k) /\
    points (map_ (run indeterminate l)) = concat (map (contribution pose Point move) k) /\
    (forall m, In m k -> In m l /\ points (snd m) <> []) /\ successive far_apart (map fst k).
Proof.
  intros HR. destruct (builder_keys pose Point move pose_diff_small l (builder_init pose Point indeterminate) None eq_refl) as [k [K1 [K2 K3]]].
  assert (K : key_frames far_apart None (arrived l) (arrived k)).
  { eapply key_frames_iff; [|exact K1]. intros p0 p1 [E|H0] H1; [discriminate E|].
    unfold arrived in *. rewrite map_map in H0, H1. apply in_map_iff in H0, H1. destruct H0 as [m0 [<- I0]], H1 as [m1 [<- I1]]. cbn [fst].
    apply pose_diff_far; apply HR; auto. }
  exists k. split; auto. split; [exact K2|].
  destruct (key_frames_far _ _ _ _ K) as [S NE]. split.
  - intros m Hm. split; auto. rewrite Forall_forall in NE. apply (NE (fst m, points (snd m))). unfold arrived. apply in_map_iff. eauto.
  - cbn [app] in S. unfold arrived in S. rewrite map_map in S. exact S.
Qed.

(** What the thresholds mean for a rotation by a about any axis: see [far_apart]. *)
Theorem C55_saved_iff indeterminate (l : messages) :
  (save_map pose Point (run indeterminate l) = None <-> forall m, In m l -> points (snd m) = []) /\
  (forall c, save_map pose Point (run indeterminate l) = Some c -> c = map_ (run indeterminate l)).
Proof.
  destruct (builder_keys pose Point move pose_diff_small l (builder_init pose Point indeterminate) None eq_refl) as [k [K1 [K2 K3]]].
  fold (run indeterminate l) in K2. cbn [builder_init map_ empty_cloud points app] in K2.
  pose proof (key_frames_none _ _ _ K1) as KN. destruct (key_frames_far _ _ _ _ K1) as [_ NE].
  assert (E : points (map_ (run indeterminate l)) = [] <-> k = []).
  { rewrite K2. split; [|intros ->; reflexivity]. destruct k as [|m k]; auto. intros H. exfalso. inversion NE as [|? ? N]. apply N. cbn [snd].
    cbn [map concat] in H. apply app_eq_nil in H. destruct H as [H _]. apply map_eq_nil in H. auto. }
  unfold save_map, map_empty. split.
  - assert (KA : arrivals pose Point k = [] <-> k = []) by (destruct k; split; auto; discriminate).
    transitivity (points (map_ (run indeterminate l)) = []).
    { destruct (points (map_ _)); cbn; split; auto; discriminate. }
    rewrite E, <- KA, KN. unfold arrivals. rewrite Forall_map, Forall_forall. cbn [snd]. split; auto.
  - intros c. destruct (Nat.eqb _ _); [discriminate|]. intros H. injection H as <-. auto.
Qed.
End Build.
Print Assumptions C54_key_frames.
Print Assumptions C55_saved_iff.

Open Scope R_scope.
Lemma id3_rotation : is_rotation id3.
Proof. split; [apply mat3_ext; vcbn; ring|vcbn; ring]. Qed.
Lemma far_two : far_apart (Iso id3 (V3 0 0 0)) (Iso id3 (V3 2 0 0)).
Proof.
  left. cbn [tra]. unfold vnorm, vdot, vsub. cbn [vx vy vz]. replace ((2 - 0) * (2 - 0) + (0 - 0) * (0 - 0) + (0 - 0) * (0 - 0)) with (2 * 2) by ring.
  rewrite sqrt_square; lra.
Qed.
(** Three arrivals: a first frame, an empty cloud, a frame two metres away. *)
Example ex_C54 : key_frames far_apart None
  [(Iso id3 (V3 0 0 0), [1%nat]); (Iso id3 (V3 5 5 5), []); (Iso id3 (V3 2 0 0), [2%nat; 3%nat])]
  [(Iso id3 (V3 0 0 0), [1%nat]); (Iso id3 (V3 2 0 0), [2%nat; 3%nat])] /\ is_rotation id3.
Proof. split; [|exact id3_rotation]. apply kf_first, kf_empty, kf_far; [exact far_two|constructor]. Qed.

(** ** C74 *)
Theorem C74_path (Header PoseMsg : Type) (h0 : Header) (l : list (Header * PoseMsg)) n p :
  nth_error (published Header PoseMsg (from_pose Header PoseMsg) (Path h0 []) l) n = Some p ->
  (n < length l)%nat /\ path_poses p = firstn (S n) l /\ exists m, nth_error l n = Some m /\ path_header p = fst m.
Proof.
  assert (G : forall l p0 n, nth_error (published Header PoseMsg (from_pose Header PoseMsg) p0 l) n = Some p ->
     (n < length l)%nat /\ path_poses p = path_poses p0 ++ firstn (S n) l /\ exists m, nth_error l n = Some m /\ path_header p = fst m).
  { clear. induction l as [|[h x] l IH]; intros p0 n H; [destruct n; discriminate H|]. cbn [published] in H. destruct n as [|n].
    - injection H as <-. cbn. split; [lia|]. split; auto. exists (h, x). auto.
    - cbn [nth_error] in H. destruct (IH _ _ H) as [H1 [H2 [m [H3 H4]]]]. split; [cbn; lia|]. split; [|exists m; auto].
      rewrite H2. cbn [from_pose path_publish path_poses fst snd]. rewrite <- app_assoc. reflexivity. }
  intros H. apply (G l (Path h0 []) n H).
Qed.
Theorem C74_one_per_pose (Header PoseMsg : Type) (h0 : Header) (l : list (Header * PoseMsg)) :
  length (published Header PoseMsg (from_pose Header PoseMsg) (Path h0 []) l) = length l.
Proof. generalize (Path (PoseMsg := PoseMsg) h0 []). induction l as [|m l IH]; intros p; cbn [published length]; auto. Qed.
(** The variant for poses with covariance publishes the same paths. *)
Theorem C74_covariance_ignored (Header PoseMsg Cov : Type) (p : path Header PoseMsg) (l : list (Header * (PoseMsg * Cov))) :
  published Header PoseMsg (from_pose_with_covariance Header PoseMsg Cov) p l =
  published Header PoseMsg (from_pose Header PoseMsg) p (map (fun m => (fst m, fst (snd m))) l).
Proof. revert p. induction l as [|m l IH]; intros p; cbn [published map]; auto. f_equal. apply IH. Qed.
Print Assumptions C74_path.
Print Assumptions C74_one_per_pose.
Print Assumptions C74_covariance_ignored.
Example ex_C74 : published nat nat (from_pose nat nat) (Path 0%nat []) [(1, 10); (2, 20)]%nat =
  [Path 1%nat [(1, 10)]; Path 2%nat [(1, 10); (2, 20)]]%nat.
Proof. reflexivity. Qed.

(** ** C77 *)
(** In exact arithmetic, for every non-empty cloud of fewer than 2^32 points. *)
Theorem C77_centroid_partial mf vf (pts : list (R * R * R)) : (0 < zlen pts < 2 ^ 32)%Z ->
  on_point_cloud exact mf vf pts =
  Tf exact mf vf (mean (map (fun p => fst (fst p)) pts), mean (map (fun p => snd (fst p)) pts), mean (map snd pts)) (0, 0, 0, 1)%Z.
Proof.
  intros H. unfold on_point_cloud. change (F exact) with R.
  rewrite (coordinate_mean (map (fun p : R * R * R => fst (fst p)) pts)) by (unfold zlen in *; rewrite map_length; lia).
  rewrite (coordinate_mean (map (fun p : R * R * R => snd (fst p)) pts)) by (unfold zlen in *; rewrite map_length; lia).
  rewrite (coordinate_mean (map snd pts)) by (unfold zlen in *; rewrite map_length; lia).
  reflexivity.
Qed.
Theorem C77_moves_along_partial mf vf (pts : list (R * R * R)) a b c x y z : (0 < zlen pts < 2 ^ 32)%Z ->
  tf_translation exact (on_point_cloud exact mf vf pts) = (x, y, z) ->
  tf_translation exact (on_point_cloud exact mf vf (map (fun p => (a + fst (fst p), b + snd (fst p), c + snd p)) pts)) = (a + x, b + y, c + z).
Proof.
  intros H E. assert (NE : pts <> []) by (intros ->; cbn in H; lia).
  rewrite C77_centroid_partial in E by auto. rewrite C77_centroid_partial by (unfold zlen in *; rewrite map_length; auto).
  cbn [tf_translation] in *. injection E as <- <- <-. rewrite !map_map. cbn [fst snd].
  rewrite <- (mean_shift a), <- (mean_shift b), <- (mean_shift c), !map_map by (destruct pts; [congruence|discriminate]). reflexivity.
Qed.
(** For the empty map the transform is published with NaN translation. *)
Theorem C77_empty_map_refuted acos mf vf : tf_translation (ieee acos) (on_point_cloud (ieee acos) mf vf []) = (B754_nan, B754_nan, B754_nan).
Proof. vm_compute. reflexivity. Qed.
Print Assumptions C77_centroid_partial.
Print Assumptions C77_moves_along_partial.
Print Assumptions C77_empty_map_refuted.
Example ex_C77 : mean [1; 2; 6] = 3 /\ (0 < zlen [(1, 0, 0); (2, 0, 0); (6, 0, 0)] < 2 ^ 32)%Z.
Proof. split; [unfold mean; cbn; lra|cbn; lia]. Qed.

(** ** C78 *)
Theorem C78_published_once (Content : Type) (load : string -> Z * cloud_msg Content) file :
  (file = "" -> map_loader Content load file = ThrowInvalid) /\
  (file <> "" -> exists m, map_loader Content load file = Ok [m] /\ frame m = "map" /\ content m = content (snd (load file))).
Proof.
  split.
  - intros ->. reflexivity.
  - intros H. unfold map_loader. destruct file; [congruence|]. eexists. split; [reflexivity|]. auto.
Qed.
(** Nothing tells a file that cannot be read from a readable one: whatever message the
    failed load leaves is published as the map. *)
Theorem C78_unreadable_published_refuted (Content : Type) (load : string -> Z * cloud_msg Content) file left_over :
  file <> "" -> load file = ((-1)%Z, left_over) -> exists m, map_loader Content load file = Ok [m] /\ content m = content left_over.
Proof. intros H E. destruct (proj2 (C78_published_once _ load file) H) as [m [H1 [H2 H3]]]. exists m. rewrite E in H3. auto. Qed.
Print Assumptions C78_published_once.
Print Assumptions C78_unreadable_published_refuted.
Example ex_C78 : map_loader nat (fun _ => (0%Z, CloudMsg nat "velodyne" 7%nat)) "a.pcd" = Ok [CloudMsg nat "map" 7%nat].
Proof. reflexivity. Qed.
