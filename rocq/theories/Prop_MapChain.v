(** Property C140: from clouds and poses to the map file. *)
From Coq Require Import List ZArith Bool Reals Sorted Lia Lra.
From Verif Require Import Base Arith PoseModel SpecPose MapModel SpecMap MapProofs MsgModel RotProofs WitnessProofs SyncModel SpecSync SyncProofs SpecChain ChainProofs MapChainModel SpecMapChain Prop_Sync Prop_Map Prop_Msg.
Import ListNotations.
Notation length := List.length.
Open Scope Z_scope.
Notation arrived := (arrival (cloud vec) pose_msg).

(** The process is the builder over the callbacks. *)
Lemma run_mapper l w b : fold_left mapper_step l (w, b) =
  (fst (sync_run mapping_queue w l), fold_left map_callback (snd (sync_run mapping_queue w l)) b).
Proof.
  revert w b. induction l as [|e l IH]; intros w b; cbn [fold_left sync_run]; auto.
  unfold mapper_step at 2. destruct (sync_add mapping_queue w e) as [w' o]. rewrite IH. destruct (sync_run mapping_queue w' l) as [w2 o2]. cbn [fst snd].
  now rewrite fold_left_app.
Qed.

(** Whatever arrives, in whatever order: every point of the map is a point of a received cloud,
    placed by a pose that was received with the same stamp. *)
Lemma callback_points out : forall b,
  (forall p, In p (points (map_ (fold_left map_callback out b))) -> In p (points (map_ b)) \/
     exists t c m x, In (t, c, m) out /\ In x (points c) /\ p = transform (get_isometry m) x).
Proof.
  induction out as [|[[t c] m] out IH]; intros b p K; cbn [fold_left] in K; auto.
  apply IH in K. destruct K as [K|[t' [c' [m' [x [H1 H2]]]]]]; [|right; exists t', c', m', x; split; auto; now right].
  unfold map_callback, builder_callback in K. cbn [fst snd] in K. destruct (Nat.eqb _ 0); auto. destruct (negb _ && _); auto.
  cbn [map_ append transform_cloud points] in K. apply in_app_or in K. destruct K as [K|K]; auto. apply in_map_iff in K. destruct K as [x [<- K]].
  right. exists t, c, m, x. repeat split; auto. now left.
Qed.

Lemma placed_transform m p : unit (orientation m) -> transform (get_isometry m) p = placed m p.
Proof. intros U. unfold transform, get_isometry, make_pose, placed. cbn [lin tra]. now rewrite to_rotation_sandwich. Qed.

Theorem C140_own_pose indeterminate (l : list arrived) p :
  (forall t m, In (Second t m) l -> unit (orientation m)) ->
  In p (points (map_ (snd (mapper_run indeterminate l)))) ->
  exists t c m x, In (First t c) l /\ In (Second t m) l /\ In x (points c) /\ p = placed m x.
Proof.
  intros HU K. unfold mapper_run in K. rewrite run_mapper in K. cbn [snd] in K. apply callback_points in K.
  destruct K as [[]|[t [c [m [x [H1 [H2 H3]]]]]]]. apply (C138_same_scan _ _ mapping_queue l) in H1. destruct H1 as [F1 F2].
  exists t, c, m, x. repeat split; auto. rewrite <- placed_transform; eauto.
Qed.

(** ** Key frames of stamped poses *)
Open Scope R_scope.
Lemma between_trace q0 q1 : unit q0 -> unit q1 ->
  let M := mmul3 (transpose3 (to_rotation q0)) (to_rotation q1) in m00 M + m11 M + m22 M = 4 * inner q0 q1 ^ 2 - 1.
Proof.
  destruct q0 as [a b c d], q1 as [e f g h]. unfold unit, qnorm2, inner. cbn [qw qx qy qz]. intros U V. cbv zeta.
  set (n0 := a * a + b * b + c * c + d * d) in *. set (n1 := e * e + f * f + g * g + h * h) in *.
  assert (E : a * a = 1 - b * b - c * c - d * d) by (unfold n0 in U; lra). assert (F : e * e = 1 - f * f - g * g - h * h) by (unfold n1 in V; lra).
  vcbn. cbn [m00 m01 m02 m10 m11 m12 m20 m21 m22 mmul3 transpose3]. 
  ring_simplify. 
  replace (a ^ 2) with (1 - b * b - c * c - d * d) by (rewrite <- E; ring). replace (e ^ 2) with (1 - f * f - g * g - h * h) by (rewrite <- F; ring). ring.
Qed.
Lemma inner_bound q0 q1 : unit q0 -> unit q1 -> 0 <= inner q0 q1 ^ 2 <= 1.
Proof.
  destruct q0 as [a b c d], q1 as [e f g h]. unfold unit, qnorm2, inner. cbn [qw qx qy qz]. intros U V. split; [apply pow2_ge_0|].
  replace 1 with ((a * a + b * b + c * c + d * d) * (e * e + f * f + g * g + h * h)) by (rewrite U, V; ring).
  assert (0 <= (a * f - b * e) ^ 2 + (a * g - c * e) ^ 2 + (a * h - d * e) ^ 2 + (b * g - c * f) ^ 2 + (b * h - d * f) ^ 2 + (c * h - d * g) ^ 2).
  { pose proof (pow2_ge_0 (a * f - b * e)). pose proof (pow2_ge_0 (a * g - c * e)). pose proof (pow2_ge_0 (a * h - d * e)).
    pose proof (pow2_ge_0 (b * g - c * f)). pose proof (pow2_ge_0 (b * h - d * f)). pose proof (pow2_ge_0 (c * h - d * g)). lra. }
  lra.
Qed.
Lemma apart_far m0 m1 : unit (orientation (snd m0)) -> unit (orientation (snd m1)) ->
  (far_apart (get_isometry (snd m0)) (get_isometry (snd m1)) <-> apart m0 m1).
Proof.
  intros U V. unfold far_apart, apart. cbn [get_isometry make_pose tra lin]. apply or_iff_compat_l.
  pose proof (between_trace _ _ U V) as T. cbv zeta in T. pose proof (inner_bound _ _ U V) as B. set (d := inner _ _) in *. set (M := mmul3 _ _) in *.
  assert (HALF : forall a, 1 + 2 * cos a = 4 * d ^ 2 - 1 -> sin (a / 2) * sin (a / 2) = 1 - d ^ 2).
  { intros a E. pose proof (cos_2a_sin (a / 2)) as C. replace (2 * (a / 2)) with a in C by field. lra. }
  split.
  - intros [a [[A1 A2] A3]]. rewrite T in A2. specialize (HALF a (eq_sym A2)). nra.
  - intros H. exists (acos (2 * d ^ 2 - 1)). pose proof (acos_bound (2 * d ^ 2 - 1)) as AB.
    assert (C : cos (acos (2 * d ^ 2 - 1)) = 2 * d ^ 2 - 1) by (apply cos_acos; lra).
    split; [split; [lra|rewrite T, C; ring]|]. set (a := acos _) in *.
    assert (S0 : 0 <= sin (a / 2)) by (apply sin_ge_0; lra).
    assert (SS : sin (a / 2) * sin (a / 2) = 1 - d ^ 2) by (apply HALF; rewrite C; ring). nra.
Qed.
Open Scope Z_scope.

(** What the builder has to do with a stamped pair. *)
Definition framed (c : Z * cloud vec * pose_msg) : (Z * pose_msg) * list vec := ((fst (fst c), snd c), points (snd (fst c))).
Lemma callback_keys out b last : (match last with None => points (map_ b) = [] | Some m => points (map_ b) <> [] /\ prev b = get_isometry (snd m) end) ->
  exists k, key_frames (fun m0 m1 => pose_diff_small (get_isometry (snd m0)) (get_isometry (snd m1)) = false) last (map framed out) k /\
    points (map_ (fold_left map_callback out b)) = points (map_ b) ++ concat (map (fun m => map (transform (get_isometry (snd (fst m)))) (snd m)) k).
Proof.
  revert b last. induction out as [|[[t c] m] out IH]; intros b lst Hb; cbn [fold_left map].
  - exists []. split; [constructor|]. cbn. now rewrite app_nil_r.
  - unfold map_callback at 2, builder_callback. unfold framed at 1. cbn [fst snd]. destruct (points c) as [|x xs] eqn:EP.
    + cbn [length Nat.eqb]. destruct (IH b lst Hb) as [k [K1 K2]]. exists k. split; auto. now constructor.
    + cbn [length Nat.eqb].
      assert (ACC : exists k, key_frames (fun m0 m1 => pose_diff_small (get_isometry (snd m0)) (get_isometry (snd m1)) = false) (Some (t, m)) (map framed out) k /\
        points (map_ (fold_left map_callback out (Builder pose vec (append vec (map_ b) (transform_cloud pose vec (fun _ => transform) (get_isometry m) c)) (get_isometry m)))) =
        points (map_ b) ++ concat (map (fun n => map (transform (get_isometry (snd (fst n)))) (snd n)) (((t, m), x :: xs) :: k))).
      { destruct (IH (Builder pose vec (append vec (map_ b) (transform_cloud pose vec (fun _ => transform) (get_isometry m) c)) (get_isometry m)) (Some (t, m))) as [k [K1 K2]].
        - cbn. rewrite EP. split; auto. destruct (points (map_ b)); discriminate.
        - exists k. split; auto. rewrite K2. cbn [map concat map_ append transform_cloud points dense fst snd]. rewrite EP, <- app_assoc. reflexivity. }
      destruct ACC as [k [K1 K2]]. destruct lst as [[t0 m0]|].
      * destruct Hb as [Hb HT]. assert (EE : map_empty pose vec b = false) by (unfold map_empty; destruct (points (map_ b)); [congruence|reflexivity]).
        rewrite EE. cbn [negb andb]. cbn [snd] in HT. rewrite HT. destruct (pose_diff_small (get_isometry m0) (get_isometry m)) eqn:ES.
        -- destruct (IH b (Some (t0, m0)) (conj Hb HT)) as [k' [K1' K2']]. exists k'. split; auto. apply kf_near; auto. cbn [snd]. congruence.
        -- eexists. split; [apply kf_far; [exact ES|exact K1]|]. exact K2.
      * assert (EE : map_empty pose vec b = true) by (unfold map_empty; rewrite Hb; reflexivity). rewrite EE. cbn [negb andb].
        eexists. split; [apply kf_first; exact K1|]. exact K2.
Qed.
Lemma key_frames_left {Pose Point} (far : Pose -> Pose -> Prop) last (l k : list (Pose * list Point)) : key_frames far last l k -> left_out k l.
Proof. intros K. induction K; constructor; auto. Qed.
(** Every arrival with points is near a key frame that is no later than it. *)
Lemma key_frames_covered {Pose Point} (far : Pose -> Pose -> Prop) last (l k : list (Pose * list Point)) : key_frames far last l k ->
  forall l1 m l2, l = l1 ++ m :: l2 -> snd m <> [] ->
  (exists T, last = Some T /\ ~ far T (fst m)) \/ exists m', In m' k /\ (m' = m \/ In m' l1 /\ ~ far (fst m') (fst m)).
Proof.
  intros K. induction K as [last|last T l k K IH|T p ps l k K IH|T0 T p ps l k Hf K IH|T0 T p ps l k Hf K IH]; intros l1 m l2 E NE.
  - destruct l1; discriminate.
  - destruct l1 as [|x l1]; cbn [app] in E; injection E as <- E; [now destruct NE|]. destruct (IH l1 m l2 E NE) as [H|[m' [H1 H2]]]; auto.
    right. exists m'. split; auto. destruct H2 as [H2|[H2 H3]]; auto. right. split; auto. now right.
  - destruct l1 as [|x l1]; cbn [app] in E; injection E as <- E; [right; eexists; split; [now left|now left]|]. right.
    destruct (IH l1 m l2 E NE) as [[T' [H H']]|[m' [H1 H2]]].
    + injection H as <-. eexists. split; [now left|]. right. split; [now left|exact H'].
    + exists m'. split; [now right|]. destruct H2 as [H2|[H2 H3]]; auto. right. split; auto. now right.
  - destruct l1 as [|x l1]; cbn [app] in E; injection E as <- E; [right; eexists; split; [now left|now left]|]. right.
    destruct (IH l1 m l2 E NE) as [[T' [H H']]|[m' [H1 H2]]].
    + injection H as <-. eexists. split; [now left|]. right. split; [now left|exact H'].
    + exists m'. split; [now right|]. destruct H2 as [H2|[H2 H3]]; auto. right. split; auto. now right.
  - destruct l1 as [|x l1]; cbn [app] in E; injection E as <- E; [left; exists T0; auto|].
    destruct (IH l1 m l2 E NE) as [H|[m' [H1 H2]]]; auto. right. exists m'. split; auto. destruct H2 as [H2|[H2 H3]]; auto. right. split; auto. now right.
Qed.

(** Growing stamps on both topics, unit orientations, never more than a thousand messages waiting
    for their partner, anything lost: the map consists of the key frames among the clouds whose
    pose was received, in order, each placed by its own pose. *)
Theorem C140_map indeterminate (l : list arrived) : growing (firsts l) -> growing (seconds l) -> never_more_than 1000 l ->
  (forall t m, In (Second t m) l -> unit (orientation m)) ->
  exists k, key_frames apart None (map framed (pairs (firsts l) (seconds l))) k /\
    points (map_ (snd (mapper_run indeterminate l))) = concat (map (fun f => map (placed (snd (fst f))) (snd f)) k).
Proof.
  intros G1 G2 N HU. unfold mapper_run. rewrite run_mapper. cbn [snd]. change (snd (sync_run mapping_queue [] l)) with (callbacks mapping_queue l).
  assert (HP : forall f, In f (map framed (pairs (firsts l) (seconds l))) -> unit (orientation (snd (fst f)))).
  { rewrite <- (C138_pairs _ _ mapping_queue l G1 G2 N). intros f K. apply in_map_iff in K. destruct K as [[[t c] m] [<- K]]. cbn [framed fst snd].
    apply C138_same_scan in K. apply (HU t). tauto. }
  rewrite (C138_pairs _ _ mapping_queue l G1 G2 N).
  destruct (callback_keys (pairs (firsts l) (seconds l)) (builder_init pose vec indeterminate) None eq_refl) as [k [K1 K2]].
  pose proof (key_frames_left _ _ _ _ K1) as KL. exists k. split.
  - eapply key_frames_iff; [|exact K1]. intros p0 p1 [E|H0] H1; [discriminate E|]. apply in_map_iff in H0, H1. destruct H0 as [f0 [<- I0]], H1 as [f1 [<- I1]].
    rewrite <- apart_far by auto. apply pose_diff_far; apply to_rotation_is_rotation; auto.
  - rewrite K2. cbn [builder_init map_ empty_cloud points app]. f_equal. apply map_ext_in. intros f Hf. apply map_ext. intros x. apply placed_transform.
    apply HP. now apply (left_out_in k _ _ KL).
Qed.

(** In particular, each cloud with points whose pose was received is covered: there is a cloud in
    the map, not later, whose pose is less than a metre and about 11.5 degrees from it. *)
Theorem C140_covered indeterminate (l : list arrived) t c m : growing (firsts l) -> growing (seconds l) -> never_more_than 1000 l ->
  (forall t m, In (Second t m) l -> unit (orientation m)) ->
  In (First t c) l -> In (Second t m) l -> points c <> [] ->
  exists t' c' m', In (First t' c') l /\ In (Second t' m') l /\ points c' <> [] /\ t' <= t /\ (t' = t \/ ~ apart (t', m') (t, m)) /\
    forall x, In x (points c') -> In (placed m' x) (points (map_ (snd (mapper_run indeterminate l)))).
Proof.
  intros G1 G2 N HU F S1 NE. destruct (C140_map indeterminate l G1 G2 N HU) as [k [K1 K2]].
  assert (P : In (t, c, m) (pairs (firsts l) (seconds l))).
  { apply in_flat_map. exists (t, c). split; [apply in_flat_map; exists (First t c); split; auto; now left|].
    apply in_map_iff. exists (t, m). split; auto. apply filter_In. split; [apply in_flat_map; exists (Second t m); split; auto; now left|apply Z.eqb_refl]. }
  assert (PG : growing (map (fun f => (fst (fst f), f)) (map framed (pairs (firsts l) (seconds l))))).
  { pose proof (C138_in_order _ _ mapping_queue l G1 G2) as C. rewrite (C138_pairs _ _ mapping_queue l G1 G2 N) in C. unfold growing in *. rewrite !map_map in *. exact C. }
  assert (BACK : forall f, In f (map framed (pairs (firsts l) (seconds l))) -> exists t' c' m', f = framed (t', c', m') /\ In (First t' c') l /\ In (Second t' m') l).
  { intros f Hf. apply in_map_iff in Hf. destruct Hf as [[[t' c'] m'] [<- Hf]]. exists t', c', m'. split; auto.
    rewrite <- (C138_pairs _ _ mapping_queue l G1 G2 N) in Hf. now apply C138_same_scan in Hf. }
  apply (in_map framed) in P. apply in_split in P. destruct P as [l1 [l2 E]].
  destruct (key_frames_covered _ _ _ _ K1 l1 _ l2 E NE) as [[T [H _]]|[f [H1 H2]]]; [discriminate H|].
  assert (IM : forall x, In x (snd f) -> In (placed (snd (fst f)) x) (points (map_ (snd (mapper_run indeterminate l))))).
  { intros x Hx. rewrite K2. apply in_concat. exists (map (placed (snd (fst f))) (snd f)). split; [|now apply in_map]. apply (in_map (fun f => map (placed (snd (fst f))) (snd f)) k f H1). }
  destruct H2 as [->|[H2 H3]].
  - exists t, c, m. repeat split; auto. lia.
  - destruct (BACK f) as [t' [c' [m' [-> [B1 B2]]]]]; [rewrite E; apply in_or_app; now left|]. cbn [framed fst snd] in *.
    exists t', c', m'. split; auto. split; auto. split; [destruct (key_frames_far _ _ _ _ K1) as [_ NF]; rewrite Forall_forall in NF; exact (NF _ H1)|].
    split; [|auto]. rewrite E, map_app in PG. apply growing_app in PG. destruct PG as [_ [_ PG]].
    specialize (PG (t', framed (t', c', m')) (t, framed (t, c, m))). cbn [fst] in PG. apply Z.lt_le_incl, PG.
    + apply in_map_iff. exists (framed (t', c', m')). auto.
    + now left.
Qed.

(** The map is saved exactly if there was a cloud with points whose pose was received. *)
Theorem C140_saved indeterminate (l : list arrived) : growing (firsts l) -> growing (seconds l) -> never_more_than 1000 l ->
  (forall t m, In (Second t m) l -> unit (orientation m)) ->
  (mapper_saved (mapper_run indeterminate l) <> None <-> exists t c m, In (First t c) l /\ In (Second t m) l /\ points c <> []) /\
  (forall c, mapper_saved (mapper_run indeterminate l) = Some c -> c = map_ (snd (mapper_run indeterminate l))).
Proof.
  intros G1 G2 N HU. unfold mapper_saved, save_map, map_empty. split.
  - split.
    + intros H. destruct (points (map_ (snd (mapper_run indeterminate l)))) as [|p ps] eqn:E; [now destruct H|].
      destruct (C140_own_pose indeterminate l p HU) as [t [c [m [x [H1 [H2 [H3 _]]]]]]]; [rewrite E; now left|]. exists t, c, m. repeat split; auto. intros K. rewrite K in H3. destruct H3.
    + intros [t [c [m [H1 [H2 H3]]]]].
      destruct (C140_covered indeterminate l t c m G1 G2 N HU H1 H2 H3) as [t' [c' [m' [F1 [F2 [NE [_ [_ IN]]]]]]]].
      destruct (points c') as [|x xs]; [now destruct NE|]. specialize (IN x (or_introl eq_refl)). destruct (points (map_ _)); [destruct IN|discriminate].
  - intros c. destruct (Nat.eqb _ _); [discriminate|]. intros H. now injection H.
Qed.
Print Assumptions C140_own_pose.
Print Assumptions C140_map.
Print Assumptions C140_covered.
Print Assumptions C140_saved.

(** Four clouds and poses, half a metre apart except for the last, which is two metres on; the
    poses come late, that of the second cloud is lost: the first and the last cloud make the map
    (the third is near the first). *)
Definition at_x (x : R) : pose_msg := PoseMsg (V3 x 0 0) (Qn 1 0 0 0).
Definition one_point (x : R) : cloud vec := Cloud true [V3 x 0 0].
Definition ex_drive : list arrived :=
  [First 1 (one_point 10); First 2 (one_point 20); Second 1 (at_x 0); First 3 (one_point 30); First 4 (one_point 40); Second 3 (at_x (1 / 2)); Second 4 (at_x 2)].
Lemma shifted x y : placed (at_x x) (V3 y 0 0) = V3 (x + y) 0 0.
Proof. apply vec_ext; unfold placed, at_x; cbn [orientation position]; vcbn; ring. Qed.
Lemma at_apart t0 x0 t1 x1 : (1 <= Rabs (x1 - x0))%R <-> apart (t0, at_x x0) (t1, at_x x1).
Proof.
  unfold apart, at_x. cbn [snd position orientation]. replace (vnorm (vsub (V3 x1 0 0) (V3 x0 0 0))) with (Rabs (x1 - x0)).
  - split; [now left|]. intros [H|H]; auto. exfalso. unfold inner in H. cbn [qw qx qy qz] in H. lra.
  - unfold vnorm, vdot, vsub. cbn [vx vy vz]. rewrite <- sqrt_Rsqr_abs. unfold Rsqr. f_equal. ring.
Qed.
Example C140_case indeterminate :
  growing (firsts ex_drive) /\ growing (seconds ex_drive) /\ never_more_than 1000 ex_drive /\
  (forall t m, In (Second t m) ex_drive -> unit (orientation m)) /\
  points (map_ (snd (mapper_run indeterminate ex_drive))) = [V3 (0 + 10) 0 0; V3 (2 + 40) 0 0].
Proof.
  assert (G1 : growing (firsts ex_drive)) by (repeat constructor; cbn; lia).
  assert (G2 : growing (seconds ex_drive)) by (repeat constructor; cbn; lia).
  assert (N : never_more_than 1000 ex_drive).
  { intros p r E. assert (L : (length p <= 7)%nat) by (apply (f_equal (@List.length _)) in E; rewrite app_length in E; cbn in E; lia).
    unfold waiting. transitivity (length (firsts p) + length (seconds p))%nat.
    - apply Nat.add_le_mono; apply filter_length_le.
    - enough (length (firsts p) + length (seconds p) = length p)%nat by lia. clear. induction p as [|[t a|t b] p IH]; cbn [firsts seconds flat_map app length] in *; auto; unfold firsts, seconds in *; lia. }
  assert (HU : forall t m, In (Second t m) ex_drive -> unit (orientation m)).
  { intros t m H. cbn in H. repeat (destruct H as [H|H]; [try discriminate H; injection H as <- <-; unfold unit, qnorm2; cbn; ring|]). destruct H. }
  repeat split; auto. destruct (C140_map indeterminate ex_drive G1 G2 N HU) as [k [K1 K2]]. rewrite K2. clear K2.
  cbn [pairs ex_drive firsts seconds flat_map app filter map fst snd framed one_point points Z.eqb Pos.eqb] in K1.
  inversion K1 as [| |? ? ? ? k1 K3| |]; subst. clear K1.
  inversion K3 as [| | |? ? ? ? ? ? F K4|? ? ? ? ? ? F K4]; subst.
  { apply at_apart in F. exfalso. revert F. unfold Rabs. destruct (Rcase_abs _); lra. }
  clear K3. inversion K4 as [| | |? ? ? ? ? k2 F' K5|? ? ? ? ? ? F' K5]; subst.
  2: { exfalso. apply F'. apply at_apart. rewrite Rabs_pos_eq; lra. }
  inversion K5; subst. cbn [map concat app fst snd]. now rewrite !shifted.
Qed.
