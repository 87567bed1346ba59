(** Lemmas for Prop_Map.v. *)
From Coq Require Import List ZArith Bool Lia Lra Reals String.
From Verif Require Import Base Arith PoseModel SpecPose MapModel SpecMap AngleProofs RotProofs.
Import ListNotations.

Section Clouds.
Variable Pose Point : Type.
Variable move : bool -> Pose -> Point -> Point.
Notation cloud := (cloud Point).
Notation transform_cloud := (transform_cloud Pose Point move).
Notation merge_clouds := (merge_clouds Point).

Lemma merge_points_acc (l : list cloud) a : points (fold_left (append Point) l a) = points a ++ concat (map points l).
Proof.
  revert a. induction l as [|c l IH]; intros a; cbn [fold_left map concat]; [rewrite app_nil_r; auto|].
  rewrite IH. cbn [append points]. rewrite app_assoc. reflexivity.
Qed.
Lemma merge_points (l : list cloud) : points (merge_clouds l) = concat (map points l).
Proof. unfold merge_clouds, MapModel.merge_clouds. rewrite merge_points_acc. reflexivity. Qed.

Definition added (adds : list (Pose * cloud)) : list cloud :=
  fold_left (fun s a => scans_add Pose Point move s (fst a) (snd a)) adds [].
Lemma added_acc adds s : fold_left (fun s a => scans_add Pose Point move s (fst a) (snd a)) adds s =
  s ++ map (fun a => transform_cloud (fst a) (snd a)) adds.
Proof.
  revert s. induction adds as [|a l IH]; intros s; cbn [fold_left map]; [rewrite app_nil_r; auto|].
  rewrite IH. unfold scans_add. rewrite <- app_assoc. reflexivity.
Qed.
Lemma added_map adds : added adds = map (fun a => transform_cloud (fst a) (snd a)) adds.
Proof. unfold added. apply added_acc. Qed.

Lemma get_recent_ok adds n : (0 <= n)%Z ->
  exists old recent, adds = old ++ recent /\ length recent = Nat.min (Z.to_nat n) (length adds) /\
  exists c, get_recent Point (map (fun a => transform_cloud (fst a) (snd a)) adds) n = Ok c /\
    points c = concat (map (fun a => map (move (dense (snd a)) (fst a)) (points (snd a))) recent).
Proof.
  intros Hn. set (m := Nat.min (Z.to_nat n) (length adds)).
  exists (firstn (length adds - m) adds), (skipn (length adds - m) adds).
  split; [symmetry; apply firstn_skipn|]. split; [rewrite skipn_length; unfold m; lia|].
  unfold get_recent, zlen. rewrite map_length.
  replace (Z.min n (Z.of_nat (length adds)) <? 0)%Z with false by (symmetry; apply Z.ltb_ge; lia).
  eexists. split; [reflexivity|]. rewrite merge_points, skipn_map, !map_map.
  replace (Z.to_nat (Z.min n (Z.of_nat (length adds)))) with m by (unfold m; lia). reflexivity.
Qed.

Section Odometry.
Variable n_local : Z.
Variable identity : Pose.
Variable updater : cloud -> cloud -> Pose -> outcome Pose.
Notation run := (odometry_run Pose Point move n_local updater).
Notation update := (odometry_update Pose Point move n_local updater).
Notation added_at := (map (fun a : Pose * cloud => transform_cloud (fst a) (snd a))).

Lemma foldM_snoc {S A : Type} (f : S -> A -> outcome S) l x s : foldM f s (l ++ [x]) = (s' <- foldM f s l ;; f s' x).
Proof.
  revert s. induction l as [|a l IH]; intros s; cbn [foldM app bind].
  - destruct (f s x); reflexivity.
  - destruct (f s a); cbn [bind]; auto.
Qed.

Lemma nth_snoc {X} (l : list X) x k y : nth_error (l ++ [x]) k = Some y -> (k < length l)%nat /\ nth_error l k = Some y \/ k = length l /\ x = y.
Proof.
  intros H. destruct (Nat.lt_ge_cases k (length l)) as [L|L].
  - left. rewrite nth_error_app1 in H by auto. auto.
  - right. rewrite nth_error_app2 in H by auto. destruct (k - length l)%nat as [|j] eqn:E.
    + cbn in H. injection H as ->. split; [lia|auto].
    + cbn in H. destruct j; discriminate.
Qed.
Lemma combine_snoc {X Y} (a : list X) (b : list Y) x y : length a = length b -> combine (a ++ [x]) (b ++ [y]) = combine a b ++ [(x, y)].
Proof. revert b. induction a as [|u a IH]; intros [|v b] E; try discriminate E; cbn [combine app]; auto. f_equal. apply IH. auto. Qed.

Definition estimated (poses : list Pose) (scans : list cloud) : Prop :=
  forall k T scan, nth_error poses k = Some T -> nth_error scans (S k) = Some scan ->
    exists T' local, nth_error poses (S k) = Some T' /\
      get_recent Point (added_at (firstn (S k) (combine poses scans))) n_local = Ok local /\
      updater local scan T = Ok T'.

Lemma run_poses scans p m : run (odometry_init Pose Point identity) scans = Ok (p, m) ->
  exists poses, length poses = length scans /\ m = added_at (combine poses scans) /\ last poses identity = p /\
    (scans <> [] -> nth_error poses 0 = Some identity) /\ estimated poses scans.
Proof.
  revert p m. induction scans as [|scan scans IH] using rev_ind; intros p m H.
  - injection H as <- <-. exists []. cbn. repeat split; auto; [congruence|]. intros k T s Hk. destruct k; discriminate.
  - unfold odometry_run in H. rewrite foldM_snoc in H. fold (run (odometry_init Pose Point identity) scans) in H.
    destruct (run (odometry_init Pose Point identity) scans) as [[p0 m0]| | | | |] eqn:E; try discriminate H. cbn [bind] in H.
    destruct (IH _ _ eq_refl) as [poses [L [M [LP [F ES]]]]]. clear IH.
    unfold odometry_update in H.
    assert (LC : length (combine poses scans) = length scans) by (rewrite combine_length; lia).
    assert (EM : scans_empty Point m0 = Nat.eqb (length scans) 0) by (unfold scans_empty; rewrite M, map_length, LC; auto).
    rewrite EM in H.
    assert (GEN : forall p', Ok (p', scans_add Pose Point move m0 p' scan) = Ok (p, m) ->
      length (poses ++ [p']) = length (scans ++ [scan]) /\ m = added_at (combine (poses ++ [p']) (scans ++ [scan])) /\ last (poses ++ [p']) identity = p).
    { intros p' E'. injection E' as -> <-. split; [rewrite !app_length; cbn; lia|]. split; [|apply last_last].
      rewrite combine_snoc by auto. rewrite map_app. unfold scans_add. rewrite M. reflexivity. }
    destruct scans as [|s1 scans'].
    + cbn [length Nat.eqb] in H. exists (poses ++ [p0]). destruct (GEN p0 H) as [G1 [G2 G3]]. split; auto. split; auto. split; auto.
      destruct poses; [|discriminate L]. injection E as <- <-. split; [reflexivity|].
      intros k T s Hk Hs. cbn [app nth_error] in Hs. destruct k; discriminate Hs.
    + set (scans := s1 :: scans') in *. assert (NE : scans <> []) by (unfold scans; discriminate).
      replace (Nat.eqb (length scans) 0) with false in H by reflexivity.
      destruct (get_recent Point m0 n_local) as [local| | | | |] eqn:EL; try discriminate H. cbn [bind] in H.
      destruct (updater local scan p0) as [p'| | | | |] eqn:EU; try discriminate H. cbn [bind] in H.
      exists (poses ++ [p']). destruct (GEN p' H) as [G1 [G2 G3]]. split; auto. split; auto. split; auto.
      assert (LP0 : (0 < length poses)%nat) by (rewrite L; unfold scans; cbn; lia).
      clearbody scans.
      split. { intros _. rewrite nth_error_app1 by auto. auto. }
      intros k T s Hk Hs.
      destruct (nth_snoc _ _ _ _ Hs) as [[Hl Hs']|[Hl ->]].
      * rewrite nth_error_app1 in Hk by lia. destruct (ES k T s Hk Hs') as [T' [loc [A1 [A2 A3]]]].
        exists T', loc. split; [rewrite nth_error_app1 by lia; auto|]. split; auto.
        rewrite combine_snoc by auto. rewrite firstn_app, LC. replace (S k - length scans)%nat with 0%nat by lia.
        rewrite firstn_O, app_nil_r. exact A2.
      * exists p', local. split; [rewrite nth_error_app2 by lia; replace (S k - length poses)%nat with 0%nat by lia; reflexivity|].
        rewrite nth_error_app1 in Hk by lia.
        assert (T = p0) as ->.
        { rewrite <- LP. destruct (exists_last (l := poses)) as [pl [a Ea]]; [intros ->; cbn in LP0; lia|]. rewrite Ea, last_last.
          rewrite Ea in Hk. rewrite nth_error_app2 in Hk by (rewrite Ea, app_length in L; cbn in L; lia).
          rewrite Ea, app_length in L. cbn in L. replace (k - length pl)%nat with 0%nat in Hk by lia. injection Hk as ->. auto. }
        split; [|exact EU]. rewrite combine_snoc by auto. rewrite firstn_app, LC. replace (S k - length scans)%nat with 0%nat by lia.
        rewrite firstn_O, app_nil_r, firstn_all2 by lia. rewrite <- M. exact EL.
Qed.
End Odometry.

Section Builder.
Variable small : Pose -> Pose -> bool.
Notation callback := (builder_callback Pose Point move small).
Definition arrivals (l : list (Pose * cloud)) := map (fun m => (fst m, points (snd m))) l.

Lemma builder_keys l b last : (match last with None => points (map_ b) = [] | Some T => points (map_ b) <> [] /\ prev b = T end) ->
  exists k, key_frames (fun p0 p1 => small p0 p1 = false) last (arrivals l) (arrivals k) /\
    points (map_ (fold_left callback l b)) = points (map_ b) ++ concat (map (fun m => map (move (dense (snd m)) (fst m)) (points (snd m))) k) /\
    (forall m, In m k -> In m l).
Proof.
  revert b last. induction l as [|[T c] l IH]; intros b lst Hb; cbn [fold_left].
  - exists []. split; [constructor|]. split; [cbn; rewrite app_nil_r; auto|auto].
  - unfold builder_callback at 2. destruct c as [d pts]. cbn [points].
    destruct pts as [|p pts].
    + cbn [length Nat.eqb]. destruct (IH b lst Hb) as [k [K1 [K2 K3]]]. exists k. split; [cbn; constructor; auto|]. split; auto.
      intros m Hm. right. auto.
    + replace (Nat.eqb (length (p :: pts)) 0) with false by reflexivity.
      assert (ACC : forall l0, l0 = l -> exists k, key_frames (fun p0 p1 => small p0 p1 = false) (Some T) (arrivals l) (arrivals k) /\
        points (map_ (fold_left callback l (Builder Pose Point (append Point (map_ b) (transform_cloud T (Cloud d (p :: pts)))) T))) =
        points (map_ b) ++ concat (map (fun m => map (move (dense (snd m)) (fst m)) (points (snd m))) ((T, Cloud d (p :: pts)) :: k)) /\ (forall m, In m k -> In m l)).
      { intros _ _. destruct (IH (Builder Pose Point (append Point (map_ b) (transform_cloud T (Cloud d (p :: pts)))) T) (Some T)) as [k [K1 [K2 K3]]].
        { cbn. split; auto. destruct (points (map_ b)); discriminate. }
        exists k. split; auto. split; auto. rewrite K2. cbn [map concat map_ append transform_cloud points dense fst snd].
        rewrite <- app_assoc. reflexivity. }
      specialize (ACC l eq_refl).
      destruct lst as [T0|].
      * destruct Hb as [Hb HT]. assert (EE : map_empty Pose Point b = false) by (unfold map_empty; destruct (points (map_ b)); [congruence|reflexivity]).
        rewrite EE. cbn [negb andb]. rewrite HT. destruct (small T0 T) eqn:ES.
        -- destruct (IH b (Some T0) (conj Hb HT)) as [k [K1 [K2 K3]]]. exists k. split; [|split; auto; intros m Hm; right; auto].
           cbn. apply kf_near; auto. congruence.
        -- destruct ACC as [k [K1 [K2 K3]]]. exists ((T, Cloud d (p :: pts)) :: k). split; [cbn; apply kf_far; auto|].
           split; auto. intros m [<-|Hm]; [left; auto|right; auto].
      * assert (EE : map_empty Pose Point b = true) by (unfold map_empty; rewrite Hb; reflexivity).
        rewrite EE. cbn [negb andb]. destruct ACC as [k [K1 [K2 K3]]]. exists ((T, Cloud d (p :: pts)) :: k).
        split; [cbn; apply kf_first; auto|]. split; auto. intros m [<-|Hm]; [left; auto|right; auto].
Qed.
End Builder.
End Clouds.

(** Key frames under another description of "far". *)
Lemma key_frames_iff {Pose Point : Type} (f g : Pose -> Pose -> Prop) last (l k : list (Pose * list Point)) :
  (forall p0 p1, (last = Some p0 \/ In p0 (map fst l)) -> In p1 (map fst l) -> (f p0 p1 <-> g p0 p1)) ->
  key_frames f last l k -> key_frames g last l k.
Proof.
  intros H K. induction K as [last|last T l k K IH|T p ps l k K IH|T0 T p ps l k Hf K IH|T0 T p ps l k Hf K IH].
  - constructor.
  - constructor. apply IH. intros p0 p1 [E|E] H1; apply H; cbn; auto.
  - constructor. apply IH. intros p0 p1 [E|E] H1; apply H; cbn; auto. injection E as <-. auto.
  - apply kf_far; [apply H; cbn; auto|]. apply IH. intros p0 p1 [E|E] H1; apply H; cbn; auto. injection E as <-. auto.
  - apply kf_near; [intros Hg; apply Hf, H; cbn; auto|]. apply IH. intros p0 p1 [E|E] H1; apply H; cbn; auto.
Qed.
Lemma key_frames_far {Pose Point : Type} (far : Pose -> Pose -> Prop) last (l k : list (Pose * list Point)) :
  key_frames far last l k -> successive far ((match last with Some T => [T] | None => [] end) ++ map fst k) /\
  Forall (fun m => snd m <> []) k.
Proof.
  intros K. induction K as [last|last T l k K IH|T p ps l k K IH|T0 T p ps l k Hf K IH|T0 T p ps l k Hf K IH]; auto.
  - split; [destruct last; cbn; auto|constructor].
  - destruct IH as [I1 I2]. split; [exact I1|]. constructor; auto. discriminate.
  - destruct IH as [I1 I2]. split; [cbn [map app fst] in *; split; [auto|exact I1]|]. constructor; auto. discriminate.
Qed.
Lemma key_frames_none {Pose Point : Type} (far : Pose -> Pose -> Prop) (l k : list (Pose * list Point)) :
  key_frames far None l k -> (k = [] <-> Forall (fun m => snd m = []) l).
Proof.
  intros K. remember None as o. induction K as [last|last T l k K IH|T p ps l k K IH|T0 T p ps l k Hf K IH|T0 T p ps l k Hf K IH]; try discriminate.
  - split; auto.
  - rewrite (IH Heqo). split; [constructor; auto|]. intros H. inversion H. auto.
  - split; [discriminate|]. intros H. inversion H as [|? ? H1]. discriminate H1.
Qed.

Open Scope R_scope.
Lemma rotation_between a b : is_rotation a -> is_rotation b -> is_rotation (mmul3 (transpose3 a) b).
Proof.
  intros Ha Hb. destruct (rotation_rows a Ha) as [R1 [R2 [R3 [R4 [R5 R6]]]]]. destruct (rotation_cols b Hb) as [K1 [K2 [K3 [K4 [K5 K6]]]]].
  destruct Ha as [_ Da], Hb as [_ Db].
  destruct a as [a00 a01 a02 a10 a11 a12 a20 a21 a22], b as [b00 b01 b02 b10 b11 b12 b20 b21 b22].
  unfold det3 in *. cbn [m00 m01 m02 m10 m11 m12 m20 m21 m22] in *. split.
  - assert (G : forall u0 u1 u2 v0 v1 v2,
      (a00*u0 + a10*u1 + a20*u2) * (a00*v0 + a10*v1 + a20*v2) + (a01*u0 + a11*u1 + a21*u2) * (a01*v0 + a11*v1 + a21*v2) + (a02*u0 + a12*u1 + a22*u2) * (a02*v0 + a12*v1 + a22*v2)
      = u0*v0 + u1*v1 + u2*v2).
    { intros. transitivity ((a00*a00+a01*a01+a02*a02)*(u0*v0) + (a10*a10+a11*a11+a12*a12)*(u1*v1) + (a20*a20+a21*a21+a22*a22)*(u2*v2)
        + (a00*a10+a01*a11+a02*a12)*(u0*v1+u1*v0) + (a00*a20+a01*a21+a02*a22)*(u0*v2+u2*v0) + (a10*a20+a11*a21+a12*a22)*(u1*v2+u2*v1)); [ring|].
      rewrite R1, R2, R3, R4, R5, R6. ring. }
    apply mat3_ext; unfold mmul3, transpose3, id3; cbn [m00 m01 m02 m10 m11 m12 m20 m21 m22]; rewrite G; lra.
  - unfold det3, mmul3, transpose3; cbn [m00 m01 m02 m10 m11 m12 m20 m21 m22].
    transitivity ((a00 * (a11 * a22 - a12 * a21) - a01 * (a10 * a22 - a12 * a20) + a02 * (a10 * a21 - a11 * a20)) *
      (b00 * (b11 * b22 - b12 * b21) - b01 * (b10 * b22 - b12 * b20) + b02 * (b10 * b21 - b11 * b20))); [ring|]. rewrite Da, Db. ring.
Qed.

Lemma rotation_half_angle M : is_rotation M -> exists a, turns_by a M /\ vnorm (qvec (quat_of M)) = sin (a / 2).
Proof.
  intros HM. destruct (quat_of_ok M HM) as [U E]. set (q := quat_of M) in *. clearbody q.
  destruct q as [w x y z]. unfold unit, qnorm2 in U. cbn [qw qx qy qz] in U.
  set (s := x * x + y * y + z * z). assert (Hs : 0 <= s <= 1) by (unfold s; nra).
  assert (EN : vnorm (qvec (Qn w x y z)) = sqrt s) by reflexivity.
  assert (TR : m00 M + m11 M + m22 M = 3 - 4 * s) by (rewrite <- E; unfold s; vcbn; ring).
  assert (SQ : 0 <= sqrt s <= 1) by (split; [apply sqrt_pos|rewrite <- sqrt_1; apply sqrt_le_1; lra]).
  pose proof (asin_bound (sqrt s)) as AB.
  assert (A0 : 0 <= asin (sqrt s)).
  { destruct (Rle_lt_dec 0 (asin (sqrt s))) as [|N]; auto. exfalso. pose proof PI_RGT_0.
    assert (sin (asin (sqrt s)) < 0) by (apply sin_lt_0_var; lra). rewrite sin_asin in H0 by lra. lra. }
  exists (2 * asin (sqrt s)). replace (2 * asin (sqrt s) / 2) with (asin (sqrt s)) by field.
  rewrite sin_asin by lra. split; [|auto]. split; [lra|].
  rewrite cos_2a_sin, sin_asin by lra. rewrite TR.
  replace (1 - 2 * sqrt s * sqrt s) with (1 - 2 * (sqrt s * sqrt s)) by ring. rewrite sqrt_sqrt by lra. ring.
Qed.
Lemma turns_unique a b M : turns_by a M -> turns_by b M -> a = b.
Proof. intros [H1 H2] [H3 H4]. apply cos_inj; lra. Qed.

Lemma pose_diff_far p0 p1 : is_rotation (lin p0) -> is_rotation (lin p1) -> (pose_diff_small p0 p1 = false <-> far_apart p0 p1).
Proof.
  intros H0 H1. destruct (rotation_half_angle _ (rotation_between _ _ H0 H1)) as [a [TA EA]].
  assert (EL : lin (compose (inverse p0) p1) = mmul3 (transpose3 (lin p0)) (lin p1)) by reflexivity.
  assert (ET : vnorm (tra (compose (inverse p0) p1)) = vnorm (vsub (tra p1) (tra p0))).
  { unfold vnorm. f_equal. destruct (rotation_rows _ H0) as [R1 [R2 [R3 [R4 [R5 R6]]]]].
    unfold compose, inverse. cbn [tra lin]. destruct (lin p0) as [a00 a01 a02 a10 a11 a12 a20 a21 a22], (tra p0) as [u0 u1 u2], (tra p1) as [v0 v1 v2].
    cbn [m00 m01 m02 m10 m11 m12 m20 m21 m22] in *. vcbn.
    set (d0 := v0 - u0). set (d1 := v1 - u1). set (d2 := v2 - u2).
    transitivity ((a00*a00+a01*a01+a02*a02)*(d0*d0) + (a10*a10+a11*a11+a12*a12)*(d1*d1) + (a20*a20+a21*a21+a22*a22)*(d2*d2)
        + 2*(a00*a10+a01*a11+a02*a12)*(d0*d1) + 2*(a00*a20+a01*a21+a02*a22)*(d0*d2) + 2*(a10*a20+a11*a21+a12*a22)*(d1*d2)).
    - unfold d0, d1, d2. ring.
    - rewrite R1, R2, R3, R4, R5, R6. ring. }
  unfold pose_diff_small. cbv zeta. rewrite EL, EA, ET. unfold far_apart. rewrite andb_false_iff.
  split.
  - intros [H|H]; apply rltb_false in H; [left; auto|]. right. exists a. auto.
  - intros [H|[b [TB H]]].
    + left. destruct (Rltb _ _) eqn:E; auto. apply Rltb_spec in E. lra.
    + right. rewrite (turns_unique _ _ _ TB TA) in H. destruct (Rltb _ _) eqn:E; auto. apply Rltb_spec in E. lra.
Qed.

(** Sums. *)
Lemma fold_sum (l : list R) a : fold_left Rplus l a = a + fold_right Rplus 0 l.
Proof. revert a. induction l as [|x l IH]; intros a; cbn [fold_left fold_right]; [ring|]. rewrite IH. ring. Qed.
Lemma coordinate_mean (l : list R) : (0 < zlen l < 2 ^ 32)%Z -> coordinate exact l = mean l.
Proof.
  intros H. unfold coordinate. change (F exact) with R. rewrite Z.mod_small by lia. unfold zlen in *. rewrite Nat2Z.id, firstn_all.
  change (d_div exact) with Rdiv. change (d_of_Z exact) with IZR. change (d_add exact) with Rplus. change (f2d exact) with (fun x : R => x).
  unfold mean. rewrite INR_IZR_INZ. f_equal. etransitivity; [apply fold_sum|apply Rplus_0_l].
Qed.
Lemma mean_shift c (l : list R) : l <> [] -> mean (map (Rplus c) l) = c + mean l.
Proof.
  intros H. unfold mean. rewrite map_length.
  assert (S : fold_right Rplus 0 (map (Rplus c) l) = INR (length l) * c + fold_right Rplus 0 l).
  { clear H. induction l as [|x l IH]; [cbn [length map fold_right INR]; ring|]. cbn [length map fold_right]. rewrite S_INR, IH. ring. }
  rewrite S. field. apply not_0_INR. destruct l; [congruence|discriminate].
Qed.
