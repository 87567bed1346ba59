(** Properties C108 to C110: messages, maps built from messages, standard deviation. *)
From Coq Require Import List ZArith Bool Lia Lra Reals String PeanoNat.
From Flocq Require Import Core IEEE754.BinarySingleNaN.
From Verif Require FloatLemmas.
From Verif Require Import Base Arith PoseModel SpecPose LibModel MapModel SpecMap AngleProofs RotProofs MapProofs Prop_Map MsgModel SpecMsg.
Import ListNotations.
Open Scope R_scope.

(** ** C108 *)
Lemma rotation_opp q : to_rotation (qopp q) = to_rotation q.
Proof. destruct q as [w x y z]. unfold qopp. cbn [qw qx qy qz]. unfold to_rotation. apply mat3_ext; cbn [m00 m01 m02 m10 m11 m12 m20 m21 m22]; ring. Qed.
Lemma rotation_sign f q : up_to_sign f -> to_rotation (f q) = to_rotation q.
Proof. intros H. destruct (H q) as [-> | ->]; auto. apply rotation_opp. Qed.
(** Unit quaternions with the same matrix are equal up to sign. *)
Lemma rotation_inj p q : unit p -> unit q -> to_rotation p = to_rotation q -> p = q \/ p = qopp q.
Proof.
  destruct p as [a b c d], q as [w x y z]. unfold unit, qnorm2, to_rotation. cbn [qw qx qy qz]. intros Hp Hq E.
  injection E as E00 E01 E02 E10 E11 E12 E20 E21 E22.
  assert (Aww : a * a = w * w) by lra. assert (Axx : b * b = x * x) by lra. assert (Ayy : c * c = y * y) by lra. assert (Azz : d * d = z * z) by lra.
  assert (Awx : a * b = w * x) by lra. assert (Awy : a * c = w * y) by lra. assert (Awz : a * d = w * z) by lra.
  assert (Axy : b * c = x * y) by lra. assert (Axz : b * d = x * z) by lra. assert (Ayz : c * d = y * z) by lra.
  set (s := a * w + b * x + c * y + d * z).
  assert (S : s * s = 1).
  { unfold s. transitivity ((a*a)*(w*w) + (b*b)*(x*x) + (c*c)*(y*y) + (d*d)*(z*z) + 2 * ((a*b)*(w*x) + (a*c)*(w*y) + (a*d)*(w*z) + (b*c)*(x*y) + (b*d)*(x*z) + (c*d)*(y*z))); [ring|].
    rewrite Aww, Axx, Ayy, Azz, Awx, Awy, Awz, Axy, Axz, Ayz.
    transitivity ((w*w + x*x + y*y + z*z) * (w*w + x*x + y*y + z*z)); [ring|]. rewrite Hq. ring. }
  assert (Ea : a = s * w). { unfold s. transitivity (a * (w*w + x*x + y*y + z*z)); [rewrite Hq; ring|]. rewrite <- Aww, <- Axx, <- Ayy, <- Azz. 
    transitivity ((a*a)*a + (a*b)*b + (a*c)*c + (a*d)*d); [ring|]. rewrite Aww, Awx, Awy, Awz. ring. }
  assert (Eb : b = s * x). { unfold s. transitivity (b * (a*a + b*b + c*c + d*d)); [rewrite Hp; ring|].
    transitivity ((a*b)*a + (b*b)*b + (b*c)*c + (b*d)*d); [ring|]. rewrite Awx, Axx, Axy, Axz. ring. }
  assert (Ec : c = s * y). { unfold s. transitivity (c * (a*a + b*b + c*c + d*d)); [rewrite Hp; ring|].
    transitivity ((a*c)*a + (b*c)*b + (c*c)*c + (c*d)*d); [ring|]. rewrite Awy, Axy, Ayy, Ayz. ring. }
  assert (Ed : d = s * z). { unfold s. transitivity (d * (a*a + b*b + c*c + d*d)); [rewrite Hp; ring|].
    transitivity ((a*d)*a + (b*d)*b + (c*d)*c + (d*d)*d); [ring|]. rewrite Awz, Axz, Ayz, Azz. ring. }
  clearbody s. assert (S' : (s - 1) * (s + 1) = 0) by lra.
  apply Rmult_integral in S'. destruct S' as [S'|S'].
  - left. assert (s = 1) by lra. subst s. rewrite Rmult_1_l in *. congruence.
  - right. assert (s = -1) by lra. subst s. unfold qopp. cbn [qw qx qy qz]. rewrite Ea, Eb, Ec, Ed. f_equal; ring.
Qed.

(** A rigid pose comes back from its message as it was, with any header and covariance. *)
Theorem C108_pose_round_trip sign T : up_to_sign sign -> is_rotation (lin T) ->
  get_isometry (make_pose_msg sign T) = T /\
  (forall t f, let m := make_pose_stamped sign T t f in
     stamp (fst m) = t /\ frame_id (fst m) = f /\ get_isometry (snd m) = T) /\
  (forall t f child, let m := make_transform_stamped sign T t f child in
     stamp (fst (fst m)) = t /\ frame_id (fst (fst m)) = f /\ snd (fst m) = child /\ get_isometry (snd m) = T) /\
  (forall C t f, let m := make_pose_with_covariance_stamped sign T C t f in
     stamp (fst m) = t /\ frame_id (fst m) = f /\ get_isometry (fst (snd m)) = T /\
     List.length (snd (snd m)) = 36%nat /\
     forall i j, (i < 6)%nat -> (j < 6)%nat -> nth (6 * i + j) (snd (snd m)) 0 = C i j).
Proof.
  intros HS HR.
  assert (G : get_isometry (make_pose_msg sign T) = T).
  { unfold get_isometry, make_pose_msg, make_pose. cbn [orientation position]. rewrite rotation_sign by auto.
    rewrite (proj2 (quat_of_ok _ HR)). destruct T; auto. }
  split; [exact G|]. split; [intros; repeat split; exact G|]. split; [intros; repeat split; exact G|].
  intros C t f m. split; [reflexivity|]. split; [reflexivity|]. split; [exact G|]. split; [reflexivity|].
  intros i j Hi Hj. do 6 (destruct i as [|i]; [do 6 (destruct j as [|j]; [reflexivity|]); lia|]). lia.
Qed.
Print Assumptions C108_pose_round_trip.
(** A message with a unit quaternion comes back with the same position and the same
    quaternion up to sign. *)
Theorem C108_message_round_trip sign m : up_to_sign sign -> unit (orientation m) ->
  let m' := make_pose_msg sign (get_isometry m) in
  position m' = position m /\ (orientation m' = orientation m \/ orientation m' = qopp (orientation m)).
Proof.
  intros HS HU m'. split; [reflexivity|]. subst m'. unfold make_pose_msg, get_isometry, make_pose. cbn [orientation lin].
  destruct (quat_of_ok _ (to_rotation_is_rotation _ HU)) as [U E].
  assert (OO : forall q, qopp (qopp q) = q) by (intros [qa qb qc qd]; unfold qopp; cbn [qw qx qy qz]; f_equal; ring).
  destruct (rotation_inj _ _ U HU E) as [EQ|EQ]; destruct (HS (quat_of (to_rotation (orientation m)))) as [-> | ->]; rewrite EQ; auto.
Qed.
Print Assumptions C108_message_round_trip.
(** A half turn about y: the matrix has no positive trace; the message holds the opposite
    quaternion if the conversion negates. *)
Example C108_case : up_to_sign qopp /\ is_rotation (M3 (-1) 0 0 0 1 0 0 0 (-1)) /\
  orientation (make_pose_msg qopp (Iso (M3 (-1) 0 0 0 1 0 0 0 (-1)) (V3 1 2 3))) = Qn (-0) (-0) (-1) (-0) /\
  unit (Qn (3/5) 0 0 (4/5)).
Proof.
  split; [intros q; auto|]. assert (H : is_rotation (M3 (-1) 0 0 0 1 0 0 0 (-1))).
  { split; [apply mat3_ext; vcbn; ring|unfold det3; vcbn; ring]. }
  split; [exact H|]. split.
  - unfold make_pose_msg. cbn [orientation lin]. unfold quat_of. cbn [m00 m01 m02 m10 m11 m12 m20 m21 m22].
    unfold Rltb. repeat (destruct (Rlt_dec _ _); try lra).
    unfold qopp. cbn [qw qx qy qz]. replace (1 - -1 - -1 + 1) with (2 * 2) by ring. rewrite sqrt_square by lra. f_equal; field.
  - unfold unit, qnorm2. cbn [qw qx qy qz]. lra.
Qed.

(** ** C109 *)
Lemma dot_moved q u : vdot (mapply (to_rotation q) u) (mapply (to_rotation q) u) =
  vdot u u + 4 * (qnorm2 q - 1) * vdot (vcross (qvec q) u) (vcross (qvec q) u).
Proof. destruct q as [w x y z], u as [a b c]. unfold to_rotation, mapply, vdot, vcross, qnorm2, qvec. cbn [qw qx qy qz vx vy vz m00 m01 m02 m10 m11 m12 m20 m21 m22]. ring. Qed.
Lemma moved_difference T a b : vsub (transform T a) (transform T b) = mapply (lin T) (vsub a b).
Proof. destruct T as [[] []], a, b. apply vec_ext; vcbn; ring. Qed.
Lemma dot_nonneg u : 0 <= vdot u u.
Proof. unfold vdot. pose proof (Rle_0_sqr (vx u)). pose proof (Rle_0_sqr (vy u)). pose proof (Rle_0_sqr (vz u)). unfold Rsqr in *. lra. Qed.
Lemma norm_square u : vnorm u * vnorm u = vdot u u.
Proof. unfold vnorm. apply sqrt_sqrt, dot_nonneg. Qed.
Lemma dist_nonneg a b : 0 <= dist a b.
Proof. apply sqrt_pos. Qed.

(** What the pose of a message does to distances, for every quaternion. *)
Theorem C109_distances m a b :
  let T := get_isometry m in let q := orientation m in
  dist (transform T a) (transform T b) ^ 2 =
  dist a b ^ 2 + 4 * (qnorm2 q - 1) * vnorm (vcross (qvec q) (vsub a b)) ^ 2.
Proof.
  intros T q. unfold dist. rewrite moved_difference. unfold T, get_isometry, make_pose. cbn [lin]. fold q.
  rewrite <- !Rsqr_pow2. unfold Rsqr. rewrite !norm_square. apply dot_moved.
Qed.
Print Assumptions C109_distances.
(** Only unit quaternions, and those without a vector part, keep distances. *)
Theorem C109_rigid_iff m :
  (forall a b, dist (transform (get_isometry m) a) (transform (get_isometry m) b) = dist a b) <->
  unit (orientation m) \/ qvec (orientation m) = V3 0 0 0.
Proof.
  split.
  - intros H. destruct m as [p [w x y z]]. unfold unit, qnorm2, qvec. cbn [orientation qw qx qy qz].
    destruct (Req_dec (w * w + x * x + y * y + z * z) 1) as [E|E]; [left; exact E|right].
    assert (Z : forall a, vdot (vcross (V3 x y z) a) (vcross (V3 x y z) a) = 0).
    { intros a. pose proof (C109_distances (PoseMsg p (Qn w x y z)) a (V3 0 0 0)) as D. cbn zeta in D. rewrite H in D.
      assert (EA : vsub a (V3 0 0 0) = a) by (destruct a; apply vec_ext; vcbn; ring). rewrite EA in D. rewrite <- Rsqr_pow2 in D. rewrite <- (Rsqr_pow2 (vnorm _)) in D. unfold Rsqr in D. rewrite norm_square in D.
      unfold qnorm2, qvec in D. cbn [orientation qw qx qy qz] in D.
      assert (D' : (w * w + x * x + y * y + z * z - 1) * vdot (vcross (V3 x y z) a) (vcross (V3 x y z) a) = 0) by lra.
      apply Rmult_integral in D'. destruct D' as [D'|D']; [exfalso; apply E; lra|exact D']. }
    pose proof (Z (V3 1 0 0)) as Z1. pose proof (Z (V3 0 1 0)) as Z2. unfold vdot, vcross in Z1, Z2. cbn [vx vy vz] in Z1, Z2.
    assert (Hx : x = 0) by nra. assert (Hy : y = 0) by nra. assert (Hz : z = 0) by nra. subst. reflexivity.
  - intros H a b. pose proof (C109_distances m a b) as D. cbn zeta in D.
    assert (Z : 4 * (qnorm2 (orientation m) - 1) * vnorm (vcross (qvec (orientation m)) (vsub a b)) ^ 2 = 0).
    { destruct H as [U|V].
      - rewrite U. ring.
      - rewrite V. replace (vcross (V3 0 0 0) (vsub a b)) with (V3 0 0 0) by (apply vec_ext; vcbn; ring).
        unfold vnorm, vdot. cbn [vx vy vz]. replace (0 * 0 + 0 * 0 + 0 * 0) with 0 by ring. rewrite sqrt_0. ring. }
    rewrite Z, Rplus_0_r in D. rewrite <- !Rsqr_pow2 in D. apply Rsqr_inj; auto using dist_nonneg.
Qed.
Print Assumptions C109_rigid_iff.
Lemma moved_shape m l : unit (orientation m) -> same_shape l (map (transform (get_isometry m)) l).
Proof.
  intros U. split; [rewrite map_length; auto|]. intros i j a b a' b' Ha Hb Ha' Hb'.
  rewrite nth_error_map in Ha', Hb'. rewrite Ha in Ha'. rewrite Hb in Hb'. cbn in Ha', Hb'. injection Ha' as <-. injection Hb' as <-.
  apply C109_rigid_iff; auto.
Qed.
(** With unit quaternions the map consists of undistorted scans. *)
Theorem C109_undistorted_partial indeterminate l : (forall m, In m l -> unit (orientation (fst m))) ->
  exists (k : list (pose_msg * cloud vec)) parts, (forall m, In m k -> In m l) /\
    points (map_ (build_map indeterminate l)) = concat parts /\
    Forall2 (fun m part => same_shape (points (snd m)) part) k parts.
Proof.
  intros HU. unfold build_map.
  destruct (C54_key_frames vec (fun _ => transform) indeterminate (map (fun m => (get_isometry (fst m), snd m)) l)) as [k [_ [K2 [K3 _]]]].
  - intros m Hm. apply in_map_iff in Hm. destruct Hm as [m0 [<- I]]. cbn [fst]. apply to_rotation_is_rotation, HU, I.
  - rewrite K2. clear K2.
    assert (G : exists k' : list (pose_msg * cloud vec), map (fun m => (get_isometry (fst m), snd m)) k' = k /\ forall m, In m k' -> In m l).
    { induction k as [|m k IH]; [exists []; split; [reflexivity|intros m []]|].
      destruct IH as [k' [E I]]; [intros; apply K3; right; auto|]. destruct (K3 m (or_introl eq_refl)) as [J _].
      apply in_map_iff in J. destruct J as [m0 [Em J]]. exists (m0 :: k'). split; [cbn [map]; rewrite Em, E; auto|].
      intros m1 [<-|H]; auto. }
    destruct G as [k' [<- I]]. exists k'. eexists. split; [exact I|]. split; [rewrite map_map; reflexivity|].
    clear K3. induction k' as [|m k' IH]; cbn [map]; constructor.
    + unfold contribution, seen_from. cbn [fst snd]. apply moved_shape, HU, I. left; auto.
    + apply IH. intros; apply I; right; auto.
Qed.
Print Assumptions C109_undistorted_partial.
(** A quarter turn about z whose quaternion (1, 0, 0, 1) was not normalised: two points a
    metre apart are more than two metres apart in the map. *)
Definition two_points : cloud vec := Cloud true [V3 0 0 0; V3 1 0 0].
Theorem C109_distorted_refuted indeterminate :
  points (map_ (build_map indeterminate [(PoseMsg (V3 0 0 0) (Qn 1 0 0 1), two_points)])) = [V3 0 0 0; V3 (-1) 2 0] /\
  dist (V3 0 0 0) (V3 1 0 0) = 1 /\ 2 < dist (V3 0 0 0) (V3 (-1) 2 0) /\
  ~ same_shape (points two_points) (points (map_ (build_map indeterminate [(PoseMsg (V3 0 0 0) (Qn 1 0 0 1), two_points)]))).
Proof.
  assert (E : points (map_ (build_map indeterminate [(PoseMsg (V3 0 0 0) (Qn 1 0 0 1), two_points)])) = [V3 0 0 0; V3 (-1) 2 0]).
  { unfold build_map, builder_run. cbn. f_equal; [|f_equal]; apply vec_ext; cbn; ring. }
  assert (D1 : dist (V3 0 0 0) (V3 1 0 0) = 1).
  { unfold dist, vnorm, vdot, vsub. cbn [vx vy vz]. replace ((0 - 1) * (0 - 1) + (0 - 0) * (0 - 0) + (0 - 0) * (0 - 0)) with (1 * 1) by ring. apply sqrt_square. lra. }
  assert (D2 : 2 < dist (V3 0 0 0) (V3 (-1) 2 0)).
  { unfold dist, vnorm, vdot, vsub. cbn [vx vy vz]. rewrite <- (sqrt_square 2) at 1 by lra. apply sqrt_lt_1; lra. }
  split; [exact E|]. split; [exact D1|]. split; [exact D2|].
  rewrite E. intros [_ H]. specialize (H 0%nat 1%nat _ _ _ _ eq_refl eq_refl eq_refl eq_refl). lra.
Qed.
Print Assumptions C109_distorted_refuted.
(** Two scans with unit quaternions, both in the map. *)
Example C109_case : let l := [(PoseMsg (V3 0 0 0) (Qn (3/5) 0 0 (4/5)), two_points); (PoseMsg (V3 5 0 0) (Qn 1 0 0 0), two_points)] in
  (forall m, In m l -> unit (orientation (fst m))) /\
  List.length (points (map_ (build_map (Iso id3 (V3 0 0 0)) l))) = 4%nat.
Proof.
  intros l. split.
  - intros m [<-|[<-|[]]]; unfold unit, qnorm2; cbn [fst orientation qw qx qy qz]; lra.
  - unfold build_map, builder_run, l. cbn [map fold_left fst snd]. unfold builder_callback at 2. cbn [points two_points List.length Nat.eqb builder_init map_empty map_ empty_cloud negb andb].
    unfold builder_callback. cbn [points two_points List.length Nat.eqb map_empty map_ append transform_cloud empty_cloud app map negb andb prev].
    assert (P : pose_diff_small (get_isometry (PoseMsg (V3 0 0 0) (Qn (3 / 5) 0 0 (4 / 5)))) (get_isometry (PoseMsg (V3 5 0 0) (Qn 1 0 0 0))) = false).
    { unfold pose_diff_small. replace (Rltb (vnorm (tra _)) 1) with false; auto. symmetry. unfold Rltb. destruct (Rlt_dec _ _) as [L|L]; auto. exfalso. revert L. apply Rle_not_lt.
      unfold vnorm. rewrite <- sqrt_1. apply sqrt_le_1; [lra|apply dot_nonneg|].
      unfold get_isometry, make_pose, inverse, compose. unfold to_rotation, vdot, vadd, vscale, mapply. cbn [position orientation lin tra vx vy vz m00 m01 m02 m10 m11 m12 m20 m21 m22]. lra. }
    rewrite P. reflexivity.
Qed.

(** ** C110 *)
Definition total (v : list R) : R := fold_right Rplus 0 v.
Lemma sum_exact v : v <> [] -> sum_entries exact v = Ok (total v).
Proof.
  destruct v as [|x l]; [congruence|]. intros _. cbn [sum_entries]. f_equal.
  assert (G : forall l x, fold_left (d_add exact) l x = x + total l).
  { clear. unfold total. induction l as [|y l IH]; intros x; cbn [fold_left fold_right]; [cbn; apply (eq_sym (Rplus_0_r x))|].
    rewrite IH. cbn. apply Rplus_assoc. }
  rewrite G. reflexivity.
Qed.
Lemma total_affine (f : R -> R) a b c v : (forall x, f x = a * (x * x) + b * x + c) ->
  total (map f v) = a * total (map (fun x => x * x) v) + b * total v + c * INR (List.length v).
Proof.
  intros H. unfold total. induction v as [|x v IH]; [cbn; ring|]. cbn [map fold_right List.length]. rewrite IH, H, S_INR. ring.
Qed.
Lemma pair_sum_moments v : pair_sum v = 2 * INR (List.length v) * total (map (fun x => x * x) v) - 2 * (total v * total v).
Proof.
  change (pair_sum v) with (total (map (fun x => total (map (fun y => (x - y) * (x - y)) v)) v)).
  assert (E : forall x, total (map (fun y => (x - y) * (x - y)) v) = INR (List.length v) * (x * x) + (- 2 * total v) * x + total (map (fun x => x * x) v)).
  { intros x. rewrite (total_affine _ 1 (- 2 * x) (x * x)); [ring|]. intros y. ring. }
  rewrite (total_affine _ (INR (List.length v)) (- 2 * total v) (total (map (fun x => x * x) v)) v E). ring.
Qed.
Lemma pair_sum_nonneg v : 0 <= pair_sum v.
Proof.
  assert (G : forall (f : R -> R) l, (forall x, 0 <= f x) -> 0 <= fold_right Rplus 0 (map f l)).
  { intros f l H. induction l as [|x l IH]; cbn; [lra|]. specialize (H x). lra. }
  apply G. intros x. apply G. intros y. apply Rle_0_sqr.
Qed.
(** The square of the result is the mean of the squared differences of two of the values,
    halved. *)
Theorem C110_standard_deviation v : (2 <= List.length v)%nat ->
  exists s, sample_standard_deviation exact v = Ok s /\ 0 <= s /\
    s * s = pair_sum v / (2 * INR (List.length v) * (INR (List.length v) - 1)).
Proof.
  intros HL. unfold sample_standard_deviation. assert (NE : v <> []) by (destruct v; cbn in HL; [lia|congruence]).
  rewrite sum_exact by auto. cbn [bind]. rewrite sum_exact by (destruct v; [congruence|discriminate]). cbn [bind].
  eexists. split; [reflexivity|]. split; [apply sqrt_pos|].
  assert (N : 1 < INR (List.length v)) by (apply (lt_INR 1); lia).
  assert (EN : IZR (zlen v) = INR (List.length v)) by (unfold zlen; symmetry; apply INR_IZR_INZ).
  cbn [d_sqrt d_div d_sub d_mul d_of_Z exact]. rewrite EN.
  assert (EQ : total (map (fun x => (x - total v / INR (List.length v)) * (x - total v / INR (List.length v))) v) / (INR (List.length v) - 1)
    = pair_sum v / (2 * INR (List.length v) * (INR (List.length v) - 1))).
  { rewrite pair_sum_moments. set (m := total v / INR (List.length v)).
    rewrite (total_affine _ 1 (- 2 * m) (m * m)); [|intros; ring]. unfold m. set (n := INR _) in *. set (S2 := total (map _ _)). set (S1 := total v). field. lra. }
  match goal with |- sqrt ?a * sqrt ?a = _ => change (sqrt (total (map (fun x => (x - total v / INR (List.length v)) * (x - total v / INR (List.length v))) v) / (INR (List.length v) - 1)) * sqrt (total (map (fun x => (x - total v / INR (List.length v)) * (x - total v / INR (List.length v))) v) / (INR (List.length v) - 1)) = pair_sum v / (2 * INR (List.length v) * (INR (List.length v) - 1))) end.
  rewrite EQ. apply sqrt_sqrt. apply Rmult_le_pos; [apply pair_sum_nonneg|]. apply Rlt_le, Rinv_0_lt_compat. nra.
Qed.
Print Assumptions C110_standard_deviation.
(** In doubles a single value gives a not-a-number, whatever the value. *)
Theorem C110_single_value_refuted acos (x : b64) : is_finite x = true ->
  exists s, sample_standard_deviation (ieee acos) [x] = Ok s /\ is_nan s = true.
Proof.
  intros HF. unfold sample_standard_deviation. cbn [sum_entries map bind fold_left]. eexists. split; [reflexivity|].
  cbn [d_sqrt d_div d_sub d_mul d_of_Z ieee].
  change (zlen _) with 1%Z.
  assert (D : exists s, sub64 x (div64 x (of_Z64 1)) = B754_zero s).
  { assert (EQ : B2R (div64 x (of_Z64 1)) = B2R x /\ is_finite (div64 x (of_Z64 1)) = true).
    { assert (ONE : B2R (of_Z64 1) = 1) by (destruct (FloatLemmas.of_Z64_ok 1) as [H _]; [lia|exact H]).
      pose proof (Bdiv_correct 53 1024 prec64 emax64 mode_NE x (of_Z64 1)) as H. rewrite ONE in H.
      specialize (H ltac:(lra)). unfold Rdiv in H. rewrite Rinv_1, Rmult_1_r in H.
      rewrite round_generic in H; [|apply valid_rnd_round_mode|apply generic_format_B2R].
      rewrite Rlt_bool_true in H by apply abs_B2R_lt_emax. destruct H as [H1 [H2 _]]. split; [exact H1|]. rewrite <- HF. exact H2. }
    destruct EQ as [E1 E2]. pose proof (Bminus_correct 53 1024 prec64 emax64 mode_NE x (div64 x (of_Z64 1)) HF E2) as H.
    rewrite E1, Rminus_diag_eq, round_0, Rabs_R0 in H; [|apply valid_rnd_round_mode|reflexivity].
    rewrite Rlt_bool_true in H by apply bpow_gt_0. destruct H as [H1 [H2 _]]. fold sub64 in H1, H2.
    change (B2R (sub64 x (div64 x (of_Z64 1))) = 0) in H1. change (is_finite (sub64 x (div64 x (of_Z64 1))) = true) in H2.
    destruct (sub64 x (div64 x (of_Z64 1))) as [s|s| |s m e p]; try discriminate H2; [eauto|].
    exfalso. revert H1. cbn. apply Rmult_integral_contrapositive. split; [|apply Rgt_not_eq, bpow_gt_0].
    intros Z0. apply eq_IZR in Z0. destruct s; discriminate Z0. }
  destruct D as [s ->]. destruct s; reflexivity.
Qed.
Print Assumptions C110_single_value_refuted.
Example C110_case : pair_sum [1; 2; 3] = 12 /\ (2 <= List.length [1; 2; 3])%nat /\ is_finite (of_Z64 5) = true.
Proof. split; [cbn; ring|]. split; [cbn; lia|reflexivity]. Qed.
(** In doubles three equal values can have a positive standard deviation: 0.1, 0.1, 0.1, in
    whatever order Eigen adds. *)
Theorem C110_equal_values_refuted acos : exists (x : b64) s, is_finite x = true /\
  sample_standard_deviation (ieee acos) [x; x; x] = Ok s /\ Bltb (B754_zero false : b64) s = true.
Proof. exists (of_me64 7205759403792794 (-56)). eexists. split; [reflexivity|]. split; [reflexivity|]. vm_compute. reflexivity. Qed.
Print Assumptions C110_equal_values_refuted.
