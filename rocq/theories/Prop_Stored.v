(** C134: points are stored where the poses put them, and C77 in doubles. *)
From Coq Require Import String List ZArith Reals Bool Lia Lra.
From Flocq Require Import Core IEEE754.BinarySingleNaN.
From Verif Require Import Base Arith PoseModel SpecIeee SpecMap MapModel RoundTripModel TransformModel SpecStored FloatLemmas AccuracyProofs StoredProofs MapProofs Prop_Map.
Import ListNotations.
Open Scope R_scope.

Section Stored.
Variable acosf : b64 -> b64.
Notation A := (ieee acosf).
Variable from_right : bool.
Notation message := ((dvec A * dquat A) * cloud (fpoint A))%type.
(** Messages with numbers of the given sizes. *)
Definition usual_message (a b : Z) (m : message) : Prop :=
  position_within acosf (bpow radix2 b) (fst (fst m)) /\ usual_quaternion acosf (snd (fst m)) /\
  forall p, In p (points (snd m)) -> point_within acosf (bpow radix2 a) p.
(** The part of the map that comes from a message. *)
Definition stored_part (rel abs : R) (m : message) (part : list (fpoint A)) : Prop :=
  Forall2 (fun p p' => stored_near acosf rel abs (belongs acosf (fst (fst m)) (snd (fst m)) p) p') (points (snd m)) part.

Lemma moved_part a b m : (0 <= a <= 100)%Z -> (0 <= b <= 100)%Z -> usual_message a b m ->
  stored_part (bpow radix2 (-24)) (bpow radix2 (Z.max (a + 7) b - 48)) m
    (map (d_move A from_right (is_finite (prec := 24) (emax := 128)) (dense (snd m)) (d_make_pose A (snd (fst m)) (fst (fst m)))) (points (snd m))).
Proof.
  intros Ha Hb (P & Q & I). unfold stored_part. revert I. induction (points (snd m)) as [|p l IH]; intros I; cbn [map]; constructor; [|apply IH; intros; apply I; right; assumption].
  pose proof (I p (or_introl eq_refl)) as W. unfold d_move. destruct W as ((F1 & F2 & F3) & W'). rewrite F1, F2, F3, orb_true_r. apply moved_near; auto. repeat split; auto; apply W'.
Qed.

(** ** Every point of the map is within half a unit in the last place of a float, and next to
    nothing, of where its message puts it; whatever the decisions about key frames. *)
Theorem C134_map_partial small indeterminate a b l : (0 <= a <= 100)%Z -> (0 <= b <= 100)%Z -> (forall m, In m l -> usual_message a b m) ->
  exists k parts, (forall m, In m k -> In m l) /\
    points (map_ (d_build_map A from_right (is_finite (prec := 24) (emax := 128)) small indeterminate l)) = concat parts /\
    Forall2 (stored_part (bpow radix2 (-24)) (bpow radix2 (Z.max (a + 7) b - 48))) k parts.
Proof.
  intros Ha Hb HU. unfold d_build_map, builder_run. set (f := fun m : message => (d_make_pose A (snd (fst m)) (fst (fst m)), snd m)).
  destruct (builder_parts (dpose A) (fpoint A) (d_move A from_right (is_finite (prec := 24) (emax := 128))) small (map f l) (builder_init (dpose A) (fpoint A) indeterminate)) as (k & K1 & ->).
  assert (G : exists k', map f k' = k /\ forall m, In m k' -> In m l).
  { clear - K1. induction k as [|m k IH]; [exists []; split; [reflexivity|intros m []]|].
    destruct IH as [k' [E I]]; [intros; apply K1; right; assumption|]. destruct (proj1 (in_map_iff _ _ _) (K1 m (or_introl eq_refl))) as [m0 [Em J]].
    exists (m0 :: k'). split; [cbn [map]; rewrite Em, E; reflexivity|]. intros m' [<-|Hm]; auto. }
  destruct G as (k' & <- & I). exists k'. eexists. split; [exact I|]. split; [cbn; reflexivity|].
  clear K1. induction k' as [|m k' IH]; cbn [map]; constructor; [|apply IH; intros; apply I; right; assumption].
  apply moved_part; auto. apply HU, I. left. reflexivity.
Qed.

(** The same for the scans accumulated by the localization package. *)
Theorem C134_accumulated_partial a b (l : list message) : (0 <= a <= 100)%Z -> (0 <= b <= 100)%Z -> (forall m, In m l -> usual_message a b m) ->
  exists parts, points (d_accumulated A from_right (is_finite (prec := 24) (emax := 128)) (map (fun m => (d_make_pose A (snd (fst m)) (fst (fst m)), snd m)) l)) = concat parts /\
    Forall2 (stored_part (bpow radix2 (-24)) (bpow radix2 (Z.max (a + 7) b - 48))) l parts.
Proof.
  intros Ha Hb HU. unfold d_accumulated. fold (after (dpose A) (fpoint A) (d_move A from_right (is_finite (prec := 24) (emax := 128))) (map (fun m : message => (d_make_pose A (snd (fst m)) (fst (fst m)), snd m)) l)).
  rewrite C51_all, map_map. eexists. split; [reflexivity|]. induction l as [|m l IH]; cbn [map]; constructor; [|apply IH; intros; apply HU; right; assumption].
  unfold contribution, seen_from. cbn [fst snd]. apply moved_part; auto. apply HU. left. reflexivity.
Qed.

(** ** Within eight kilometres of the origin that is half a millimetre. *)
Definition within_half_a_millimetre (x : vec) (p : fpoint A) : Prop :=
  Rabs (vx (real_point acosf p) - vx x) <= 5 / 10000 /\ Rabs (vy (real_point acosf p) - vy x) <= 5 / 10000 /\ Rabs (vz (real_point acosf p) - vz x) <= 5 / 10000.
Definition coordinates_within (M : R) (x : vec) : Prop := Rabs (vx x) <= M /\ Rabs (vy x) <= M /\ Rabs (vz x) <= M.
Theorem C134_near_the_origin_partial small indeterminate l : (forall m, In m l -> usual_message 8 13 m) ->
  (forall m p, In m l -> In p (points (snd m)) -> coordinates_within 8192 (belongs acosf (fst (fst m)) (snd (fst m)) p)) ->
  exists k parts, (forall m, In m k -> In m l) /\
    points (map_ (d_build_map A from_right (is_finite (prec := 24) (emax := 128)) small indeterminate l)) = concat parts /\
    Forall2 (fun m part => Forall2 (fun p p' => within_half_a_millimetre (belongs acosf (fst (fst m)) (snd (fst m)) p) p') (points (snd m)) part) k parts.
Proof.
  intros HU HC. destruct (C134_map_partial small indeterminate 8 13 l ltac:(lia) ltac:(lia) HU) as (k & parts & K1 & K2 & K3). exists k, parts. split; [exact K1|]. split; [exact K2|].
  change (Z.max (8 + 7) 13 - 48)%Z with (-33)%Z in K3. clear K2.
  assert (B1 : bpow radix2 (-24) = / 16777216) by reflexivity. assert (B2 : bpow radix2 (-33) = / 8589934592) by reflexivity.
  induction K3 as [|m part k parts H K3 IH]; constructor; [|apply IH; intros; apply K1; right; assumption].
  assert (C : forall p, In p (points (snd m)) -> coordinates_within 8192 (belongs acosf (fst (fst m)) (snd (fst m)) p)) by (intros p; apply HC, K1; left; reflexivity).
  unfold stored_part in H. clear - H C B1 B2. induction H as [|p p' ps ps' S H IH]; constructor; [|apply IH; intros; apply C; right; assumption].
  destruct (C p (or_introl eq_refl)) as (C1 & C2 & C3). destruct S as (_ & S1 & S2 & S3). unfold coordinate_near in *. rewrite B1, B2 in *.
  repeat split; lra.
Qed.

(** ** Farther away it is not: the error grows with the distance, a message 2^k metres from
    the origin has points that no float can store to less than 2^(k-24) metres. *)
Definition far_message (k : Z) : message :=
  ((DV A (of_me64 1 k) (of_Z64 0) (of_Z64 0), DQ A (of_Z64 1) (of_Z64 0) (of_Z64 0) (of_Z64 0)),
   Cloud true [FP A (of_me32 1 (k - 24)) (of_Z32 0) (of_Z32 0)]).
Theorem C134_far_refuted small indeterminate k : (0 <= k <= 100)%Z ->
  usual_message 80 k (far_message k) /\
  real_position acosf (fst (fst (far_message k))) = V3 (bpow radix2 k) 0 0 /\
  real_quaternion acosf (snd (fst (far_message k))) = Qn 1 0 0 0 /\
  exists p p', points (snd (far_message k)) = [p] /\
    points (map_ (d_build_map A from_right (is_finite (prec := 24) (emax := 128)) small indeterminate [far_message k])) = [p'] /\
    bpow radix2 (k - 24) <= Rabs (vx (real_point acosf p') - vx (belongs acosf (fst (fst (far_message k))) (snd (fst (far_message k))) p)).
Proof.
  intros Hk. destruct (me64 k ltac:(lia)) as [T1 T2]. destruct (me32 (k - 24) ltac:(lia)) as [P1 P2].
  destruct (of_Z64_ok 0) as [Z1 Z2]; [simpl; lia|]. destruct (of_Z64_ok 1) as [O1 O2]; [simpl; lia|].
  destruct (FloatAngle.of_Z32_ok 0) as [W1 W2]; [simpl; lia|].
  assert (Q : real_quaternion acosf (snd (fst (far_message k))) = Qn 1 0 0 0) by (unfold real_quaternion; cbn [far_message fst snd dw dx dy dz]; rewrite O1, Z1; reflexivity).
  assert (P : real_position acosf (fst (fst (far_message k))) = V3 (bpow radix2 k) 0 0) by (unfold real_position; cbn [far_message fst e0 e1 e2]; rewrite T1, Z1; reflexivity).
  pose proof (bpow_ge_0 radix2 80) as N80. pose proof (bpow_ge_0 radix2 k) as Nk. pose proof (bpow_ge_0 radix2 (k - 24)) as Nk'.
  split; [|split; [exact P|split; [exact Q|]]].
  - split; [|split].
    + split; [repeat split; cbn; auto|]. cbn [far_message fst e0 e1 e2]. rewrite T1, Z1, Rabs_R0, Rabs_pos_eq by exact Nk. repeat split; lra.
    + split; [repeat split; cbn; auto|]. cbn [far_message fst snd dw dx dy dz]. rewrite O1, Z1, Rabs_R0, Rabs_R1. repeat split; lra.
    + intros p [<-|[]]. split; [cbn; auto|]. unfold real_point. cbn [vx vy vz p0 p1 p2]. rewrite P1, W1, Rabs_R0, Rabs_pos_eq by exact Nk'. assert (bpow radix2 (k - 24) <= bpow radix2 80) by (apply bpow_le; lia). repeat split; lra.
  - eexists. eexists. split; [reflexivity|]. split; [reflexivity|].
    unfold belongs. rewrite Q, P. unfold real_point at 2. cbn [p0 p1 p2]. rewrite P1, W1.
    match goal with |- _ <= Rabs (_ - ?v) => replace v with (bpow radix2 k + bpow radix2 (k - 24)) by (unfold transform, make_pose, mapply, vadd; cbn; ring) end.
    apply no_float_between. lia.
Qed.
(** At 131 kilometres, more than seven millimetres. *)
Theorem C134_seven_millimetres_refuted small indeterminate : exists m p p', usual_message 80 17 m /\
  real_position acosf (fst (fst m)) = V3 131072 0 0 /\ real_quaternion acosf (snd (fst m)) = Qn 1 0 0 0 /\ points (snd m) = [p] /\
  points (map_ (d_build_map A from_right (is_finite (prec := 24) (emax := 128)) small indeterminate [m])) = [p'] /\
  7 / 1000 < Rabs (vx (real_point acosf p') - vx (belongs acosf (fst (fst m)) (snd (fst m)) p)).
Proof.
  destruct (C134_far_refuted small indeterminate 17 ltac:(lia)) as (U & P & Q & p & p' & E1 & E2 & D0). exists (far_message 17), p, p'. split; [exact U|]. split; [exact P|]. split; [exact Q|]. split; [exact E1|]. split; [exact E2|].
  eapply Rlt_le_trans; [|exact D0]. change (bpow radix2 (17 - 24)) with (/ 128). lra.
Qed.
End Stored.
Print Assumptions C134_map_partial.
Print Assumptions C134_accumulated_partial.
Print Assumptions C134_near_the_origin_partial.
Print Assumptions C134_far_refuted.
Print Assumptions C134_seven_millimetres_refuted.

(** A case: a message two kilometres from the origin, facing backwards. *)
Example C134_case : let m := ((DV (ieee (fun x => x)) (of_Z64 2000) (of_Z64 (-50)) (of_Z64 3), DQ (ieee (fun x => x)) (of_Z64 0) (of_Z64 0) (of_Z64 0) (of_Z64 1)),
    Cloud true [FP (ieee (fun x => x)) (of_Z32 12) (of_Z32 5) (of_Z32 (-1))]) in
  usual_message (fun x => x) 8 13 m /\ forall p, In p (points (snd m)) -> coordinates_within 8192 (belongs (fun x => x) (fst (fst m)) (snd (fst m)) p).
Proof.
  destruct (of_Z64_ok 2000) as [A1 A2]; [simpl; lia|]. destruct (of_Z64_ok (-50)) as [B1 B2]; [simpl; lia|]. destruct (of_Z64_ok 3) as [C1 C2]; [simpl; lia|].
  destruct (of_Z64_ok 0) as [Z1 Z2]; [simpl; lia|]. destruct (of_Z64_ok 1) as [O1 O2]; [simpl; lia|].
  destruct (FloatAngle.of_Z32_ok 12) as [D1 D2]; [simpl; lia|]. destruct (FloatAngle.of_Z32_ok 5) as [E1 E2]; [simpl; lia|]. destruct (FloatAngle.of_Z32_ok (-1)) as [F1 F2]; [simpl; lia|].
  assert (P8 : bpow radix2 8 = 256) by reflexivity. assert (P13 : bpow radix2 13 = 8192) by reflexivity.
  split; [split; [|split]|].
  - split; [repeat split; cbn; auto|]. cbn [fst e0 e1 e2]. rewrite A1, B1, C1, P13. repeat split; apply Rabs_le; lra.
  - split; [repeat split; cbn; auto|]. cbn [fst snd dw dx dy dz]. rewrite Z1, O1. repeat split; apply Rabs_le; lra.
  - intros p [<-|[]]. split; [cbn; auto|]. unfold real_point. cbn [vx vy vz p0 p1 p2]. rewrite D1, E1, F1, P8. repeat split; apply Rabs_le; lra.
  - intros p [<-|[]]. unfold belongs, real_quaternion, real_position, real_point. cbn [fst snd dw dx dy dz e0 e1 e2 p0 p1 p2]. rewrite A1, B1, C1, Z1, O1, D1, E1, F1.
    unfold coordinates_within, transform, make_pose, mapply, vadd. cbn. repeat split; apply Rabs_le; lra.
Qed.

(** ** C77 in doubles: the transform of the viewer is the centroid up to a rounding error that
    grows with the number of points. *)
Theorem C77_doubles_partial acosf mf vf (pts : list (b32 * b32 * b32)) m b : (-100 <= m <= 128)%Z -> (0 <= b <= 32)%Z -> (0 < zlen pts <= 2 ^ b)%Z -> (zlen pts < 2 ^ 32)%Z ->
  (forall x y z, In (x, y, z) pts -> (is_finite x = true /\ is_finite y = true /\ is_finite z = true) /\ Rabs (B2R x) <= bpow radix2 m /\ Rabs (B2R y) <= bpow radix2 m /\ Rabs (B2R z) <= bpow radix2 m) ->
  exists cx cy cz : b64, on_point_cloud (ieee acosf) mf vf pts = Tf (ieee acosf) mf vf (cx, cy, cz) (0, 0, 0, 1)%Z /\ (fin cx /\ fin cy /\ fin cz) /\
    Rabs (val cx - mean (map (fun p => B2R (fst (fst p))) pts)) <= bpow radix2 (m + b - 52) /\
    Rabs (val cy - mean (map (fun p => B2R (snd (fst p))) pts)) <= bpow radix2 (m + b - 52) /\
    Rabs (val cz - mean (map (fun p => B2R (snd p)) pts)) <= bpow radix2 (m + b - 52).
Proof.
  intros Hm Hb HL H32 HF. unfold on_point_cloud. do 3 eexists. split; [reflexivity|].
  assert (G : forall f : b32 * b32 * b32 -> b32, (forall p, In p pts -> is_finite (f p) = true /\ Rabs (B2R (f p)) <= bpow radix2 m) ->
    fin (coordinate (ieee acosf) (map f pts)) /\ Rabs (val (coordinate (ieee acosf) (map f pts)) - mean (map (fun p => B2R (f p)) pts)) <= bpow radix2 (m + b - 52)).
  { intros f Hf. assert (L : zlen (map f pts) = zlen pts) by (unfold zlen; rewrite map_length; reflexivity).
    destruct (floats_mean acosf m b Hm Hb (map f pts)) as [G1 G2]; [rewrite L; lia|rewrite L; lia|apply Forall_forall; intros x Hx; apply in_map_iff in Hx; destruct Hx as (p & <- & Hp); auto|].
    split; [exact G1|]. unfold mean. rewrite map_map, map_length in G2. rewrite map_length. exact G2. }
  destruct (G (fun p => fst (fst p))) as [X1 X2]; [intros ((x & y) & z) I; destruct (HF x y z I) as ((? & ? & ?) & ? & ? & ?); split; assumption|].
  destruct (G (fun p => snd (fst p))) as [Y1 Y2]; [intros ((x & y) & z) I; destruct (HF x y z I) as ((? & ? & ?) & ? & ? & ?); split; assumption|].
  destruct (G snd) as [Z1 Z2]; [intros ((x & y) & z) I; destruct (HF x y z I) as ((? & ? & ?) & ? & ? & ?); split; assumption|].
  split; [split; [exact X1|split; [exact Y1|exact Z1]]|]. split; [exact X2|split; [exact Y2|exact Z2]].
Qed.
Print Assumptions C77_doubles_partial.
Example C77_doubles_case : forall x y z, In (x, y, z) [(of_Z32 1, of_Z32 2, of_Z32 3); (of_Z32 4, of_Z32 0, of_Z32 3)] ->
  (is_finite x = true /\ is_finite y = true /\ is_finite z = true) /\ Rabs (B2R x) <= bpow radix2 3 /\ Rabs (B2R y) <= bpow radix2 3 /\ Rabs (B2R z) <= bpow radix2 3.
Proof.
  assert (G : forall n, (0 <= n <= 8)%Z -> is_finite (of_Z32 n) = true /\ Rabs (B2R (of_Z32 n)) <= bpow radix2 3).
  { intros n Hn. destruct (FloatAngle.of_Z32_ok n) as [A1 A2]; [lia|]. split; [exact A2|]. rewrite A1, Rabs_pos_eq by (apply IZR_le; lia). change (bpow radix2 3) with 8. apply IZR_le. lia. }
  intros x y z [E|[E|[]]]; apply pair_equal_spec in E; destruct E as [E <-]; apply pair_equal_spec in E; destruct E as [<- <-]; (split; [split; [|split]; (eapply proj1; apply G; lia)|split; [|split]; (eapply proj2; apply G; lia)]).
Qed.
