(** Property C120: the EKF localizer treats left and right alike (exact arithmetic, the
    repository's time-delay filter). *)
From Coq Require Import Reals Lra Lia PeanoNat List Bool ZArith String.
From Verif Require Import Base Arith SpecReal EkfModel IntervalProofs KalmanModel SpecKalman SpecCycle FusionNodeProofs Prop_Interval SpecEkf AngleProofs Prop_EkfNode Prop_Kalman Prop_Bias Prop_Origin SpecMirror MirrorProofs.
Import ListNotations.
Local Open Scope R_scope.

(** The sine and the arctangent are odd and the cosine is even, as those of the C library
    are; [mirror] is what the mirror does to an orientation. *)
Theorem C120_left_right : forall inverse junk roundf (sin cos : R -> R) (atan2 : R -> R -> R) (Orient : Type) (get_yaw get_roll get_pitch : Orient -> R)
  (mirror : Orient -> Orient) prm h,
  inverts inverse ->
  (forall u, sin (- u) = - sin u) -> (forall u, cos (- u) = cos u) -> (forall y x, atan2 (- y) x = - atan2 y x) ->
  (forall o, get_yaw (mirror o) = - get_yaw o) -> (forall o, get_roll (mirror o) = - get_roll o) -> (forall o, get_pitch (mirror o) = get_pitch o) ->
  let pub := published inverse junk roundf sin cos atan2 Orient get_yaw get_roll get_pitch prm in
  pub (map (mirrored_event Orient mirror) h) = (out <- pub h ;; Ok (map mirrored_output out)).
Proof.
  intros inverse junk roundf sin cos atan2 Orient gy gr gp mirror prm h Hi Hs Hc Ha Hy Hr Hp pub. unfold pub, published.
  assert (E := run_mirrored inverse Hi junk roundf sin cos atan2 Hs Hc Ha Orient gy gr gp mirror Hy Hr Hp prm h). cbn zeta in E. rewrite E.
  destruct (node_run _ _ _ _ _ _ _ _ _ _ _ _ h); reflexivity.
Qed.
Print Assumptions C120_left_right.

(** An odd function that is the arctangent in all directions but straight back. *)
Definition odd_atan2 (y x : R) : R := if Req_EM_T y 0 then 0 else atan2 y x.
Example ex_odd_atan2 : agree_off_the_cut odd_atan2 atan2 /\ (forall y x, odd_atan2 (- y) x = - odd_atan2 y x) /\ odd_atan2 1 (-1) = 3 * PI / 4.
Proof.
  split; [|split].
  - intros y x H. unfold odd_atan2. destruct (Req_EM_T y 0) as [->|N]; auto. rewrite atan2_zero. destruct (Rlt_dec x 0); lra.
  - intros y x. unfold odd_atan2. destruct (Req_EM_T y 0) as [N|N], (Req_EM_T (- y) 0) as [N'|N']; [lra|exfalso; lra|exfalso; lra|].
    destruct (Rle_lt_dec y 0) as [L|L].
    + rewrite atan2_upper, atan2_lower by lra. replace (x / - y) with (- (x / y)) by (field; lra). rewrite atan_opp. lra.
    + rewrite atan2_lower, atan2_upper by lra. replace (x / - y) with (- (x / y)) by (field; lra). rewrite atan_opp. lra.
  - unfold odd_atan2. destruct (Req_EM_T 1 0); [lra|]. rewrite atan2_upper by lra. replace (-1 / 1) with (- (1)) by field. rewrite atan_opp, atan_1. lra.
Qed.

(** Orientations are quaternions (x, y, z, w) and the angles are taken as in
    tf2::getEulerYPR, which getYaw and getRPY call (external to /repo; used at
    ekf_localizer/src/ekf_localizer.cpp:47-55, src/pose_measurement.cpp:60); the mirror
    turns the x and z components around. *)
Definition quaternion : Type := (R * R * R * R)%type.
Definition q_mirror (q : quaternion) : quaternion := let '(x, y, z, w) := q in (- x, y, - z, w).
Definition q_yaw (q : quaternion) : R := let '(x, y, z, w) := q in odd_atan2 (2 * (x * y + w * z)) (w * w + x * x - y * y - z * z).
Definition q_roll (q : quaternion) : R := let '(x, y, z, w) := q in odd_atan2 (2 * (y * z + w * x)) (w * w - x * x - y * y + z * z).
Definition q_pitch (q : quaternion) : R := let '(x, y, z, w) := q in asin (2 * (w * y - x * z)).

(** A vehicle at (1, 2) with the given orientation, a pose, a twist to the left and ticks. *)
Definition q_pose (stamp : Z) (q : quaternion) : pose_msg exact quaternion := PoseMsg exact quaternion "map" stamp 1 2 0 q ex_cov.
Definition q_history (q : quaternion) : list (event exact quaternion) :=
  [EvInitialPose _ _ (q_pose 0 q) (Some (TransformMsg exact quaternion 0 0 0 (0, 0, 0, 1))); EvTimer _ _ 1000000000 1000000000 1000000000 1000000000 1000000000;
   EvPose _ _ (q_pose 1500000000 q); EvTwist _ _ (TwistMsg exact "base_link" 1500000000 3 1 ex_cov);
   EvTimer _ _ 2000000000 2000000000 2000000000 2000000000 2000000000].
Example ex_C120 : forall junk q,
  let pub := published some_inverse junk roundf_exact Rtrigo_def.sin Rtrigo_def.cos odd_atan2 quaternion q_yaw q_roll q_pitch bias_prm in
  pub (map (mirrored_event quaternion q_mirror) (q_history q)) = (out <- pub (q_history q) ;; Ok (map mirrored_output out)) /\
  (exists frame p o, pub (firstn 2 (q_history q)) = Ok [OutTransform _ 1000000000 frame p; o] /\ nth 1 p 0 = 2 /\ nth 3 p 0 = q_roll q) /\
  (exists frame p o, pub (map (mirrored_event quaternion q_mirror) (firstn 2 (q_history q))) = Ok [OutTransform _ 1000000000 frame p; o] /\ nth 1 p 0 = - 2 /\ nth 3 p 0 = - q_roll q).
Proof.
  intros junk q pub. destruct ex_odd_atan2 as [_ [O _]].
  assert (HR : q_roll (q_mirror q) = - q_roll q).
  { destruct q as [[[x y] z] w]. cbn. rewrite <- O. f_equal; ring. }
  assert (E : forall h, pub (map (mirrored_event quaternion q_mirror) h) = (out <- pub h ;; Ok (map mirrored_output out))).
  { intros h. apply C120_left_right.
    - apply some_inverse_inverts.
    - apply sin_neg.
    - apply cos_neg.
    - exact O.
    - intros [[[x y] z] w]. cbn. rewrite <- O. f_equal; ring.
    - intros [[[x y] z] w]. cbn. rewrite <- O. f_equal; ring.
    - intros [[[x y] z] w]. cbn. f_equal. ring. }
  split; [apply E|]. assert (X : exists frame p o, pub (firstn 2 (q_history q)) = Ok [OutTransform _ 1000000000 frame p; o] /\ nth 1 p 0 = 2 /\ nth 3 p 0 = q_roll q /\ List.length p = 6%nat).
  { unfold pub, published, node_run, q_history. cbn [firstn]. cbn -[q_yaw q_roll q_pitch]. do 3 eexists. split; [reflexivity|]. change (Pos.to_nat 1) with 1%nat. cbn -[q_yaw q_roll q_pitch].
    split; [ring|]. split; reflexivity. }
  destruct X as (frame & p & o & X & P1 & P3 & L). split; [exists frame, p, o; auto|].
  exists frame, (mirrored_place p), (mirrored_output o). rewrite E, X. cbn [bind map mirrored_output]. split; [reflexivity|].
  do 6 (destruct p as [|? p]; [discriminate L|]). destruct p; [|discriminate L]. cbn in P1, P3 |- *. subst. split; lra.
Qed.
