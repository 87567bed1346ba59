(** Pose and twist messages arriving between two ticks in another order. *)
From Coq Require Import List ZArith.
From Verif Require Import Base Arith EkfModel SpecArrival.
Import ListNotations.

Section Arrival.
Variable A : arith.
Variable roundf : D A -> option Z.
Variable sin cos : D A -> D A.
Variable atan2 : D A -> D A -> D A.
Variable neg : D A -> D A.
Variable Orient : Type.
Variable get_yaw get_roll get_pitch : Orient -> D A.
Variable K : kalman A.
Variable prm : params A.
Notation step := (node_step A roundf sin cos atan2 neg Orient get_yaw get_roll get_pitch K prm).
Notation ev := (event A Orient).

Lemma swap n (m : pose_msg A Orient) (t : twist_msg A) (rest : list ev) :
  foldM step n (EvTwist A Orient t :: EvPose A Orient m :: rest) =
  foldM step n (EvPose A Orient m :: EvTwist A Orient t :: rest).
Proof.
  cbn [foldM node_step callback_twist bind]. unfold callback_pose, update_simple_filters.
  cbn [n_ekf n_last n_pose n_twist n_z n_roll n_pitch n_out].
  destruct (vat (p_cov A Orient m) 14) as [c2| | | | |]; cbn [bind]; auto.
  destruct (vat (p_cov A Orient m) 21) as [c3| | | | |]; cbn [bind]; auto.
  destruct (vat (p_cov A Orient m) 28) as [c4| | | | |]; cbn [bind]; auto.
  destruct (time_of (p_stamp A Orient m)) as [s| | | | |]; cbn [bind]; auto.
Qed.

Lemma front (m : pose_msg A Orient) rest : forall (ts : list (twist_msg A)) n,
  foldM step n (map (EvTwist A Orient) ts ++ EvPose A Orient m :: rest) =
  foldM step n (EvPose A Orient m :: map (EvTwist A Orient) ts ++ rest).
Proof.
  induction ts as [|t ts IH]; intros n; auto. cbn [map app]. rewrite <- swap.
  transitivity (n1 <- step n (EvTwist A Orient t) ;; foldM step n1 (map (EvTwist A Orient) ts ++ EvPose A Orient m :: rest)); [reflexivity|].
  cbn [foldM]. destruct (step n (EvTwist A Orient t)); cbn [bind]; auto. rewrite IH. reflexivity.
Qed.

Lemma leading m rest : forall h : list ev, without_twists h = EvPose A Orient m :: rest ->
  exists ts h', h = map (EvTwist A Orient) ts ++ EvPose A Orient m :: h' /\ without_twists h' = rest.
Proof.
  induction h as [|e h IH]; cbn; intros H; [discriminate|]. destruct e as [| | |t]; try discriminate.
  - injection H as <- <-. exists [], h. auto.
  - destruct (IH H) as [ts [h' [-> E]]]. exists (t :: ts), h'. auto.
Qed.

Lemma leading_t t rest : forall h : list ev, without_poses h = EvTwist A Orient t :: rest ->
  exists ms h', h = map (EvPose A Orient) ms ++ EvTwist A Orient t :: h' /\ without_poses h' = rest.
Proof.
  induction h as [|e h IH]; cbn; intros H; [discriminate|]. destruct e as [| |m|]; try discriminate.
  - destruct (IH H) as [ms [h' [-> E]]]. exists (m :: ms), h'. auto.
  - injection H as <- <-. exists [], h. auto.
Qed.

Lemma front_t (t : twist_msg A) rest : forall (ms : list (pose_msg A Orient)) n,
  foldM step n (map (EvPose A Orient) ms ++ EvTwist A Orient t :: rest) =
  foldM step n (EvTwist A Orient t :: map (EvPose A Orient) ms ++ rest).
Proof.
  induction ms as [|m ms IH]; intros n; auto. cbn [map app]. rewrite swap.
  transitivity (n1 <- step n (EvPose A Orient m) ;; foldM step n1 (map (EvPose A Orient) ms ++ EvTwist A Orient t :: rest)); [reflexivity|].
  cbn [foldM]. destruct (step n (EvPose A Orient m)); cbn [bind]; auto. rewrite IH. reflexivity.
Qed.

Lemma wt_app (h h' : list ev) : without_twists (h ++ h') = without_twists h ++ without_twists h'.
Proof. apply filter_app. Qed.
Lemma wp_app (h h' : list ev) : without_poses (h ++ h') = without_poses h ++ without_poses h'.
Proof. apply filter_app. Qed.
Lemma wt_twists ts : without_twists (map (EvTwist A Orient) ts) = [].
Proof. induction ts; auto. Qed.
Lemma wp_poses ms : without_poses (map (EvPose A Orient) ms) = [].
Proof. induction ms; auto. Qed.

Lemma arrival : forall (h1 h2 : list ev) n, same_up_to_arrival h1 h2 -> foldM step n h1 = foldM step n h2.
Proof.
  induction h1 as [|e h1 IH]; intros h2 n [HP HT].
  - destruct h2 as [|e2 h2]; auto. destruct e2; cbn in HP, HT; discriminate.
  - assert (Same : forall h2', h2 = e :: h2' ->
       foldM step n (e :: h1) = foldM step n h2).
    { intros h2' ->. cbn [foldM]. destruct (step n e) as [n'| | | | |]; cbn [bind]; auto. apply IH.
      unfold same_up_to_arrival, without_twists, without_poses in *. split; destruct e; cbn in HP, HT; congruence. }
    destruct e as [t1 t2 t3 t4 t5|m tf|m|t].
    + destruct h2 as [|[]]; cbn in HP, HT; try discriminate. eapply Same. inversion HP; subst. reflexivity.
    + destruct h2 as [|[]]; cbn in HP, HT; try discriminate. eapply Same. inversion HP; subst. reflexivity.
    + change (without_twists (EvPose A Orient m :: h1)) with (EvPose A Orient m :: without_twists h1) in HP.
      change (without_poses (EvPose A Orient m :: h1)) with (without_poses h1) in HT.
      symmetry in HP. destruct (leading _ _ _ HP) as [ts [h' [-> E]]]. rewrite front. cbn [foldM].
      destruct (step n (EvPose A Orient m)) as [n'| | | | |]; cbn [bind]; auto. apply IH. split.
      * rewrite wt_app, wt_twists. auto.
      * rewrite HT, !wp_app. auto.
    + change (without_poses (EvTwist A Orient t :: h1)) with (EvTwist A Orient t :: without_poses h1) in HT.
      change (without_twists (EvTwist A Orient t :: h1)) with (without_twists h1) in HP.
      symmetry in HT. destruct (leading_t _ _ _ HT) as [ms [h' [-> E]]]. rewrite front_t. cbn [foldM].
      destruct (step n (EvTwist A Orient t)) as [n'| | | | |]; cbn [bind]; auto. apply IH. split.
      * rewrite HP, !wt_app. auto.
      * rewrite wp_app, wp_poses. auto.
Qed.
End Arrival.
