(** Proofs about the warnings of the EKF localizer (C141). *)
From Coq Require Import String List ZArith Bool Lia.
From Verif Require Import Base Arith EkfModel WarnModel SpecWarn.
Import ListNotations.
Open Scope Z_scope.

(** The six calls there are. *)
Definition known (c : call) : Prop :=
  c = show_delay_time \/ c = show_delay_step \/ c = show_frame_id \/ c = show_gate \/ c = show_nan_inf \/ c = show_update.
Lemma known_ms ms r : known (Some ms, r) -> (ms = 1000 \/ ms = 2000) /\ r <> NotFinite /\ r <> UpdateFailed.
Proof. intros [H|[H|[H|[H|[H|H]]]]]; inversion H; subst; repeat split; auto; discriminate. Qed.
Lemma known_none r : known (None, r) -> r = NotFinite \/ r = UpdateFailed.
Proof. intros [H|[H|[H|[H|[H|H]]]]]; inversion H; subst; auto. Qed.
Lemma known_always ms r : known (ms, r) -> r = NotFinite \/ r = UpdateFailed -> ms = None.
Proof. destruct ms as [z|]; [|reflexivity]. intros H. apply known_ms in H. intuition congruence. Qed.

Section Log.
Variable period : Z -> Z.
Variable clock : nat -> Z.
Notation log := (log period clock).

Lemma log_in cs : forall i last t r, In (t, r) (log i last cs) -> exists k ms, nth_error cs k = Some (ms, r) /\ t = clock (i + k).
Proof.
  induction cs as [|[ms q] cs IH]; intros i last t r H; [contradiction|]. cbn [WarnModel.log] in H.
  assert (N : forall l, In (t, r) (log (S i) l cs) -> exists k ms', nth_error ((ms, q) :: cs) k = Some (ms', r) /\ t = clock (i + k)).
  { intros l Hl. destruct (IH _ _ _ _ Hl) as (k & m' & E1 & E2). exists (S k), m'. split; [exact E1|]. rewrite E2. f_equal. lia. }
  assert (Z0 : (t, r) = (clock i, q) -> exists k ms', nth_error ((ms, q) :: cs) k = Some (ms', r) /\ t = clock (i + k)).
  { intros E. injection E as -> ->. exists 0%nat, ms. split; [reflexivity|]. f_equal. lia. }
  destruct ms as [m|].
  - destruct (last + period m <=? clock i); [|exact (N _ H)]. destruct H as [H|H]; [exact (Z0 (eq_sym H))|exact (N _ H)].
  - destruct H as [H|H]; [exact (Z0 (eq_sym H))|exact (N _ H)].
Qed.
Lemma log_always cs : forall i last k r, nth_error cs k = Some (None, r) -> In (clock (i + k), r) (log i last cs).
Proof.
  induction cs as [|[ms q] cs IH]; intros i last k r H; [destruct k; discriminate|]. destruct k as [|k]; cbn [nth_error] in H.
  - injection H as -> ->. left. f_equal. f_equal. lia.
  - replace (i + S k)%nat with (S i + k)%nat by lia. cbn [WarnModel.log]. destruct ms as [m|]; [|right; apply IH; exact H].
    destruct (_ <=? _); [right|]; apply IH; exact H.
Qed.
Lemma log_recent cs : usual_period period -> (forall a b, (a <= b)%nat -> clock a <= clock b) -> Forall known cs ->
  forall i last k c, nth_error cs k = Some c ->
  (exists t r, In (t, r) (log i last cs) /\ clock (i + k) - 2000000000 < t <= clock (i + k)) \/ clock (i + k) < last + 2000000000.
Proof.
  intros U M. induction cs as [|[ms q] cs IH]; intros Kn i last k c H; [destruct k; discriminate|].
  inversion Kn as [|? ? K1 K2]; subst. specialize (IH K2). destruct k as [|k]; cbn [nth_error] in H.
  - injection H as <-. rewrite Nat.add_0_r. cbn [WarnModel.log]. destruct ms as [m|].
    + destruct (known_ms _ _ K1) as [Hm _]. specialize (U m Hm). destruct (Z.leb_spec (last + period m) (clock i)); [|right; lia].
      left. exists (clock i), q. split; [left; reflexivity|lia].
    + left. exists (clock i), q. split; [left; reflexivity|lia].
  - replace (i + S k)%nat with (S i + k)%nat by lia. cbn [WarnModel.log]. destruct ms as [m|].
    + destruct (last + period m <=? clock i).
      * destruct (IH (S i) (clock i) k c H) as [(t & r & I & B)|B]; [left; exists t, r; split; [right; exact I|exact B]|].
        left. exists (clock i), q. split; [left; reflexivity|]. specialize (M i (S i + k)%nat ltac:(lia)). lia.
      * exact (IH (S i) last k c H).
    + destruct (IH (S i) last k c H) as [(t & r & I & B)|B]; [left; exists t, r; split; [right; exact I|exact B]|right; exact B].
Qed.

(** The static variable after the calls. *)
Fixpoint last_after (i : nat) (last : Z) (cs : list call) : Z :=
  match cs with
  | [] => last
  | (None, _) :: rest => last_after (S i) last rest
  | (Some ms, _) :: rest => if last + period ms <=? clock i then last_after (S i) (clock i) rest else last_after (S i) last rest
  end.
Lemma log_app a b : forall i last, log i last (a ++ b) = log i last a ++ log (i + length a) (last_after i last a) b.
Proof.
  induction a as [|[[m|] q] a IH]; intros i last; cbn [app WarnModel.log last_after length].
  - rewrite Nat.add_0_r. reflexivity.
  - replace (i + S (length a))%nat with (S i + length a)%nat by lia. destruct (_ <=? _); rewrite IH; reflexivity.
  - replace (i + S (length a))%nat with (S i + length a)%nat by lia. rewrite IH. reflexivity.
Qed.
Lemma last_grows cs : forall i last, usual_period period -> Forall known cs -> last <= last_after i last cs.
Proof.
  induction cs as [|[[m|] q] cs IH]; intros i last U Kn; cbn [last_after]; [lia| |]; inversion Kn as [|? ? K1 K2]; subst.
  - destruct (known_ms _ _ K1) as [Hm _]. assert (B := U m Hm). destruct (Z.leb_spec (last + period m) (clock i)); [|apply IH; assumption].
    specialize (IH (S i) (clock i) U K2). lia.
  - apply IH; assumption.
Qed.
Lemma last_shown cs : forall i last t r, usual_period period -> Forall known cs -> r <> NotFinite -> r <> UpdateFailed ->
  In (t, r) (log i last cs) -> t <= last_after i last cs.
Proof.
  induction cs as [|[[m|] q] cs IH]; intros i last t r U Kn N1 N2 H; cbn [WarnModel.log last_after] in *; [contradiction| |]; inversion Kn as [|? ? K1 K2]; subst.
  - destruct (_ <=? _); [|exact (IH _ _ _ _ U K2 N1 N2 H)]. destruct H as [H|H]; [|exact (IH _ _ _ _ U K2 N1 N2 H)].
    injection H as <- <-. apply last_grows; assumption.
  - destruct H as [H|H]; [|exact (IH _ _ _ _ U K2 N1 N2 H)]. injection H as <- <-. apply known_none in K1. intuition congruence.
Qed.
Lemma log_quiet cs : forall i last, usual_period period -> Forall known cs -> (forall j, (i <= j)%nat -> clock j <= last) ->
  forall t r, In (t, r) (log i last cs) -> r = NotFinite \/ r = UpdateFailed.
Proof.
  induction cs as [|[[m|] q] cs IH]; intros i last U Kn B t r H; cbn [WarnModel.log] in H; [contradiction| |]; inversion Kn as [|? ? K1 K2]; subst.
  - destruct (known_ms _ _ K1) as [Hm _]. specialize (U m Hm) as P. specialize (B i (le_n i)) as Bi. destruct (Z.leb_spec (last + period m) (clock i)); [lia|].
    apply (IH (S i) last U K2) in H; [exact H|]. intros j Hj. apply B. lia.
  - destruct H as [H|H]; [injection H as <- <-; exact (known_none _ K1)|]. apply (IH (S i) last U K2) in H; [exact H|]. intros j Hj. apply B. lia.
Qed.
(** Pairs of a short and a long silence: the second is never shown. *)
Lemma log_pairs n : forall i last q1 q2, 0 < period 1000 ->
  (forall k, clock (i + 2 * k + 1) - clock (i + 2 * k) + period 1000 <= period 2000) ->
  forall t r, In (t, r) (log i last (flat_map (fun _ => [(Some 1000, q1); (Some 2000, q2)]) (repeat tt n))) -> r = q1.
Proof.
  induction n as [|n IH]; intros i last q1 q2 P G t r H; [contradiction|]. cbn [repeat flat_map app WarnModel.log] in H.
  assert (G0 := G 0%nat). replace (i + 2 * 0 + 1)%nat with (S i) in G0 by lia. replace (i + 2 * 0)%nat with i in G0 by lia.
  assert (GN : forall k, clock (S (S i) + 2 * k + 1) - clock (S (S i) + 2 * k) + period 1000 <= period 2000).
  { intros k. specialize (G (S k)). replace (S (S i) + 2 * k + 1)%nat with (i + 2 * S k + 1)%nat by lia. replace (S (S i) + 2 * k)%nat with (i + 2 * S k)%nat by lia. exact G. }
  destruct (Z.leb_spec (last + period 1000) (clock i)) as [L|L].
  - destruct H as [H|H]; [injection H as _ <-; reflexivity|].
    destruct (Z.leb_spec (clock i + period 2000) (clock (S i))); [lia|]. exact (IH _ _ _ _ P GN _ _ H).
  - destruct (Z.leb_spec (last + period 2000) (clock (S i))); [lia|]. exact (IH _ _ _ _ P GN _ _ H).
Qed.
End Log.

Section Handle.
Variable A : arith.
Variable roundf : D A -> option Z.
Variable sin cos : D A -> D A.
Variable atan2 : D A -> D A -> D A.
Variable Orient : Type.
Variable get_yaw : Orient -> D A.
Variable K : kalman A.
Variable prm : params A.
Notation handle := (handle A roundf sin cos atan2 Orient get_yaw K prm).
Notation outcome_of := (outcome_of A roundf sin cos atan2 Orient get_yaw K prm).
Notation justified := (justified A roundf sin cos atan2 Orient get_yaw K prm).
Notation fused := (fused A roundf sin cos atan2 Orient get_yaw K prm).

Lemma vat_nth {X} (l : list X) z x d : vat l z = Ok x -> x = nth (Z.to_nat z) l d.
Proof.
  unfold vat. destruct (z <? 0); [discriminate|]. destruct (nth_error l (Z.to_nat z)) eqn:E; [|discriminate]. intros H. injection H as <-.
  symmetry. apply nth_error_nth. exact E.
Qed.
Lemma mapM_map {X Y} (f : X -> outcome Y) (g : X -> Y) l r : (forall x y, f x = Ok y -> y = g x) -> mapM f l = Ok r -> r = map g l.
Proof.
  intros H. revert r. induction l as [|x l IH]; intros r E; cbn in E; [injection E as <-; reflexivity|].
  destruct (f x) as [y| | | | |] eqn:Ex; try discriminate. cbn [bind] in E. destruct (mapM f l) as [ys| | | | |]; try discriminate. cbn [bind] in E. injection E as <-.
  cbn. f_equal; [apply H; exact Ex|apply IH; reflexivity].
Qed.
Lemma covariance_entries idx cov steps N : covariance_at A idx cov steps = Ok N ->
  N = map (fun i => map (fun j => d_mul A (nth (Z.to_nat (6 * i + j)) cov (d_of_Z A 0)) (d_of_Z A (steps mod 2 ^ 64))) idx) idx.
Proof.
  unfold covariance_at. apply mapM_map. intros i row. apply mapM_map. intros j y E.
  destruct (vat cov (6 * i + j)) as [c| | | | |] eqn:Ev; try discriminate. cbn [bind] in E. injection E as <-. unfold steps_factor. f_equal. apply vat_nth. exact Ev.
Qed.

Lemma handle_refines h : snd (handle h) = outcome_of h.
Proof.
  destruct h as [f now dt m|f now dt m]; cbn [WarnModel.handle SpecWarn.outcome_of]; unfold pose_warn, twist_warn, pose_body, twist_body; cbn [say fst snd].
  - destruct (time_of _); cbn [andthen bind say fst snd]; try reflexivity. destruct (compute_delay_step _ _ _ _); cbn [andthen bind say fst snd]; try reflexivity.
    destruct (check_delay_step _ _); cbn [negb]; [|reflexivity]. cbn [say fst snd]. destruct (all_finite _ _); cbn [negb]; [|reflexivity].
    destruct (kf_get_x _ _ _ _); cbn [andthen bind say fst snd]; try reflexivity. destruct (gate _ _ _ _ _ _); cbn [negb]; [|reflexivity].
    destruct (pose_measurement_covariance _ _ _); cbn [andthen bind say fst snd]; try reflexivity. unfold try_update_warn, try_update. destruct (kf_update _ _ _ _ _ _ _); reflexivity.
  - destruct (time_of _); cbn [andthen bind say fst snd]; try reflexivity. destruct (compute_delay_step _ _ _ _); cbn [andthen bind say fst snd]; try reflexivity.
    destruct (check_delay_step _ _); cbn [negb]; [|reflexivity]. cbn [say fst snd]. destruct (all_finite _ _); cbn [negb]; [|reflexivity].
    destruct (kf_get_x _ _ _ _); cbn [andthen bind say fst snd]; try reflexivity. destruct (gate _ _ _ _ _ _); cbn [negb]; [|reflexivity].
    destruct (twist_measurement_covariance _ _ _); cbn [andthen bind say fst snd]; try reflexivity. unfold try_update_warn, try_update. destruct (kf_update _ _ _ _ _ _ _); reflexivity.
Qed.

Lemma in_say {X} w (r : list call * outcome X) c : In c (fst (say w r)) -> In c w \/ In c (fst r).
Proof. cbn. apply in_app_or. Qed.
Lemma in_unless good x c : In c (warn_unless good x) -> good = false /\ c = x.
Proof. destruct good; cbn; intros H; [contradiction|]. destruct H as [<-|[]]. auto. Qed.
Lemma time_same s t : time_of s = Ok t -> t = s.
Proof. unfold time_of. destruct (_ <? _); congruence. Qed.
Lemma not_finite y : all_finite A y = false -> exists v, In v y /\ d_trunc A v = None.
Proof.
  unfold all_finite. induction y as [|v y IH]; cbn; [discriminate|]. destruct (d_trunc A v) eqn:E; cbn.
  - intros H. destruct (IH H) as [w [W1 W2]]. eauto.
  - intros _. eauto.
Qed.
Lemma wrong_frame a b : check_frame_id a b = false -> a <> b.
Proof. unfold check_frame_id. intros H. apply String.eqb_neq. exact H. Qed.

Lemma handle_known h ms r : In (ms, r) (fst (handle h)) -> known (ms, r) /\ justified r h.
Proof.
  destruct h as [f now dt m|f now dt m]; cbn [WarnModel.handle]; unfold pose_warn, twist_warn; intros H.
  - apply in_say in H. destruct H as [H|H]; [apply in_unless in H; destruct H as [H E]; injection E as -> ->; split; [unfold known; auto|exact (wrong_frame _ _ H)]|].
    destruct (time_of _) as [s| | | | |] eqn:ES; cbn [andthen] in H; try contradiction. apply time_same in ES. subst s.
    apply in_say in H. destruct H as [H|H]; [apply in_unless in H; destruct H as [H E]; injection E as -> ->; split; [unfold known; auto|exact H]|].
    destruct (compute_delay_step _ _ _ _) as [d| | | | |] eqn:ED; cbn [andthen] in H; try contradiction.
    apply in_say in H. destruct H as [H|H]; [apply in_unless in H; destruct H as [H E]; injection E as -> ->; split; [unfold known; auto|]|].
    { exists d. split; [exact ED|]. unfold check_delay_step in H. cbn in H. lia. }
    destruct (check_delay_step _ _); cbn [negb] in H; [|contradiction].
    apply in_say in H. destruct H as [H|H]; [apply in_unless in H; destruct H as [H E]; injection E as -> ->; split; [unfold known; auto 7|exact (not_finite _ H)]|].
    destruct (all_finite _ _); cbn [negb] in H; [|contradiction].
    destruct (kf_get_x _ _ _ _) as [x| | | | |] eqn:EX; cbn [andthen] in H; try contradiction.
    apply in_say in H. destruct H as [H|H]; [apply in_unless in H; destruct H as [H E]; injection E as -> ->; split; [unfold known; auto 7|]|].
    { exists d, x. split; [exact ED|]. split; [exact EX|exact H]. }
    destruct (gate _ _ _ _ _ _); cbn [negb] in H; [|contradiction].
    destruct (pose_measurement_covariance _ _ _) as [N| | | | |] eqn:EN; cbn [andthen] in H; try contradiction. apply covariance_entries in EN. subst N.
    unfold try_update_warn in H. destruct (kf_update _ _ _ _ _ _ _) eqn:EU; cbn in H; try contradiction. destruct H as [H|[]]. injection H as <- <-.
    split; [unfold known; auto 7|]. exists d. split; [exact ED|exact EU].
  - apply in_say in H. destruct H as [H|H]; [apply in_unless in H; destruct H as [H E]; injection E as -> ->; split; [unfold known; auto|exact (wrong_frame _ _ H)]|].
    destruct (time_of _) as [s| | | | |] eqn:ES; cbn [andthen] in H; try contradiction. apply time_same in ES. subst s.
    apply in_say in H. destruct H as [H|H]; [apply in_unless in H; destruct H as [H E]; injection E as -> ->; split; [unfold known; auto|exact H]|].
    destruct (compute_delay_step _ _ _ _) as [d| | | | |] eqn:ED; cbn [andthen] in H; try contradiction.
    apply in_say in H. destruct H as [H|H]; [apply in_unless in H; destruct H as [H E]; injection E as -> ->; split; [unfold known; auto|]|].
    { exists d. split; [exact ED|]. unfold check_delay_step in H. cbn in H. lia. }
    destruct (check_delay_step _ _); cbn [negb] in H; [|contradiction].
    apply in_say in H. destruct H as [H|H]; [apply in_unless in H; destruct H as [H E]; injection E as -> ->; split; [unfold known; auto 7|exact (not_finite _ H)]|].
    destruct (all_finite _ _); cbn [negb] in H; [|contradiction].
    destruct (kf_get_x _ _ _ _) as [x| | | | |] eqn:EX; cbn [andthen] in H; try contradiction.
    apply in_say in H. destruct H as [H|H]; [apply in_unless in H; destruct H as [H E]; injection E as -> ->; split; [unfold known; auto 7|]|].
    { exists d, x. split; [exact ED|]. split; [exact EX|exact H]. }
    destruct (gate _ _ _ _ _ _); cbn [negb] in H; [|contradiction].
    destruct (twist_measurement_covariance _ _ _) as [N| | | | |] eqn:EN; cbn [andthen] in H; try contradiction. apply covariance_entries in EN. subst N.
    unfold try_update_warn in H. destruct (kf_update _ _ _ _ _ _ _) eqn:EU; cbn in H; try contradiction. destruct H as [H|[]]. injection H as <- <-.
    split; [unfold known; auto 7|]. exists d. split; [exact ED|exact EU].
Qed.

Lemma said {X} w (r : list call * outcome X) c : In c (fst r) -> In c (fst (say w r)).
Proof. cbn. intros H. apply in_or_app. auto. Qed.
Lemma said_now {X} x (r : list call * outcome X) : In x (fst (say (warn_unless false x) r)).
Proof. cbn. auto. Qed.
Lemma say_snd {X} w (r : list call * outcome X) : snd (say w r) = snd r.
Proof. reflexivity. Qed.
Lemma handle_dropped h f' : snd (handle h) = Ok f' -> fused h f' \/ (f' = filter_of A Orient K h /\ exists ms r, In (ms, r) (fst (handle h)) /\ dropping r).
Proof.
  destruct h as [f now dt m|f now dt m]; cbn [WarnModel.handle filter_of]; unfold pose_warn, twist_warn; intros H.
  - rewrite say_snd in H. destruct (time_of _) as [s| | | | |] eqn:ES; cbn [andthen] in *; try discriminate. apply time_same in ES. subst s.
    rewrite say_snd in H. destruct (compute_delay_step _ _ _ _) as [d| | | | |] eqn:ED; cbn [andthen] in *; try discriminate.
    rewrite say_snd in H. destruct (check_delay_step _ _) eqn:E1; cbn [negb] in *.
    2:{ injection H as <-. right. split; [reflexivity|]. exists (Some 1000), TooOld. split; [|unfold dropping; auto]. do 2 apply said. apply said_now. }
    rewrite say_snd in H. destruct (all_finite _ _); cbn [negb] in *.
    2:{ injection H as <-. right. split; [reflexivity|]. exists None, NotFinite. split; [|unfold dropping; auto]. do 3 apply said. apply said_now. }
    destruct (kf_get_x _ _ _ _) as [x| | | | |]; cbn [andthen] in *; try discriminate.
    rewrite say_snd in H. destruct (gate _ _ _ _ _ _); cbn [negb] in *.
    2:{ injection H as <-. right. split; [reflexivity|]. exists (Some 2000), OverGate. split; [|unfold dropping; auto]. do 4 apply said. apply said_now. }
    destruct (pose_measurement_covariance _ _ _) as [N| | | | |] eqn:EN; cbn [andthen] in *; try discriminate. apply covariance_entries in EN. subst N.
    unfold try_update_warn in *. destruct (kf_update _ _ _ _ _ _ _) eqn:EU; try discriminate H.
    + left. cbn in H. injection H as <-. exists d. split; [exact ED|exact EU].
    + injection H as <-. right. split; [reflexivity|]. exists None, UpdateFailed. split; [|unfold dropping; auto]. do 5 apply said. left. reflexivity.
  - rewrite say_snd in H. destruct (time_of _) as [s| | | | |] eqn:ES; cbn [andthen] in *; try discriminate. apply time_same in ES. subst s.
    rewrite say_snd in H. destruct (compute_delay_step _ _ _ _) as [d| | | | |] eqn:ED; cbn [andthen] in *; try discriminate.
    rewrite say_snd in H. destruct (check_delay_step _ _) eqn:E1; cbn [negb] in *.
    2:{ injection H as <-. right. split; [reflexivity|]. exists (Some 1000), TooOld. split; [|unfold dropping; auto]. do 2 apply said. apply said_now. }
    rewrite say_snd in H. destruct (all_finite _ _); cbn [negb] in *.
    2:{ injection H as <-. right. split; [reflexivity|]. exists None, NotFinite. split; [|unfold dropping; auto]. do 3 apply said. apply said_now. }
    destruct (kf_get_x _ _ _ _) as [x| | | | |]; cbn [andthen] in *; try discriminate.
    rewrite say_snd in H. destruct (gate _ _ _ _ _ _); cbn [negb] in *.
    2:{ injection H as <-. right. split; [reflexivity|]. exists (Some 2000), OverGate. split; [|unfold dropping; auto]. do 4 apply said. apply said_now. }
    destruct (twist_measurement_covariance _ _ _) as [N| | | | |] eqn:EN; cbn [andthen] in *; try discriminate. apply covariance_entries in EN. subst N.
    unfold try_update_warn in *. destruct (kf_update _ _ _ _ _ _ _) eqn:EU; try discriminate H.
    + left. cbn in H. injection H as <-. exists d. split; [exact ED|exact EU].
    + injection H as <-. right. split; [reflexivity|]. exists None, UpdateFailed. split; [|unfold dropping; auto]. do 5 apply said. left. reflexivity.
Qed.

Lemma raised_known hs : Forall known (raised A roundf sin cos atan2 Orient get_yaw K prm hs).
Proof.
  apply Forall_forall. intros [ms r] H. unfold raised in H. apply in_flat_map in H. destruct H as (h & _ & H). apply (handle_known h). exact H.
Qed.
End Handle.
