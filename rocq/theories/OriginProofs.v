(** The EKF localizer on a moved history: simulation behind C104 and C105. *)
From Coq Require Import Reals Lra Lia PeanoNat List Bool ZArith ZifyBool ZifyNat String FunctionalExtensionality.
From Verif Require Import Base Arith EkfModel KalmanModel SpecKalman StackProofs SpecOrigin.
Import ListNotations.
Local Open Scope R_scope.

(** ** Related outcomes *)
Definition rel {X Y} (r : X -> Y -> Prop) (m : outcome X) (m' : outcome Y) : Prop :=
  match m, m' with
  | Ok x, Ok y => r x y
  | ThrowInvalid, ThrowInvalid | ThrowRange, ThrowRange | ThrowOther, ThrowOther | AssertFail, AssertFail | UB, UB => True
  | _, _ => False
  end.
Lemma rel_bind {X Y X' Y'} (r : X -> Y -> Prop) (s : X' -> Y' -> Prop) m m' k k' :
  rel r m m' -> (forall x y, r x y -> rel s (k x) (k' y)) -> rel s (bind m k) (bind m' k').
Proof. intros H K. destruct m, m'; cbn in *; auto; contradiction. Qed.
Lemma rel_same {X Y Y'} (s : Y -> Y' -> Prop) (m : outcome X) k k' :
  (forall x, rel s (k x) (k' x)) -> rel s (bind m k) (bind m k').
Proof. intros K. destruct m; cbn in *; auto. Qed.

Lemma sum_ext n f g : (forall i, (i < n)%nat -> f i = g i) -> KalmanModel.sum exact n f = KalmanModel.sum exact n g.
Proof. intros H. rewrite !sum_total. apply total_ext. auto. Qed.

Section Origin.
Variables a b c : R.
Variable tau : Z.
Variable inverse : nat -> EkfModel.matrix exact -> option (EkfModel.matrix exact).
Variable junk : nat -> nat -> R.
Notation K := (ekf_kalman exact inverse junk).

(** ** The filter *)
Definition offset (i : nat) : R := nth (i mod 6) [a; b; 0; 0; 0; 0] 0.
Arguments offset : simpl never.
Record near (f f' : tdkf exact) : Prop := Near {
  nr_P : td_P exact f' = td_P exact f;
  nr_max : td_max exact f' = td_max exact f;
  nr_pos : (0 < td_max exact f)%Z;
  nr_dim : td_dim exact f = 6%nat;
  nr_dim' : td_dim exact f' = 6%nat;
  nr_x : forall i, (i < td_size exact f)%nat -> td_x exact f' i = td_x exact f i + offset i }.

Definition moved_state (s : state exact) : state exact :=
  State exact (st_x _ s + a) (st_y _ s + b) (st_yaw _ s) (st_bias _ s) (st_vx _ s) (st_wz _ s).
Lemma size_pos f f' : near f f' -> (6 <= td_size exact f)%nat.
Proof. intros H. unfold td_size. rewrite (nr_dim _ _ H). assert (E := nr_pos _ _ H). lia. Qed.
Lemma size_eq f f' : near f f' -> td_size exact f' = td_size exact f.
Proof. intros H. unfold td_size. rewrite (nr_dim _ _ H), (nr_dim' _ _ H), (nr_max _ _ H). auto. Qed.

Lemma to_vector_moved s i : to_vector exact (moved_state s) i = to_vector exact s i + nth i [a; b; 0; 0; 0; 0] 0.
Proof. unfold to_vector, moved_state. do 6 (destruct i as [|i]; [cbn; lra|]). cbn. destruct i; cbn; lra. Qed.

Lemma near_new s P n : rel near (kf_new exact K s P n) (kf_new exact K (moved_state s) P n).
Proof.
  cbn. unfold td_new. destruct (0 <? n)%Z eqn:E; cbn; auto. constructor; cbn; auto; try lia.
  unfold td_size. cbn. intros i Hi. rewrite !init_x_entry by lia. rewrite to_vector_moved. reflexivity.
Qed.

Lemma near_block f f' d : near f f' -> (0 <= d < td_max exact f)%Z ->
  of_vector exact (fun i => td_x exact f' (Z.to_nat d * 6 + i)%nat) = moved_state (of_vector exact (fun i => td_x exact f (Z.to_nat d * 6 + i)%nat)).
Proof.
  intros H Hd. unfold of_vector, moved_state. cbn [st_x st_y st_yaw st_bias st_vx st_wz].
  assert (E : forall i, (i < 6)%nat -> td_x exact f' (Z.to_nat d * 6 + i)%nat = td_x exact f (Z.to_nat d * 6 + i)%nat + nth i [a; b; 0; 0; 0; 0] 0).
  { intros i Hi. rewrite (nr_x _ _ H).
    - unfold offset. rewrite Nat.add_comm, Nat.mod_add, Nat.mod_small by lia. auto.
    - unfold td_size. rewrite (nr_dim _ _ H). nia. }
  rewrite !E by lia. cbn. f_equal; lra.
Qed.
Lemma near_latest f f' : near f f' -> kf_latest_x exact K f' = moved_state (kf_latest_x exact K f).
Proof. intros H. assert (E := near_block f f' 0 H). cbn in E. cbn. apply E. split; [lia|]. apply (nr_pos _ _ H). Qed.
Lemma near_get f f' d : near f f' ->
  rel (fun s s' => s' = moved_state s) (kf_get_x exact K f d) (kf_get_x exact K f' d).
Proof.
  intros H. cbn. unfold td_get_x. rewrite (nr_max _ _ H), (nr_dim _ _ H), (nr_dim' _ _ H).
  destruct ((0 <=? d)%Z && (d <? td_max exact f)%Z) eqn:E; cbn; auto. apply (near_block f f' d H). lia.
Qed.
Lemma near_predict f f' s M Q : near f f' -> rel near (kf_predict exact K f s M Q) (kf_predict exact K f' (moved_state s) M Q).
Proof.
  intros H. assert (S1 := size_pos _ _ H). assert (S2 := size_eq _ _ H).
  cbn. constructor; cbn.
  - rewrite S2, (nr_P _ _ H), (nr_dim _ _ H), (nr_dim' _ _ H). auto.
  - apply (nr_max _ _ H).
  - apply (nr_pos _ _ H).
  - apply (nr_dim _ _ H).
  - apply (nr_dim' _ _ H).
  - unfold td_size at 1. cbn. fold (td_size exact f). intros i Hi. rewrite S2, (nr_dim _ _ H), (nr_dim' _ _ H).
    rewrite !update_x_entry by lia. destruct (Nat.ltb_spec i 6) as [L|L].
    + rewrite to_vector_moved. unfold offset. rewrite Nat.mod_small by lia. auto.
    + rewrite (nr_x _ _ H) by lia. unfold offset. f_equal. f_equal. replace i with ((i - 6) + 1 * 6)%nat at 2 by lia.
      rewrite Nat.mod_add by lia. auto.
Qed.

(** What a measurement of the delayed block sees of the offset. *)
Definition seen (C : list (list R)) (i : nat) : R :=
  total 6 (fun l => list_matrix exact C i l * nth l [a; b; 0; 0; 0; 0] 0).
Lemma measured_offset f f' C h d i : near f f' -> (0 <= d < td_max exact f)%Z -> (i < h)%nat ->
  let M := make_measurement_matrix exact h 6 (list_matrix exact C) (Z.to_nat (td_max exact f)) (Z.to_nat d) in
  mvec exact (td_size exact f) M (td_x exact f') i = mvec exact (td_size exact f) M (td_x exact f) i + seen C i.
Proof.
  intros H Hd Hi M. unfold mvec. rewrite !sum_total. cbn [d_mul exact].
  rewrite (total_ext (td_size exact f) (fun l => M i l * td_x exact f' l) (fun l => M i l * td_x exact f l + M i l * offset l)).
  2: { intros l Hl. rewrite (nr_x _ _ H) by auto. lra. }
  rewrite total_plus. f_equal.
  assert (B : (td_size exact f = 6 * Z.to_nat d + (6 + (td_size exact f - 6 * Z.to_nat d - 6)))%nat).
  { unfold td_size. rewrite (nr_dim _ _ H). nia. }
  rewrite B, total_split, total_split. rewrite total_zero.
  2: { intros l Hl. unfold M, make_measurement_matrix, set_block, mzero. tests. cbn. lra. }
  rewrite (total_zero (td_size exact f - 6 * Z.to_nat d - 6)).
  2: { intros l Hl. unfold M, make_measurement_matrix, set_block, mzero. tests. cbn. lra. }
  rewrite Rplus_0_l, Rplus_0_r. unfold seen. apply total_ext. intros l Hl.
  unfold M, make_measurement_matrix, set_block. tests. unfold offset.
  replace (6 * Z.to_nat d + l)%nat with (l + Z.to_nat d * 6)%nat by lia. rewrite Nat.mod_add, Nat.mod_small by lia.
  f_equal. f_equal; lia.
Qed.

Lemma near_update f f' y y' C R d : near f f' -> List.length y' = List.length y ->
  (forall i, (i < List.length y)%nat -> list_vector exact y' i = list_vector exact y i + seen C i) ->
  rel near (kf_update exact K f y C R d) (kf_update exact K f' y' C R d).
Proof.
  intros H Hl Hy. assert (S2 := size_eq _ _ H). cbn [kf_update ekf_kalman]. unfold td_update. rewrite Hl, S2, (nr_P _ _ H), (nr_max _ _ H), (nr_dim _ _ H), (nr_dim' _ _ H).
  destruct (td_max exact f <=? d)%Z eqn:E1; cbn; auto. destruct (d <? 0)%Z eqn:E2; cbn; auto.
  destruct (gain _ _ _ _ _ _ _) as [G|]; cbn; auto. destruct (finite_matrix _ _ _ _); cbn; auto.
  constructor; cbn; auto.
  - apply (nr_pos _ _ H).
  - intros i Hi'. assert (Hi : (i < td_size exact f)%nat) by (revert Hi'; unfold td_size; rewrite (nr_dim _ _ H); auto).
    unfold update_state, vadd. cbn. rewrite (nr_x _ _ H) by auto.
    rewrite !Rplus_assoc. f_equal. rewrite Rplus_comm. f_equal.
    unfold mvec at 1 3. apply sum_ext. intros l Hll. cbn. f_equal. unfold vsub. cbn.
    rewrite Hy by auto. rewrite (measured_offset f f' C _ d l H) by (auto; lia). lra.
Qed.

Lemma seen_pose y0 y1 y2 i : (i < 3)%nat ->
  list_vector exact [y0 + a; y1 + b; y2] i = list_vector exact [y0; y1; y2] i + seen (pose_measurement_matrix exact) i.
Proof. intros Hi. destruct i as [|[|[|i]]]; try lia; cbn; lra. Qed.
Lemma seen_twist y i : (i < 2)%nat -> list_vector exact y i = list_vector exact y i + seen (twist_measurement_matrix exact) i.
Proof. intros Hi. destruct i as [|[|i]]; try lia; cbn; lra. Qed.

Lemma gate_moved g u0 u1 u2 v0 v1 v2 P :
  gate exact K g [u0 + a; u1 + b; u2] [v0 + a; v1 + b; v2] P = gate exact K g [u0; u1; u2] [v0; v1; v2] P.
Proof.
  cbn. unfold mahalanobis_gate, squared_mahalanobis.
  replace (vsub exact (list_vector exact [u0 + a; u1 + b; u2]) (list_vector exact [v0 + a; v1 + b; v2]))
    with (vsub exact (list_vector exact [u0; u1; u2]) (list_vector exact [v0; v1; v2])); auto.
  apply functional_extensionality. intros i. unfold vsub, list_vector. do 3 (destruct i as [|i]; [cbn; lra|]). cbn. destruct i; auto.
Qed.

(** ** Measurements *)
Variable roundf : R -> option Z.
Variables sin cos : R -> R.
Variable atan2 : R -> R -> R.
Variable neg : R -> R.
Variable Orient : Type.
Variables get_yaw get_roll get_pitch : Orient -> R.
Notation mp := (moved_pose Orient a b c tau).
Notation mt := (moved_twist tau).
Definition stamp_ok (t : Z) : Prop := (0 <= t <-> 0 <= t + tau)%Z.

Lemma time_moved t : stamp_ok t -> rel (fun u u' => u = t /\ u' = (t + tau)%Z) (time_of t) (time_of (t + tau)).
Proof.
  intros H. unfold stamp_ok, time_of in *. destruct (t <? 0)%Z eqn:E1, (t + tau <? 0)%Z eqn:E2; cbn; auto; lia.
Qed.

Lemma finite_exact y : all_finite exact y = true.
Proof. unfold all_finite. induction y; cbn; auto. Qed.

Notation pbody := (pose_body exact roundf sin cos atan2 Orient get_yaw K).
Notation tbody := (twist_body exact roundf K).
Lemma pose_body_moved p now dt f f' m : near f f' -> stamp_ok (p_stamp _ _ m) ->
  rel near (pbody p now dt f m) (pbody p (now + tau)%Z dt f' (mp m)).
Proof.
  intros H Hs. unfold pose_body. cbn [p_stamp mp].
  eapply rel_bind; [apply (time_moved _ Hs)|]. intros u u' [-> ->].
  replace (compute_delay_time exact (now + tau) (p_stamp exact Orient m + tau)) with (compute_delay_time exact now (p_stamp exact Orient m)).
  2: { unfold compute_delay_time. f_equal. lia. }
  apply rel_same. intros d. destruct (negb (check_delay_step _ _)); [exact H|].
  rewrite !finite_exact. cbn [negb].
  eapply rel_bind; [apply near_get, H|]. intros s s' ->.
  unfold get_pose_state, pose_measurement_vector. cbn [st_x st_y st_yaw moved_state p_x p_y p_orient mp moved_pose].
  rewrite gate_moved. cbn [kf_latest_p ekf_kalman]. unfold td_latest_p. rewrite (nr_P _ _ H).
  destruct (negb (gate _ _ _ _ _ _)); [exact H|]. cbn [p_cov mp moved_pose].
  apply rel_same. intros Rm. unfold try_update.
  assert (U := near_update f f' [p_x _ _ m; p_y _ _ m; normalize_yaw exact sin cos atan2 (get_yaw (p_orient _ _ m))]
    [p_x _ _ m + a; p_y _ _ m + b; normalize_yaw exact sin cos atan2 (get_yaw (p_orient _ _ m))]
    (pose_measurement_matrix exact) Rm d H eq_refl
    (seen_pose (p_x _ _ m) (p_y _ _ m) (normalize_yaw exact sin cos atan2 (get_yaw (p_orient _ _ m))))).
  destruct (kf_update exact K f _ _ _ _), (kf_update exact K f' _ _ _ _); cbn in U |- *; auto; contradiction.
Qed.
Lemma twist_body_moved p now dt f f' m : near f f' -> stamp_ok (t_stamp _ m) ->
  rel near (tbody p now dt f m) (tbody p (now + tau)%Z dt f' (mt m)).
Proof.
  intros H Hs. unfold twist_body. cbn [t_stamp mt].
  eapply rel_bind; [apply (time_moved _ Hs)|]. intros u u' [-> ->].
  replace (compute_delay_time exact (now + tau) (t_stamp exact m + tau)) with (compute_delay_time exact now (t_stamp exact m)).
  2: { unfold compute_delay_time. f_equal. lia. }
  apply rel_same. intros d. destruct (negb (check_delay_step _ _)); [exact H|].
  rewrite !finite_exact. cbn [negb].
  eapply rel_bind; [apply near_get, H|]. intros s s' ->.
  unfold get_twist_state, twist_measurement_vector. cbn [st_vx st_wz moved_state t_vx t_wz mt moved_twist].
  cbn [kf_latest_p ekf_kalman]. unfold td_latest_p. rewrite (nr_P _ _ H).
  destruct (negb (gate _ _ _ _ _ _)); [exact H|]. cbn [t_cov mt moved_twist].
  apply rel_same. intros Rm. unfold try_update.
  assert (U := near_update f f' [t_vx _ m; t_wz _ m] [t_vx _ m; t_wz _ m] (twist_measurement_matrix exact) Rm d H eq_refl (seen_twist [t_vx _ m; t_wz _ m])).
  destruct (kf_update exact K f _ _ _ _), (kf_update exact K f' _ _ _ _); cbn in U |- *; auto; contradiction.
Qed.

(** ** Queues *)
Definition moved_queue {X} (g : X -> X) (q : queue X) : queue X := Queue (map g (msgs q)) (ages q).
Lemma pop_moved {X} (g : X -> X) (ok : X -> Prop) n q : Forall ok (msgs q) ->
  rel (fun r r' => fst r' = g (fst r) /\ snd r' = moved_queue g (snd r) /\ ok (fst r) /\ Forall ok (msgs (snd r)))
    (q_pop n q) (q_pop n (moved_queue g q)).
Proof.
  destruct q as [[|x ms] [|y ys]]; cbn; auto. intros H. inversion H; subst.
  destruct (y + 1 <? n)%Z; cbn; repeat split; auto.
  - unfold moved_queue. cbn. rewrite map_app. auto.
  - apply Forall_app. auto.
Qed.
Lemma loop_moved {X S S'} (g : X -> X) (ok : X -> Prop) (r : S -> S' -> Prop) (body : S -> X -> outcome S) (body' : S' -> X -> outcome S') n :
  (forall s s' m, r s s' -> ok m -> rel r (body s m) (body' s' (g m))) ->
  forall fuel i q s s', r s s' -> Forall ok (msgs q) ->
  rel (fun x x' => fst x' = moved_queue g (fst x) /\ Forall ok (msgs (fst x)) /\ r (snd x) (snd x'))
    (update_loop body n fuel i q s) (update_loop body' n fuel i (moved_queue g q) s').
Proof.
  intros Hb. induction fuel as [|k IH]; intros i q s s' Hs Ho; cbn [update_loop];
    (replace (q_size (moved_queue g q)) with (q_size q) by (unfold q_size, zlen, moved_queue; cbn; rewrite map_length; auto)).
  - destruct (i <? q_size q)%Z; cbn; auto.
  - destruct (i <? q_size q)%Z; cbn [rel]; auto.
    eapply rel_bind; [apply (pop_moved g ok n q Ho)|]. intros [m q1] [m' q1'] [E1 [E2 [O1 O2]]]. cbn in E1, E2, O1, O2. subst m' q1'.
    eapply rel_bind; [apply (Hb s s' m Hs O1)|]. intros t t' Ht. apply IH; auto.
Qed.

(** ** One-dimensional filters *)
Record f1near (k : R) (f f' : filter1d exact) : Prop := F1near {
  f1_i : f_init exact f' = f_init exact f;
  f1_p : f_proc exact f' = f_proc exact f;
  f1_v : f_init exact f = true -> f_x exact f' = f_x exact f + k /\ f_stddev exact f' = f_stddev exact f /\ f_time exact f' = (f_time exact f + tau)%Z }.
Lemma f1_moved k f f' o d t : f1near k f f' ->
  f1near k (f1_update exact f o d t) (f1_update exact f' (o + k) d (t + tau)) /\ f_init exact (f1_update exact f o d t) = true.
Proof.
  intros [H1 H2 H3]. unfold f1_update. rewrite H1, H2. destruct (f_init exact f) eqn:E.
  - destruct (H3 eq_refl) as [E1 [E2 E3]]. rewrite E1, E2, E3.
    replace (t + tau - (f_time exact f + tau))%Z with (t - f_time exact f)%Z by lia.
    split; [|auto]. constructor; cbn; auto. intros _. split; [|auto]. 
    match goal with |- _ + _ + ?g * _ = _ => replace (o + k - (f_x exact f + k)) with (o - f_x exact f) by lra end. lra.
  - split; [|auto]. constructor; cbn; auto.
Qed.

(** ** The node *)
Variable prm : params exact.
Notation nodeT := (node exact Orient K).
Record nrel (n n' : nodeT) : Prop := Nrel {
  r_ekf : match n_ekf _ _ _ n, n_ekf _ _ _ n' with
          | None, None => True
          | Some f, Some f' => near f f'
          | _, _ => False end;
  r_last : n_last _ _ _ n' = option_map (fun l => l + IZR tau / 1000000000) (n_last _ _ _ n);
  r_pose : n_pose _ _ _ n' = moved_queue mp (n_pose _ _ _ n);
  r_pose_ok : Forall (fun m => stamp_ok (p_stamp _ _ m)) (msgs (n_pose _ _ _ n));
  r_twist : n_twist _ _ _ n' = moved_queue mt (n_twist _ _ _ n);
  r_twist_ok : Forall (fun m => stamp_ok (t_stamp _ m)) (msgs (n_twist _ _ _ n));
  r_z : f1near c (n_z _ _ _ n) (n_z _ _ _ n');
  r_roll : f1near 0 (n_roll _ _ _ n) (n_roll _ _ _ n');
  r_pitch : f1near 0 (n_pitch _ _ _ n) (n_pitch _ _ _ n');
  r_out : n_out _ _ _ n' = map (moved_output a b c tau) (n_out _ _ _ n) }.
(** height, roll and pitch are initialised *)
Definition started (n : nodeT) : Prop :=
  f_init _ (n_z _ _ _ n) = true /\ f_init _ (n_roll _ _ _ n) = true /\ f_init _ (n_pitch _ _ _ n) = true.
Definition full (n n' : nodeT) : Prop := nrel n n' /\ (n_ekf _ _ _ n <> None -> started n).

Lemma new_rel : full (node_new exact Orient K) (node_new exact Orient K).
Proof. split; [constructor; cbn; auto; constructor; cbn; auto; discriminate|]. cbn. congruence. Qed.

Lemma interval_moved fr last t1 :
  let r := interval_compute exact fr last (seconds exact t1) in
  let r' := interval_compute exact fr (option_map (fun l => l + IZR tau / 1000000000) last) (seconds exact (t1 + tau)) in
  fst r' = fst r /\ snd r' = option_map (fun l => l + IZR tau / 1000000000) (snd r).
Proof.
  assert (E : seconds exact (t1 + tau) = seconds exact t1 + IZR tau / 1000000000) by (unfold seconds; cbn; rewrite plus_IZR; lra).
  cbn zeta. rewrite E. unfold interval_compute. destruct last as [l|]; cbn [option_map]; [|cbn; auto].
  replace (d_ltb exact (seconds exact t1 + IZR tau / 1000000000) (l + IZR tau / 1000000000)) with (d_ltb exact (seconds exact t1) l).
  2: { cbn. unfold Rltb. destruct (Rlt_dec _ _), (Rlt_dec _ _); auto; lra. }
  destruct (d_ltb exact (seconds exact t1) l); [cbn; auto|].
  replace (d_sub exact (seconds exact t1 + IZR tau / 1000000000) (l + IZR tau / 1000000000)) with (d_sub exact (seconds exact t1) l) by (cbn; lra).
  split; reflexivity.
Qed.

Notation step := (node_step exact roundf sin cos atan2 neg Orient get_yaw get_roll get_pitch K prm).
Lemma timer_moved n n' t1 t2 t3 t4 t5 : full n n' ->
  rel full (step n (EvTimer exact Orient t1 t2 t3 t4 t5)) (step n' (moved_event Orient a b c tau (EvTimer exact Orient t1 t2 t3 t4 t5))).
Proof.
  intros [H St]. assert (He := r_ekf _ _ H). cbn [node_step moved_event]. unfold timer_callback.
  destruct (n_ekf exact Orient K n) as [f|] eqn:E1, (n_ekf exact Orient K n') as [f'|] eqn:E2; try contradiction; [|split; auto; congruence].
  assert (Hf := He). destruct (St ltac:(discriminate)) as [Hz [Hr Hp]]. rewrite (r_last _ _ H).
  assert (I := interval_moved (default_frequency exact prm) (n_last exact Orient K n) t1). cbn zeta in I.
  destruct (interval_compute exact (default_frequency exact prm) (n_last exact Orient K n) (seconds exact t1)) as [o last].
  destruct (interval_compute exact (default_frequency exact prm) (option_map (fun l : R => l + IZR tau / 1000000000) (n_last exact Orient K n)) (seconds exact (t1 + tau))) as [o' last']. cbn in I. destruct I as [-> ->].
  destruct o as [dt| | | | |]; cbn [rel]; auto.
  2: { split; [|intros _; repeat split; auto]. constructor; cbn [n_ekf n_last n_pose n_twist n_z n_roll n_pitch n_out]; try apply H; auto. }
  rewrite (near_latest f f' Hf).
  replace (create_state_transition_matrix exact sin cos neg (moved_state (kf_latest_x exact K f)) dt)
    with (create_state_transition_matrix exact sin cos neg (kf_latest_x exact K f) dt) by reflexivity.
  replace (predict_next_state exact sin cos atan2 (moved_state (kf_latest_x exact K f)) dt)
    with (moved_state (predict_next_state exact sin cos atan2 (kf_latest_x exact K f) dt)).
  2: { unfold predict_next_state, predict_with, moved_state. cbn [st_x st_y st_yaw st_bias st_vx st_wz]. cbn [exact d_add d_mul]. f_equal; lra. }
  eapply rel_bind; [apply near_predict, Hf|]. intros g g' Hg. rewrite (r_pose _ _ H), (r_twist _ _ H).
  eapply rel_bind.
  { unfold pose_update. replace (List.length (msgs (moved_queue mp (n_pose exact Orient K n)))) with (List.length (msgs (n_pose exact Orient K n))) by (cbn; rewrite map_length; auto).
    apply (loop_moved mp (fun m => stamp_ok (p_stamp _ _ m)) near); [|exact Hg|apply (r_pose_ok _ _ H)].
    intros s s' m Hs Hm. apply pose_body_moved; auto. }
  intros [pq g1] [pq' g1'] [Eq [Oq Hg1]]. cbn in Eq, Oq, Hg1. subst pq'.
  eapply rel_bind.
  { unfold twist_update. replace (List.length (msgs (moved_queue mt (n_twist exact Orient K n)))) with (List.length (msgs (n_twist exact Orient K n))) by (cbn; rewrite map_length; auto).
    apply (loop_moved mt (fun m => stamp_ok (t_stamp _ m)) near); [|exact Hg1|apply (r_twist_ok _ _ H)].
    intros s s' m Hs Hm. apply twist_body_moved; auto. }
  intros [tq g2] [tq' g2'] [Et [Ot Hg2]]. cbn in Et, Ot, Hg2. subst tq'.
  cbn [rel]. rewrite (near_latest g2 g2' Hg2).
  assert (Ep : kf_latest_p exact K g2' = kf_latest_p exact K g2) by exact (nr_P _ _ Hg2). rewrite Ep.
  destruct (f1_v _ _ _ (r_z _ _ H) Hz) as [Xz _], (f1_v _ _ _ (r_roll _ _ H) Hr) as [Xr _], (f1_v _ _ _ (r_pitch _ _ H) Hp) as [Xp _].
  split; [|intros _; repeat split; auto].
  constructor; cbn [n_ekf n_last n_pose n_twist n_z n_roll n_pitch n_out]; try apply H; auto.
  rewrite map_app, (r_out _ _ H), Xz, Xr, Xp, !Rplus_0_r. reflexivity.
Qed.

Lemma filters_moved n n' m : nrel n n' -> stamp_ok (p_stamp _ _ m) ->
  rel (fun n1 n1' => nrel n1 n1' /\ started n1)
    (update_simple_filters exact Orient get_roll get_pitch K n m) (update_simple_filters exact Orient get_roll get_pitch K n' (mp m)).
Proof.
  intros H Hs. unfold update_simple_filters. cbn [p_cov p_stamp p_z p_orient moved_pose].
  apply rel_same. intros c2. apply rel_same. intros c3. apply rel_same. intros c4.
  eapply rel_bind; [apply (time_moved _ Hs)|]. intros u u' [-> ->]. cbn [rel].
  destruct (f1_moved c _ _ (p_z _ _ m) (d_sqrt exact c2) (p_stamp _ _ m) (r_z _ _ H)) as [Z1 Z2].
  destruct (f1_moved 0 _ _ (get_roll (p_orient _ _ m)) (d_sqrt exact c3) (p_stamp _ _ m) (r_roll _ _ H)) as [R1 R2].
  destruct (f1_moved 0 _ _ (get_pitch (p_orient _ _ m)) (d_sqrt exact c4) (p_stamp _ _ m) (r_pitch _ _ H)) as [P1 P2].
  rewrite Rplus_0_r in R1, P1.
  split; [|repeat split; auto]. constructor; cbn [n_ekf n_last n_pose n_twist n_z n_roll n_pitch n_out]; try apply H; auto.
Qed.

Lemma step_moved n n' e : full n n' -> Forall stamp_ok (stamps Orient e) ->
  rel full (step n e) (step n' (moved_event Orient a b c tau e)).
Proof.
  intros HF Hs. destruct e as [t1 t2 t3 t4 t5|m tf|m|m]; cbn [stamps] in Hs.
  - apply timer_moved. auto.
  - destruct HF as [H St]. cbn [node_step moved_event]. unfold callback_initial_pose. cbn [p_frame moved_pose].
    apply rel_same. intros _. apply rel_same. intros _. destruct tf as [tr|]; [|cbn; auto].
    cbn [p_cov p_x p_y p_orient moved_pose]. apply rel_same. intros P.
    inversion Hs; subst.
    replace (init_state exact (d_add exact (p_x exact Orient m + a) (tr_x exact Orient tr)) (d_add exact (p_y exact Orient m + b) (tr_y exact Orient tr))
               (d_add exact (get_yaw (p_orient exact Orient m)) (get_yaw (tr_rot exact Orient tr))))
      with (moved_state (init_state exact (d_add exact (p_x exact Orient m) (tr_x exact Orient tr)) (d_add exact (p_y exact Orient m) (tr_y exact Orient tr))
               (d_add exact (get_yaw (p_orient exact Orient m)) (get_yaw (tr_rot exact Orient tr))))).
    2: { unfold init_state, moved_state. cbn. f_equal; lra. }
    eapply rel_bind; [apply near_new|]. intros f f' Hf.
    eapply rel_bind.
    { apply filters_moved; auto. constructor; cbn [n_ekf n_last n_pose n_twist n_z n_roll n_pitch n_out]; try apply H; auto. }
    intros n1 n1' [H1 S1]. cbn [rel]. split; [|intros _; exact S1].
    constructor; cbn [n_ekf n_last n_pose n_twist n_z n_roll n_pitch n_out]; try apply H1; auto; cbn; auto.
  - destruct HF as [H St]. inversion Hs; subst. cbn [node_step moved_event]. unfold callback_pose.
    assert (F : rel (fun n1 n1' => nrel n1 n1' /\ started n1)
      (update_simple_filters exact Orient get_roll get_pitch K (Node exact Orient K (n_ekf _ _ _ n) (n_last _ _ _ n) (q_push (n_pose _ _ _ n) m) (n_twist _ _ _ n) (n_z _ _ _ n) (n_roll _ _ _ n) (n_pitch _ _ _ n) (n_out _ _ _ n)) m)
      (update_simple_filters exact Orient get_roll get_pitch K (Node exact Orient K (n_ekf _ _ _ n') (n_last _ _ _ n') (q_push (n_pose _ _ _ n') (mp m)) (n_twist _ _ _ n') (n_z _ _ _ n') (n_roll _ _ _ n') (n_pitch _ _ _ n') (n_out _ _ _ n')) (mp m))).
    { apply filters_moved; auto. constructor; cbn [n_ekf n_last n_pose n_twist n_z n_roll n_pitch n_out]; try apply H; auto.
      - rewrite (r_pose _ _ H). unfold q_push, moved_queue. cbn. rewrite map_app. auto.
      - cbn. apply Forall_app. split; [apply H|auto]. }
    destruct (update_simple_filters _ _ _ _ _ _ m), (update_simple_filters _ _ _ _ _ _ (mp m)); cbn in F |- *; auto.
    destruct F as [F1 F2]. split; auto.
  - destruct HF as [H St]. inversion Hs; subst. cbn [node_step moved_event]. unfold callback_twist. cbn [rel]. split; [|exact St].
    constructor; cbn [n_ekf n_last n_pose n_twist n_z n_roll n_pitch n_out]; try apply H; auto.
    + rewrite (r_twist _ _ H). unfold q_push, moved_queue. cbn. rewrite map_app. auto.
    + cbn. apply Forall_app. split; [apply H|auto].
Qed.

Lemma fold_moved h : forall n n', full n n' -> Forall (fun e => Forall stamp_ok (stamps Orient e)) h ->
  rel full (foldM step n h) (foldM step n' (map (moved_event Orient a b c tau) h)).
Proof.
  induction h as [|e h IH]; intros n n' H Hs; cbn [foldM map]; [exact H|]. inversion Hs; subst.
  eapply rel_bind; [apply step_moved; auto|]. intros m m' Hm. apply IH; auto.
Qed.

Theorem run_moved h : Forall (fun e => Forall stamp_ok (stamps Orient e)) h ->
  let run := node_run exact roundf sin cos atan2 neg Orient get_yaw get_roll get_pitch K prm in
  (n <- run (map (moved_event Orient a b c tau) h) ;; Ok (n_out _ _ _ n)) =
  (n <- run h ;; Ok (map (moved_output a b c tau) (n_out _ _ _ n))).
Proof.
  intros Hs run. assert (F := fold_moved h _ _ new_rel Hs). fold (run h) (run (map (moved_event Orient a b c tau) h)) in F.
  unfold run, node_run in *. destruct (foldM _ _ h), (foldM _ _ (map _ h)); cbn in F |- *; auto; try contradiction.
  destruct F as [F _]. rewrite (r_out _ _ F). auto.
Qed.
End Origin.
