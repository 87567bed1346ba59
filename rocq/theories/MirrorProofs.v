(** The EKF localizer in a mirror: simulation behind C120. *)
From Coq Require Import Reals Lra Lia PeanoNat List Bool ZArith ZifyBool ZifyNat String.
From Verif Require Import Base Arith EkfModel KalmanModel SpecKalman StackProofs KalmanProofs3 SpecOrigin OriginProofs SpecMirror.
Import ListNotations.
Local Open Scope R_scope.

Ltac rring := apply (Rplus_eq_reg_l 0); ring.
(** ** Signs *)
(** of the six entries of the state, block after block *)
Definition sg (i : nat) : R := nth (i mod 6) [1; -1; -1; -1; 1; -1] 0.
Arguments sg : simpl never.
Lemma sg_square i : sg i * sg i = 1.
Proof.
  unfold sg. assert (H := Nat.mod_upper_bound i 6 ltac:(lia)). set (r := (i mod 6)%nat) in *. clearbody r.
  do 6 (destruct r as [|r]; [cbn; lra|]). lia.
Qed.
Lemma sg_block i : (6 <= i)%nat -> sg (i - 6) = sg i.
Proof. intros H. unfold sg. replace i with ((i - 6) + 1 * 6)%nat at 2 by lia. rewrite Nat.mod_add by lia. reflexivity. Qed.
Lemma sg_small a r : (r < 6)%nat -> sg (a * 6 + r) = nth r [1; -1; -1; -1; 1; -1] 0.
Proof. intros H. unfold sg. rewrite Nat.add_comm, Nat.mod_add, Nat.mod_small by lia. reflexivity. Qed.
Lemma sg_mod i : sg (i mod 6) = sg i.
Proof. unfold sg. rewrite Nat.mod_mod by lia. reflexivity. Qed.

Lemma mmul_signed k (s : nat -> R) (X X' Y Y' : nat -> nat -> R) i j u v : (forall l, (l < k)%nat -> s l * s l = 1) ->
  (forall l, (l < k)%nat -> X' i l = u * s l * X i l) -> (forall l, (l < k)%nat -> Y' l j = s l * v * Y l j) ->
  mmul exact k X' Y' i j = u * v * mmul exact k X Y i j.
Proof.
  intros Hs HX HY. unfold mmul. rewrite !sum_total, <- total_scal. apply total_ext. intros l Hl. cbn [d_mul exact].
  rewrite HX, HY by auto. transitivity (u * v * (s l * s l) * (X i l * Y l j)); [ring|]. rewrite (Hs l Hl). ring.
Qed.
Lemma mvec_signed k (s : nat -> R) (X X' : nat -> nat -> R) (y y' : nat -> R) i u : (forall l, (l < k)%nat -> s l * s l = 1) ->
  (forall l, (l < k)%nat -> X' i l = u * s l * X i l) -> (forall l, (l < k)%nat -> y' l = s l * y l) ->
  mvec exact k X' y' i = u * mvec exact k X y i.
Proof.
  intros Hs HX HY. unfold mvec. rewrite !sum_total, <- total_scal. apply total_ext. intros l Hl. cbn [d_mul exact].
  rewrite HX, HY by auto. transitivity (u * (s l * s l) * (X i l * y l)); [ring|]. rewrite (Hs l Hl). ring.
Qed.

Section Mirror.
Variable inverse : nat -> EkfModel.matrix exact -> option (EkfModel.matrix exact).
Hypothesis Hinv : inverts inverse.
Variable junk : nat -> nat -> R.
Notation K := (ekf_kalman exact inverse junk).

(** Inversion of a matrix with signs. *)
Lemma is_inverse_signed h (t : nat -> R) M M' V : (forall l, (l < h)%nat -> t l * t l = 1) ->
  (forall i j, (i < h)%nat -> (j < h)%nat -> M' i j = t i * t j * M i j) -> is_inverse h M V -> is_inverse h M' (fun i j => t i * t j * V i j).
Proof.
  intros Ht HM [H1 H2]. split; intros i j Hi Hj; unfold times, identity.
  - rewrite (total_ext h _ (fun l => t i * t j * (M i l * V l j))).
    2: { intros l Hl. rewrite HM by auto. transitivity (t i * t j * (t l * t l) * (M i l * V l j)); [ring|]. rewrite (Ht l Hl). ring. }
    rewrite total_scal. assert (E := H1 i j Hi Hj). unfold times, identity in E. rewrite E. destruct (Nat.eqb_spec i j) as [->|_]; [rewrite Ht by auto|]; ring.
  - rewrite (total_ext h _ (fun l => t i * t j * (V i l * M l j))).
    2: { intros l Hl. rewrite HM by auto. transitivity (t i * t j * (t l * t l) * (V i l * M l j)); [ring|]. rewrite (Ht l Hl). ring. }
    rewrite total_scal. assert (E := H2 i j Hi Hj). unfold times, identity in E. rewrite E. destruct (Nat.eqb_spec i j) as [->|_]; [rewrite Ht by auto|]; ring.
Qed.
Lemma inverse_signed h (t : nat -> R) M M' : (forall l, (l < h)%nat -> t l * t l = 1) ->
  (forall i j, (i < h)%nat -> (j < h)%nat -> M' i j = t i * t j * M i j) ->
  match inverse h M, inverse h M' with
  | Some V, Some V' => forall i j, (i < h)%nat -> (j < h)%nat -> V' i j = t i * t j * V i j
  | None, None => True
  | _, _ => False end.
Proof.
  intros Ht HM. assert (I := Hinv h M). assert (I' := Hinv h M').
  assert (HM' : forall i j, (i < h)%nat -> (j < h)%nat -> M i j = t i * t j * M' i j).
  { intros i j Hi Hj. rewrite HM by auto. transitivity ((t i * t i) * (t j * t j) * M i j); [rewrite !Ht by auto; ring|ring]. }
  destruct (inverse h M) as [V|], (inverse h M') as [V'|]; auto.
  - intros i j Hi Hj. apply (inverse_unique I' (is_inverse_signed h t M M' V Ht HM I)); auto.
  - exact (I' _ (is_inverse_signed h t M M' V Ht HM I)).
  - exact (I _ (is_inverse_signed h t M' M V' Ht HM' I')).
Qed.

(** ** The filter *)
Record near3 (f f' : tdkf exact) : Prop := Near3 {
  n3_max : td_max exact f' = td_max exact f;
  n3_pos : (0 < td_max exact f)%Z;
  n3_dim : td_dim exact f = 6%nat;
  n3_dim' : td_dim exact f' = 6%nat;
  n3_P : forall i j, (i < td_size exact f)%nat -> (j < td_size exact f)%nat -> td_P exact f' i j = sg i * sg j * td_P exact f i j;
  n3_x : forall i, (i < td_size exact f)%nat -> td_x exact f' i = sg i * td_x exact f i }.
Definition mirrored_state (s : state exact) : state exact :=
  State exact (st_x _ s) (- st_y _ s) (- st_yaw _ s) (- st_bias _ s) (st_vx _ s) (- st_wz _ s).
Lemma size_pos3 f f' : near3 f f' -> (6 <= td_size exact f)%nat.
Proof. intros H. unfold td_size. rewrite (n3_dim _ _ H). assert (E := n3_pos _ _ H). lia. Qed.
Lemma size_eq3 f f' : near3 f f' -> td_size exact f' = td_size exact f.
Proof. intros H. unfold td_size. rewrite (n3_dim _ _ H), (n3_dim' _ _ H), (n3_max _ _ H). auto. Qed.
Lemma to_vector_mirrored s i : (i < 6)%nat -> to_vector exact (mirrored_state s) i = sg i * to_vector exact s i.
Proof. intros Hi. unfold to_vector, mirrored_state, sg. do 6 (destruct i as [|i]; [cbn; lra|]). lia. Qed.

Lemma near3_new s P P' n : (forall i j, (i < 6)%nat -> (j < 6)%nat -> P' i j = sg i * sg j * P i j) ->
  rel near3 (kf_new exact K s P n) (kf_new exact K (mirrored_state s) P' n).
Proof.
  intros HP. cbn. unfold td_new. destruct (0 <? n)%Z eqn:E; cbn; auto. constructor; cbn; auto; try lia.
  - unfold td_size. cbn. intros i j Hi Hj. rewrite !init_p_entry by lia.
    assert (B := Nat.mod_upper_bound i 6 ltac:(lia)). assert (B' := Nat.mod_upper_bound j 6 ltac:(lia)).
    destruct (Nat.eqb _ _); cbn [d_of_Z exact]; [rewrite HP, !sg_mod by auto|]; ring.
  - unfold td_size. cbn. intros i Hi. assert (B := Nat.mod_upper_bound i 6 ltac:(lia)).
    rewrite !init_x_entry by lia. rewrite to_vector_mirrored, sg_mod by auto. reflexivity.
Qed.
Lemma block_mirrored f f' d : near3 f f' -> (0 <= d < td_max exact f)%Z ->
  of_vector exact (fun i => td_x exact f' (Z.to_nat d * 6 + i)%nat) = mirrored_state (of_vector exact (fun i => td_x exact f (Z.to_nat d * 6 + i)%nat)).
Proof.
  intros H Hd. unfold of_vector, mirrored_state. cbn [st_x st_y st_yaw st_bias st_vx st_wz].
  assert (E : forall i, (i < 6)%nat -> td_x exact f' (Z.to_nat d * 6 + i)%nat = nth i [1; -1; -1; -1; 1; -1] 0 * td_x exact f (Z.to_nat d * 6 + i)%nat).
  { intros i Hi. rewrite (n3_x _ _ H), sg_small; auto. unfold td_size. rewrite (n3_dim _ _ H). nia. }
  rewrite !E by lia. cbn. f_equal; lra.
Qed.
Lemma latest_mirrored f f' : near3 f f' -> kf_latest_x exact K f' = mirrored_state (kf_latest_x exact K f).
Proof. intros H. assert (E := block_mirrored f f' 0 H). cbn in E. cbn. apply E. split; [lia|]. apply (n3_pos _ _ H). Qed.
Lemma get_mirrored f f' d : near3 f f' ->
  rel (fun s s' => s' = mirrored_state s) (kf_get_x exact K f d) (kf_get_x exact K f' d).
Proof.
  intros H. cbn. unfold td_get_x. rewrite (n3_max _ _ H), (n3_dim _ _ H), (n3_dim' _ _ H).
  destruct ((0 <=? d)%Z && (d <? td_max exact f)%Z) eqn:E; cbn; auto. apply (block_mirrored f f' d H). lia.
Qed.
Lemma predict_mirrored f f' s M M' Q : near3 f f' ->
  (forall i j, (i < 6)%nat -> (j < 6)%nat -> M' i j = sg i * sg j * M i j) ->
  (forall i j, (i < 6)%nat -> (j < 6)%nat -> Q i j = sg i * sg j * Q i j) ->
  rel near3 (kf_predict exact K f s M Q) (kf_predict exact K f' (mirrored_state s) M' Q).
Proof.
  intros H HM HQ. assert (S1 := size_pos3 _ _ H). assert (S2 := size_eq3 _ _ H). cbn [kf_predict ekf_kalman rel]. constructor.
  - apply (n3_max _ _ H).
  - apply (n3_pos _ _ H).
  - apply (n3_dim _ _ H).
  - apply (n3_dim' _ _ H).
  - rewrite td_size_predict. unfold td_predict. cbn [td_P]. rewrite S2, (n3_dim _ _ H), (n3_dim' _ _ H). intros i j Hi Hj.
    rewrite !update_p_entry by lia.
    assert (FP : forall i j, (i < 6)%nat -> (j < td_size exact f)%nat -> mmul exact 6 M' (td_P exact f') i j = sg i * sg j * mmul exact 6 M (td_P exact f) i j).
    { intros a b Ha Hb. apply (mmul_signed 6 sg); [intros; apply sg_square| |]; intros l Hl; [apply HM; auto|apply (n3_P _ _ H); lia]. }
    destruct (Nat.ltb_spec i 6) as [L|L], (Nat.ltb_spec j 6) as [L2|L2].
    + cbn [d_add exact]. rewrite (HQ i j) at 1 by auto. rewrite Rmult_plus_distr_l. f_equal.
      apply (mmul_signed 6 sg); [intros; apply sg_square| |]; intros l Hl.
      * apply FP; lia.
      * unfold mtr. rewrite HM by auto. ring.
    + rewrite FP by lia. rewrite sg_block by auto. reflexivity.
    + rewrite <- (sg_block i) by auto. apply (mmul_signed 6 sg); [intros; apply sg_square| |]; intros l Hl.
      * apply (n3_P _ _ H); lia.
      * unfold mtr. rewrite HM by auto. ring.
    + rewrite (n3_P _ _ H) by lia. rewrite !sg_block by auto. reflexivity.
  - rewrite td_size_predict. unfold td_predict. cbn [td_x]. rewrite S2, (n3_dim _ _ H), (n3_dim' _ _ H). intros i Hi.
    rewrite !update_x_entry by lia. destruct (Nat.ltb_spec i 6) as [L|L].
    + apply to_vector_mirrored. auto.
    + rewrite (n3_x _ _ H) by lia. rewrite sg_block by auto. reflexivity.
Qed.

(** ** Measurements *)
(** The signs t of the measured values are those of the entries that are measured. *)
Definition respects (t : nat -> R) (C : list (list R)) (h : nat) : Prop :=
  (forall i, (i < h)%nat -> t i * t i = 1) /\
  forall i r, (i < h)%nat -> (r < 6)%nat -> list_matrix exact C i r = t i * sg r * list_matrix exact C i r.
Lemma measurement_respects t C h m d i l : respects t C h -> (i < h)%nat ->
  make_measurement_matrix exact h 6 (list_matrix exact C) m d i l = t i * sg l * make_measurement_matrix exact h 6 (list_matrix exact C) m d i l.
Proof.
  intros [_ H] Hi. unfold make_measurement_matrix, set_block, mzero. destruct (_ && _) eqn:E; [|cbn; ring].
  rewrite Nat.sub_0_r. assert (exists r, l = d * 6 + r /\ r < 6)%nat as (r & -> & Hr) by (exists (l - 6 * d)%nat; lia).
  replace (d * 6 + r - 6 * d)%nat with r by lia. rewrite sg_small by auto.
  assert (G := H i r Hi Hr). unfold sg in G. rewrite (Nat.mod_small r) in G by auto. exact G.
Qed.
Lemma update_mirrored f f' t y y' C N N' d : near3 f f' -> List.length y' = List.length y -> respects t C (List.length y) ->
  (forall i, (i < List.length y)%nat -> list_vector exact y' i = t i * list_vector exact y i) ->
  (forall i j, (i < List.length y)%nat -> (j < List.length y)%nat -> list_matrix exact N' i j = t i * t j * list_matrix exact N i j) ->
  rel near3 (kf_update exact K f y C N d) (kf_update exact K f' y' C N' d).
Proof.
  intros H Hl HC Hy HN. assert (S2 := size_eq3 _ _ H). cbn [kf_update ekf_kalman]. unfold td_update.
  rewrite Hl, S2, (n3_max _ _ H), (n3_dim _ _ H), (n3_dim' _ _ H).
  destruct (td_max exact f <=? d)%Z eqn:E1; cbn; auto. destruct (d <? 0)%Z eqn:E2; cbn; auto.
  change (D exact) with R in *. set (n := td_size exact f) in *. set (h := List.length y) in *. set (Cm := make_measurement_matrix exact _ _ _ _ _).
  assert (HCm : forall i l, (i < h)%nat -> Cm i l = t i * sg l * Cm i l) by (intros i l Hi; apply measurement_respects; auto).
  assert (Ht : forall i, (i < h)%nat -> t i * t i = 1) by apply HC.
  assert (HP := n3_P _ _ H). fold n in HP. assert (HX := n3_x _ _ H). fold n in HX.
  assert (Sg : forall l, (l < n)%nat -> sg l * sg l = 1) by (intros; apply sg_square).
  assert (CR : forall l j, (l < n)%nat -> (j < h)%nat -> mmul exact n (td_P exact f') (mtr exact Cm) l j = sg l * t j * mmul exact n (td_P exact f) (mtr exact Cm) l j).
  { intros l j Hll Hj. apply (mmul_signed n sg); auto. intros k Hk. unfold mtr. rewrite (HCm j k Hj) at 1. ring. }
  assert (IN : forall i j, (i < h)%nat -> (j < h)%nat ->
    madd exact (list_matrix exact N') (mmul exact n Cm (mmul exact n (td_P exact f') (mtr exact Cm))) i j =
    t i * t j * madd exact (list_matrix exact N) (mmul exact n Cm (mmul exact n (td_P exact f) (mtr exact Cm))) i j).
  { intros i j Hi Hj. unfold madd. cbn [d_add exact]. rewrite HN by auto. rewrite Rmult_plus_distr_l. f_equal.
    apply (mmul_signed n sg); auto. }
  assert (FM : forall n h M, finite_matrix exact n h M = true).
  { intros a b M. unfold finite_matrix. apply forallb_forall. intros i _. apply forallb_forall. intros j _. reflexivity. }
  unfold gain. assert (IV := inverse_signed h t _ _ Ht IN).
  destruct (inverse h (madd exact (list_matrix exact N) _)) as [V|], (inverse h (madd exact (list_matrix exact N') _)) as [V'|]; try contradiction; [|cbn; auto].
  rewrite !FM. cbn [fst snd rel].
  set (G := mmul exact h (mmul exact n (td_P exact f) (mtr exact Cm)) V). set (G' := mmul exact h (mmul exact n (td_P exact f') (mtr exact Cm)) V').
  assert (HG : forall l j, (l < n)%nat -> (j < h)%nat -> G' l j = sg l * t j * G l j).
  { intros l j Hll Hj. apply (mmul_signed h t); auto. }
  constructor; cbn [td_max td_dim td_x td_P].
  - reflexivity.
  - apply (n3_pos _ _ H).
  - reflexivity.
  - reflexivity.
  - unfold td_size. cbn [td_max td_dim]. intros i j Hi Hj. assert (Hi' : (i < n)%nat) by (unfold n, td_size; rewrite (n3_dim _ _ H); auto).
    assert (Hj' : (j < n)%nat) by (unfold n, td_size; rewrite (n3_dim _ _ H); auto).
    unfold update_covariance, msub. cbn [d_sub exact]. rewrite HP by auto. rewrite Rmult_minus_distr_l. f_equal.
    apply (mmul_signed n sg); auto. intros l Hll. apply (mmul_signed h t); auto.
  - unfold td_size. cbn [td_max td_dim]. intros i Hi. assert (Hi' : (i < n)%nat) by (unfold n, td_size; rewrite (n3_dim _ _ H); auto).
    unfold update_state, vadd. cbn [d_add exact]. rewrite HX by auto. rewrite Rmult_plus_distr_l. f_equal.
    apply (mvec_signed h t); auto. intros l Hll. unfold vsub. cbn [d_sub exact]. rewrite Hy by auto. rewrite Rmult_minus_distr_l. f_equal.
    apply (mvec_signed n sg); auto.
Qed.
Lemma gate_mirrored g t u u' v v' C C' : List.length u' = List.length u -> (forall i, (i < List.length u)%nat -> t i * t i = 1) ->
  (forall i, (i < List.length u)%nat -> list_vector exact u' i = t i * list_vector exact u i) ->
  (forall i, (i < List.length u)%nat -> list_vector exact v' i = t i * list_vector exact v i) ->
  (forall i j, (i < List.length u)%nat -> (j < List.length u)%nat -> list_matrix exact C' i j = t i * t j * list_matrix exact C i j) ->
  gate exact K g u' v' C' = gate exact K g u v C.
Proof.
  intros Hl Ht Hu Hv HC. cbn [gate ekf_kalman]. unfold mahalanobis_gate, squared_mahalanobis. rewrite Hl. change (D exact) with R in *. set (h := List.length u) in *.
  assert (IV := inverse_signed h t _ _ Ht HC).
  destruct (inverse h (list_matrix exact C)) as [V|], (inverse h (list_matrix exact C')) as [V'|]; try contradiction; auto.
  assert (E : forall a b m : R, a = b -> d_leb exact a m = d_leb exact b m) by (intros; subst; auto). apply E. clear E. rewrite !sum_total. apply total_ext. intros i Hi. cbn [d_mul exact].
  assert (HD : forall i, (i < h)%nat -> vsub exact (list_vector exact u') (list_vector exact v') i = t i * vsub exact (list_vector exact u) (list_vector exact v) i).
  { intros k Hk. unfold vsub. cbn [d_sub exact]. rewrite Hu, Hv by auto. rring. }
  rewrite HD by auto. rewrite (mvec_signed h t V V' (vsub exact (list_vector exact u) (list_vector exact v)) _ i (t i)); auto.
  transitivity ((t i * t i) * (vsub exact (list_vector exact u) (list_vector exact v) i * mvec exact h V (vsub exact (list_vector exact u) (list_vector exact v)) i)); [ring|].
  rewrite Ht by auto. ring.
Qed.

(** ** Arrays of covariances *)
Lemma nth_mirrored l : forall s k, nth_error (map (fun kv => side (fst kv / 6) * side (fst kv mod 6) * snd kv) (combine (seq s (List.length l)) l)) k =
  option_map (fun v => side ((s + k) / 6) * side ((s + k) mod 6) * v) (nth_error l k).
Proof.
  induction l as [|v l IH]; intros s k; [destruct k; reflexivity|]. cbn [List.length seq combine map]. destruct k as [|k].
  - cbn [nth_error option_map fst snd]. rewrite Nat.add_0_r. reflexivity.
  - cbn [nth_error]. rewrite IH. replace (S s + k)%nat with (s + S k)%nat by lia. reflexivity.
Qed.
Lemma vat_mirrored (l : list R) i : vat (mirrored_covariance l) i = (v <- vat l i ;; Ok (side (Z.to_nat i / 6) * side (Z.to_nat i mod 6) * v)).
Proof.
  unfold vat, get. destruct (i <? 0)%Z; [reflexivity|]. unfold mirrored_covariance. rewrite nth_mirrored. cbn [Nat.add].
  destruct (nth_error l (Z.to_nat i)); reflexivity.
Qed.

(** A diagonal element of an array is the same in the mirror. *)
Lemma vat_square (l : list R) i : (Z.to_nat i / 6 = Z.to_nat i mod 6)%nat -> vat (mirrored_covariance l) i = vat l i.
Proof.
  intros E. rewrite vat_mirrored, E.
  assert (B := Nat.mod_upper_bound (Z.to_nat i) 6 ltac:(lia)).
  assert (S : side (Z.to_nat i mod 6) * side (Z.to_nat i mod 6) = 1).
  { set (r := (Z.to_nat i mod 6)%nat) in *. clearbody r. unfold side. clear - B. do 6 (destruct r as [|r]; [cbn; lra|]). lia. }
  rewrite S. destruct (vat l i) as [v| | | | |]; cbn; auto. f_equal. ring.
Qed.
Ltac sides := repeat match goal with |- context [side ?n] => let v := eval vm_compute in n in let w := eval cbv [side nth] in (side v) in change (side n) with w end.
Ltac one cov i j := destruct (vat cov (6 * i + j)%Z) as [?c| | | | |]; cbn [bind]; [|exact I..].
Definition t3 (i : nat) : R := nth i [1; -1; -1] 1.
Definition t2 (i : nat) : R := nth i [1; -1] 1.
Lemma pose_covariance_mirrored cov steps :
  rel (fun N N' => forall i j, (i < 3)%nat -> (j < 3)%nat -> list_matrix exact N' i j = t3 i * t3 j * list_matrix exact N i j)
    (pose_measurement_covariance exact cov steps) (pose_measurement_covariance exact (mirrored_covariance cov) steps).
Proof.
  unfold pose_measurement_covariance, covariance_at. cbn [mapM]. change (D exact) with R in *. rewrite !vat_mirrored. one cov 0%Z 0%Z. one cov 0%Z 1%Z. one cov 0%Z 5%Z. one cov 1%Z 0%Z. one cov 1%Z 1%Z. one cov 1%Z 5%Z. one cov 5%Z 0%Z. one cov 5%Z 1%Z. one cov 5%Z 5%Z. cbn [rel]. set (k := steps_factor exact steps). clearbody k.
  intros i j Hi Hj. unfold t3. sides. do 3 (destruct i as [|i]; [do 3 (destruct j as [|j]; [cbn; ring|]); lia|]). lia.
Qed.
Lemma twist_covariance_mirrored cov steps :
  rel (fun N N' => forall i j, (i < 2)%nat -> (j < 2)%nat -> list_matrix exact N' i j = t2 i * t2 j * list_matrix exact N i j)
    (twist_measurement_covariance exact cov steps) (twist_measurement_covariance exact (mirrored_covariance cov) steps).
Proof.
  unfold twist_measurement_covariance, covariance_at. cbn [mapM]. change (D exact) with R in *. rewrite !vat_mirrored. one cov 0%Z 0%Z. one cov 0%Z 5%Z. one cov 5%Z 0%Z. one cov 5%Z 5%Z. cbn [rel]. set (k := steps_factor exact steps). clearbody k.
  intros i j Hi Hj. unfold t2. sides. do 2 (destruct i as [|i]; [do 2 (destruct j as [|j]; [cbn; ring|]); lia|]). lia.
Qed.
Lemma t3_square i : t3 i * t3 i = 1.
Proof. unfold t3. do 3 (destruct i as [|i]; [cbn; lra|]). destruct i; cbn; lra. Qed.
Lemma t2_square i : t2 i * t2 i = 1.
Proof. unfold t2. do 2 (destruct i as [|i]; [cbn; lra|]). destruct i; cbn; lra. Qed.
Lemma pose_respects : respects t3 (pose_measurement_matrix exact) 3.
Proof.
  split; [intros; apply t3_square|]. intros i r Hi Hr. unfold t3, sg. rewrite Nat.mod_small by auto.
  do 3 (destruct i as [|i]; [do 6 (destruct r as [|r]; [cbn; lra|]); lia|]). lia.
Qed.
Lemma twist_respects : respects t2 (twist_measurement_matrix exact) 2.
Proof.
  split; [intros; apply t2_square|]. intros i r Hi Hr. unfold t2, sg. rewrite Nat.mod_small by auto.
  do 2 (destruct i as [|i]; [do 6 (destruct r as [|r]; [cbn; lra|]); lia|]). lia.
Qed.

(** ** The node *)
Variable roundf : R -> option Z.
Variables sin cos : R -> R.
Variable atan2 : R -> R -> R.
Hypothesis sin_odd : forall u, sin (- u) = - sin u.
Hypothesis cos_even : forall u, cos (- u) = cos u.
Hypothesis atan2_odd : forall y x, atan2 (- y) x = - atan2 y x.
Variable Orient : Type.
Variables get_yaw get_roll get_pitch : Orient -> R.
Variable mirror : Orient -> Orient.
Hypothesis mirror_yaw : forall o, get_yaw (mirror o) = - get_yaw o.
Hypothesis mirror_roll : forall o, get_roll (mirror o) = - get_roll o.
Hypothesis mirror_pitch : forall o, get_pitch (mirror o) = get_pitch o.
Notation mp := (mirrored_pose Orient mirror).

Lemma normalize_mirrored u : normalize_yaw exact sin cos atan2 (- u) = - normalize_yaw exact sin cos atan2 u.
Proof. unfold normalize_yaw. rewrite sin_odd, cos_even. apply atan2_odd. Qed.

Notation pbody := (pose_body exact roundf sin cos atan2 Orient get_yaw K).
Notation tbody := (twist_body exact roundf K).
Lemma pose_body_mirrored p now dt f f' m : near3 f f' -> rel near3 (pbody p now dt f m) (pbody p now dt f' (mp m)).
Proof.
  intros H. assert (S := size_pos3 _ _ H). unfold pose_body. cbn [p_stamp mirrored_pose].
  apply rel_same. intros t. apply rel_same. intros d. destruct (negb (check_delay_step _ _)); [exact H|].
  rewrite !finite_exact. cbn [negb].
  eapply rel_bind; [apply get_mirrored, H|]. intros s s' ->.
  unfold get_pose_state, pose_measurement_vector. cbn [st_x st_y st_yaw mirrored_state p_x p_y p_orient mirrored_pose].
  rewrite mirror_yaw, normalize_mirrored.
  set (yaw := normalize_yaw exact sin cos atan2 (get_yaw (p_orient exact Orient m))). clearbody yaw.
  assert (SV : forall u0 u1 u2 i, (i < 3)%nat -> list_vector exact [u0; - u1; - u2] i = t3 i * list_vector exact [u0; u1; u2] i).
  { intros u0 u1 u2 i Hi. unfold t3. do 3 (destruct i as [|i]; [cbn; lra|]). lia. }
  assert (GE := gate_mirrored (m_gate exact p) t3 [st_x exact s; st_y exact s; st_yaw exact s] [st_x exact s; - st_y exact s; - st_yaw exact s]
    [p_x exact Orient m; p_y exact Orient m; yaw] [p_x exact Orient m; - p_y exact Orient m; - yaw]
    (pose_covariance exact (kf_latest_p exact K f)) (pose_covariance exact (kf_latest_p exact K f'))).
  change (D exact) with R in *. rewrite GE; clear GE;
    [|reflexivity|intros; apply t3_square|intros; apply SV; auto|intros; apply SV; auto|].
  2: { intros i j Hi Hj. cbn in Hi, Hj. assert (E := n3_P _ _ H i j ltac:(lia) ltac:(lia)). revert E. unfold sg, t3. rewrite !Nat.mod_small by lia.
       intros E. do 3 (destruct i as [|i]; [do 3 (destruct j as [|j]; [exact E|]); lia|]). lia. }
  destruct (negb (gate _ _ _ _ _ _)); [exact H|]. cbn [p_cov mirrored_pose].
  eapply rel_bind; [apply pose_covariance_mirrored|]. intros N N' HN. unfold try_update.
  assert (U := update_mirrored f f' t3 [p_x exact Orient m; p_y exact Orient m; yaw] [p_x exact Orient m; - p_y exact Orient m; - yaw]
    (pose_measurement_matrix exact) N N' d H eq_refl pose_respects (SV _ _ _) HN).
  destruct (kf_update exact K f _ _ _ _), (kf_update exact K f' _ _ _ _); cbn in U |- *; auto; contradiction.
Qed.
Lemma twist_body_mirrored p now dt f f' m : near3 f f' -> rel near3 (tbody p now dt f m) (tbody p now dt f' (mirrored_twist m)).
Proof.
  intros H. assert (S := size_pos3 _ _ H). unfold twist_body. cbn [t_stamp mirrored_twist].
  apply rel_same. intros t. apply rel_same. intros d. destruct (negb (check_delay_step _ _)); [exact H|].
  rewrite !finite_exact. cbn [negb].
  eapply rel_bind; [apply get_mirrored, H|]. intros s s' ->.
  unfold get_twist_state, twist_measurement_vector. cbn [st_vx st_wz mirrored_state t_vx t_wz mirrored_twist].
  assert (SV : forall u0 u1 i, (i < 2)%nat -> list_vector exact [u0; - u1] i = t2 i * list_vector exact [u0; u1] i).
  { intros u0 u1 i Hi. unfold t2. do 2 (destruct i as [|i]; [cbn; lra|]). lia. }
  assert (GE := gate_mirrored (m_gate exact p) t2 [st_vx exact s; st_wz exact s] [st_vx exact s; - st_wz exact s]
    [t_vx exact m; t_wz exact m] [t_vx exact m; - t_wz exact m]
    (twist_covariance exact (kf_latest_p exact K f)) (twist_covariance exact (kf_latest_p exact K f'))).
  change (D exact) with R in *. rewrite GE; clear GE;
    [|reflexivity|intros; apply t2_square|intros; apply SV; auto|intros; apply SV; auto|].
  2: { intros i j Hi Hj. cbn in Hi, Hj. assert (E := n3_P _ _ H (4 + i) (4 + j) ltac:(lia) ltac:(lia)). revert E. unfold sg, t2. rewrite !Nat.mod_small by lia.
       intros E. do 2 (destruct i as [|i]; [do 2 (destruct j as [|j]; [exact E|]); lia|]). lia. }
  destruct (negb (gate _ _ _ _ _ _)); [exact H|]. cbn [t_cov mirrored_twist].
  eapply rel_bind; [apply twist_covariance_mirrored|]. intros N N' HN. unfold try_update.
  assert (U := update_mirrored f f' t2 [t_vx exact m; t_wz exact m] [t_vx exact m; - t_wz exact m]
    (twist_measurement_matrix exact) N N' d H eq_refl twist_respects (SV _ _) HN).
  destruct (kf_update exact K f _ _ _ _), (kf_update exact K f' _ _ _ _); cbn in U |- *; auto; contradiction.
Qed.

Definition mirrored_f1 (f : filter1d exact) : filter1d exact := F1 exact (f_init _ f) (- f_x _ f) (f_stddev _ f) (f_proc _ f) (f_time _ f).
Lemma f1_mirrored f o d t : f1_update exact (mirrored_f1 f) (- o) d t = mirrored_f1 (f1_update exact f o d t).
Proof.
  unfold f1_update. cbn [f_init f_x f_stddev f_proc f_time mirrored_f1]. destruct (f_init exact f); [|reflexivity].
  unfold mirrored_f1. cbn [f_init f_x f_stddev f_proc f_time]. f_equal. cbn [exact d_add d_sub d_mul]. rring.
Qed.

Variable prm : params exact.
Notation nodeT := (node exact Orient K).
Record mrel (n n' : nodeT) : Prop := Mrel {
  mr_ekf : match n_ekf _ _ _ n, n_ekf _ _ _ n' with
           | None, None => True
           | Some f, Some f' => near3 f f'
           | _, _ => False end;
  mr_last : n_last _ _ _ n' = n_last _ _ _ n;
  mr_pose : n_pose _ _ _ n' = moved_queue mp (n_pose _ _ _ n);
  mr_twist : n_twist _ _ _ n' = moved_queue mirrored_twist (n_twist _ _ _ n);
  mr_z : n_z _ _ _ n' = n_z _ _ _ n;
  mr_roll : n_roll _ _ _ n' = mirrored_f1 (n_roll _ _ _ n);
  mr_pitch : n_pitch _ _ _ n' = n_pitch _ _ _ n;
  mr_out : n_out _ _ _ n' = map mirrored_output (n_out _ _ _ n) }.
Lemma mnew : mrel (node_new exact Orient K) (node_new exact Orient K).
Proof. constructor; cbn; auto. unfold f1_new, mirrored_f1. cbn. f_equal. lra. Qed.

Lemma diagonal_signed l i j : (i < 6)%nat -> (j < 6)%nat -> diagonal exact l i j = sg i * sg j * diagonal exact l i j.
Proof. intros _ _. unfold diagonal. destruct (Nat.eqb_spec i j) as [->|_]; [rewrite sg_square; cbn|cbn]; ring. Qed.
Lemma transition_signed s dt i j : (i < 6)%nat -> (j < 6)%nat ->
  create_state_transition_matrix exact sin cos Ropp (mirrored_state s) dt i j = sg i * sg j * create_state_transition_matrix exact sin cos Ropp s dt i j.
Proof.
  intros Hi Hj. unfold create_state_transition_matrix, mirrored_state. cbn [st_x st_y st_yaw st_bias st_vx st_wz].
  replace (d_add exact (- st_yaw exact s) (- st_bias exact s)) with (- (d_add exact (st_yaw exact s) (st_bias exact s))) by (cbn; lra).
  rewrite sin_odd, cos_even. unfold sg. rewrite !Nat.mod_small by auto.
  do 6 (destruct i as [|i]; [do 6 (destruct j as [|j]; [cbn; rring|]); lia|]). lia.
Qed.
Lemma next_mirrored s dt : predict_next_state exact sin cos atan2 (mirrored_state s) dt = mirrored_state (predict_next_state exact sin cos atan2 s dt).
Proof.
  unfold predict_next_state, predict_with, mirrored_state. cbn [st_x st_y st_yaw st_bias st_vx st_wz].
  replace (d_add exact (- st_yaw exact s) (- st_bias exact s)) with (- (d_add exact (st_yaw exact s) (st_bias exact s))) by (cbn; lra).
  replace (d_add exact (- st_yaw exact s) (d_mul exact (- st_wz exact s) dt)) with (- (d_add exact (st_yaw exact s) (d_mul exact (st_wz exact s) dt))) by (cbn; lra).
  rewrite sin_odd, cos_even, normalize_mirrored. f_equal. cbn. rring.
Qed.
Lemma list_eq_cons {X} (x y : X) l m : x = y -> l = m -> x :: l = y :: m.
Proof. intros; subst; auto. Qed.
Lemma pose_message_mirrored f f' : near3 f f' ->
  pose_message_covariance exact (kf_latest_p exact K f') = mirrored_covariance (pose_message_covariance exact (kf_latest_p exact K f)).
Proof.
  intros H. assert (S := size_pos3 _ _ H).
  assert (E : forall i j, (i < 6)%nat -> (j < 6)%nat -> kf_latest_p exact K f' i j = nth i [1; -1; -1; -1; 1; -1] 0 * nth j [1; -1; -1; -1; 1; -1] 0 * kf_latest_p exact K f i j).
  { intros i j Hi Hj. assert (E := n3_P _ _ H i j ltac:(lia) ltac:(lia)). unfold sg in E. rewrite !Nat.mod_small in E by lia. exact E. }
  unfold pose_message_covariance. rewrite !E by lia. unfold mirrored_covariance. cbn [List.length seq combine map fst snd]. sides. cbn [nth exact d_of_Z]. repeat (apply list_eq_cons; [rring|]). reflexivity.
Qed.
Lemma twist_message_mirrored f f' : near3 f f' ->
  twist_message_covariance exact (kf_latest_p exact K f') = mirrored_covariance (twist_message_covariance exact (kf_latest_p exact K f)).
Proof.
  intros H. assert (S := size_pos3 _ _ H).
  assert (E : forall i j, (i < 6)%nat -> (j < 6)%nat -> kf_latest_p exact K f' i j = nth i [1; -1; -1; -1; 1; -1] 0 * nth j [1; -1; -1; -1; 1; -1] 0 * kf_latest_p exact K f i j).
  { intros i j Hi Hj. assert (E := n3_P _ _ H i j ltac:(lia) ltac:(lia)). unfold sg in E. rewrite !Nat.mod_small in E by lia. exact E. }
  unfold twist_message_covariance. rewrite !E by lia. unfold mirrored_covariance. cbn [List.length seq combine map fst snd]. sides. cbn [nth exact d_of_Z]. repeat (apply list_eq_cons; [rring|]). reflexivity.
Qed.

Notation step := (node_step exact roundf sin cos atan2 Ropp Orient get_yaw get_roll get_pitch K prm).
Lemma timer_mirrored n n' t1 t2 t3 t4 t5 : mrel n n' ->
  rel mrel (step n (EvTimer exact Orient t1 t2 t3 t4 t5)) (step n' (EvTimer exact Orient t1 t2 t3 t4 t5)).
Proof.
  intros H. assert (He := mr_ekf _ _ H). cbn [node_step]. unfold timer_callback.
  destruct (n_ekf exact Orient K n) as [f|] eqn:E1, (n_ekf exact Orient K n') as [f'|] eqn:E2; try contradiction; [|exact H].
  rewrite (mr_last _ _ H).
  destruct (interval_compute exact (default_frequency exact prm) (n_last exact Orient K n) (seconds exact t1)) as [o last].
  destruct o as [dt| | | | |]; cbn [rel]; auto.
  2: { constructor; cbn [n_ekf n_last n_pose n_twist n_z n_roll n_pitch n_out]; try apply H; auto. }
  rewrite (latest_mirrored f f' He), next_mirrored.
  eapply rel_bind; [apply predict_mirrored; [exact He|intros; apply transition_signed; auto|intros; apply diagonal_signed; auto]|].
  intros g g' Hg. rewrite (mr_pose _ _ H), (mr_twist _ _ H).
  eapply rel_bind.
  { unfold pose_update. replace (List.length (msgs (moved_queue mp (n_pose exact Orient K n)))) with (List.length (msgs (n_pose exact Orient K n))) by (cbn; rewrite map_length; auto).
    apply (loop_moved mp (fun _ => True) near3); [|exact Hg|apply Forall_forall; auto].
    intros s s' m Hs _. apply pose_body_mirrored; auto. }
  intros [pq g1] [pq' g1'] [Eq [_ Hg1]]. cbn in Eq, Hg1. subst pq'.
  eapply rel_bind.
  { unfold twist_update. replace (List.length (msgs (moved_queue mirrored_twist (n_twist exact Orient K n)))) with (List.length (msgs (n_twist exact Orient K n))) by (cbn; rewrite map_length; auto).
    apply (loop_moved mirrored_twist (fun _ => True) near3); [|exact Hg1|apply Forall_forall; auto].
    intros s s' m Hs _. apply twist_body_mirrored; auto. }
  intros [tq g2] [tq' g2'] [Et [_ Hg2]]. cbn in Et, Hg2. subst tq'.
  cbn [rel]. rewrite (latest_mirrored g2 g2' Hg2), (pose_message_mirrored g2 g2' Hg2), (twist_message_mirrored g2 g2' Hg2).
  constructor; cbn [n_ekf n_last n_pose n_twist n_z n_roll n_pitch n_out]; try apply H; auto.
  rewrite map_app, (mr_out _ _ H), (mr_z _ _ H), (mr_roll _ _ H), (mr_pitch _ _ H). f_equal.
  cbn [map mirrored_output mirrored_place f_x mirrored_f1 mirrored_state st_x st_y st_yaw st_bias st_vx st_wz].
  set (e := kf_latest_x exact K g2). clearbody e.
  replace (d_add exact (- st_yaw exact e) (- st_bias exact e)) with (- (d_add exact (st_yaw exact e) (st_bias exact e))) by (cbn; lra). reflexivity.
Qed.
Lemma filters_mirrored n n' m : mrel n n' ->
  rel mrel (update_simple_filters exact Orient get_roll get_pitch K n m) (update_simple_filters exact Orient get_roll get_pitch K n' (mp m)).
Proof.
  intros H. unfold update_simple_filters. cbn [p_cov p_stamp p_z p_orient mirrored_pose].
  rewrite !vat_square by reflexivity.
  apply rel_same. intros c2. apply rel_same. intros c3. apply rel_same. intros c4. apply rel_same. intros t.
  cbn [rel]. constructor; cbn [n_ekf n_last n_pose n_twist n_z n_roll n_pitch n_out]; try apply H.
  - rewrite (mr_z _ _ H). reflexivity.
  - rewrite (mr_roll _ _ H), mirror_roll. apply f1_mirrored.
  - rewrite (mr_pitch _ _ H), mirror_pitch. reflexivity.
Qed.
Lemma step_mirrored n n' e : mrel n n' -> rel mrel (step n e) (step n' (mirrored_event Orient mirror e)).
Proof.
  intros H. destruct e as [t1 t2' t3' t4 t5|m tf|m|m].
  - apply timer_mirrored. auto.
  - cbn [node_step mirrored_event]. unfold callback_initial_pose. cbn [p_frame mirrored_pose].
    apply rel_same. intros _. apply rel_same. intros _. destruct tf as [tr|]; [|cbn; auto].
    cbn [option_map p_cov p_x p_y p_orient mirrored_pose tr_x tr_y tr_rot mirrored_transform].
    unfold init_covariance at 2. rewrite !vat_square by reflexivity. fold (init_covariance exact (p_cov exact Orient m)).
    eapply rel_bind.
    { instantiate (1 := fun P P' => P' = P /\ forall i j, (i < 6)%nat -> (j < 6)%nat -> P' i j = sg i * sg j * P i j).
      unfold init_covariance. apply rel_same. intros c0. apply rel_same. intros c1. apply rel_same. intros c5. split; [reflexivity|].
      intros; apply diagonal_signed; auto. }
    intros P P' [_ HP]. rewrite !mirror_yaw.
    replace (init_state exact (d_add exact (p_x exact Orient m) (tr_x exact Orient tr)) (d_add exact (- p_y exact Orient m) (- tr_y exact Orient tr))
               (d_add exact (- get_yaw (p_orient exact Orient m)) (- get_yaw (tr_rot exact Orient tr))))
      with (mirrored_state (init_state exact (d_add exact (p_x exact Orient m) (tr_x exact Orient tr)) (d_add exact (p_y exact Orient m) (tr_y exact Orient tr))
               (d_add exact (get_yaw (p_orient exact Orient m)) (get_yaw (tr_rot exact Orient tr))))).
    2: { unfold init_state, mirrored_state. cbn. f_equal; lra. }
    eapply rel_bind; [apply near3_new, HP|]. intros f f' Hf.
    eapply rel_bind.
    { apply filters_mirrored. constructor; cbn [n_ekf n_last n_pose n_twist n_z n_roll n_pitch n_out]; try apply H; auto. }
    intros n1 n1' H1. cbn [rel]. constructor; cbn [n_ekf n_last n_pose n_twist n_z n_roll n_pitch n_out]; try apply H1; auto.
  - cbn [node_step mirrored_event]. unfold callback_pose. apply filters_mirrored.
    constructor; cbn [n_ekf n_last n_pose n_twist n_z n_roll n_pitch n_out]; try apply H.
    rewrite (mr_pose _ _ H). unfold q_push, moved_queue. cbn. rewrite map_app. auto.
  - cbn [node_step mirrored_event]. unfold callback_twist. cbn [rel].
    constructor; cbn [n_ekf n_last n_pose n_twist n_z n_roll n_pitch n_out]; try apply H.
    rewrite (mr_twist _ _ H). unfold q_push, moved_queue. cbn. rewrite map_app. auto.
Qed.
Lemma fold_mirrored h : forall n n', mrel n n' -> rel mrel (foldM step n h) (foldM step n' (map (mirrored_event Orient mirror) h)).
Proof.
  induction h as [|e h IH]; intros n n' H; cbn [foldM map]; [exact H|].
  eapply rel_bind; [apply step_mirrored; auto|]. intros m m' Hm. apply IH; auto.
Qed.
Theorem run_mirrored h :
  let run := node_run exact roundf sin cos atan2 Ropp Orient get_yaw get_roll get_pitch K prm in
  (n <- run (map (mirrored_event Orient mirror) h) ;; Ok (n_out _ _ _ n)) =
  (n <- run h ;; Ok (map mirrored_output (n_out _ _ _ n))).
Proof.
  intros run. assert (F := fold_mirrored h _ _ mnew). unfold run, node_run in *.
  destruct (foldM _ _ h), (foldM _ _ (map _ h)); cbn in F |- *; auto; try contradiction. rewrite (mr_out _ _ F). auto.
Qed.
End Mirror.
