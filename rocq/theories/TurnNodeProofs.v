(** The EKF localizer in turned axes: simulation behind C106. *)
From Coq Require Import Reals Lra Lia PeanoNat List Bool ZArith ZifyBool ZifyNat String FunctionalExtensionality.
From Verif Require Import Base Arith SpecReal EkfModel EkfProofs KalmanModel SpecKalman SpecFusion StackProofs KalmanProofs3 FusionNodeProofs SpecOrigin OriginProofs.
Import ListNotations.
Local Open Scope R_scope.

Lemma vat_list (l : list R) i : (Z.to_nat i < List.length l)%nat -> (0 <= i)%Z -> vat l i = Ok (nth (Z.to_nat i) l 0).
Proof.
  intros H Hi. unfold vat, get. replace (i <? 0)%Z with false by lia. rewrite (nth_error_nth' l 0) by auto. reflexivity.
Qed.

Section Turn.
Variable theta : R.
Notation c := (cos theta). Notation s_ := (sin theta).

(** ** Turned vectors *)
Definition rot (x : nat -> R) (i : nat) : R :=
  match (i mod 6)%nat with 0%nat => c * x i - s_ * x (i + 1)%nat | 1%nat => s_ * x (i - 1)%nat + c * x i | _ => x i end.
Arguments rot : simpl never.
Lemma rot_plus x y i : rot (fun k => x k + y k) i = rot x i + rot y i.
Proof. unfold rot. destruct (i mod 6)%nat as [|[|]]; ring. Qed.
Lemma rot_minus x y i : rot (fun k => x k - y k) i = rot x i - rot y i.
Proof. unfold rot. destruct (i mod 6)%nat as [|[|]]; ring. Qed.
Lemma rot_scal x a i : rot (fun k => x k * a) i = rot x i * a.
Proof. unfold rot. destruct (i mod 6)%nat as [|[|]]; ring. Qed.
Lemma rot_scal_l x a i : rot (fun k => a * x k) i = a * rot x i.
Proof. unfold rot. destruct (i mod 6)%nat as [|[|]]; ring. Qed.
Lemma rot_zero i : rot (fun _ => 0) i = 0.
Proof. unfold rot. destruct (i mod 6)%nat as [|[|]]; ring. Qed.
Lemma rot_block x a i : (i < 6)%nat -> rot x (a * 6 + i) = rot (fun k => x (a * 6 + k)%nat) i.
Proof.
  intros H. unfold rot. replace ((a * 6 + i) mod 6)%nat with i by (rewrite Nat.add_comm, Nat.mod_add, Nat.mod_small; lia).
  rewrite (Nat.mod_small i) by lia.
  destruct i as [|[|i]].
  - rewrite Nat.add_assoc. reflexivity.
  - replace (a * 6 + 1 - 1)%nat with (a * 6 + (1 - 1))%nat by lia. reflexivity.
  - reflexivity.
Qed.
Lemma rot_ext x y i m : (i < m * 6)%nat -> (forall k, (k < m * 6)%nat -> x k = y k) -> rot x i = rot y i.
Proof.
  intros H E. assert (D := Nat.div_mod i 6 ltac:(lia)). unfold rot. 
  destruct (i mod 6)%nat as [|[|r]] eqn:M.
  - rewrite !E by nia. reflexivity.
  - rewrite !E by lia. reflexivity.
  - apply E. exact H.
Qed.
Lemma rot_fixed x i : (2 <= i mod 6)%nat -> rot x i = x i.
Proof. unfold rot. intros H. destruct (i mod 6)%nat as [|[|r]]; try lia. reflexivity. Qed.
Lemma rot_swap P i j : rot (fun k => rot (P k) j) i = rot (fun l => rot (fun k => P k l) i) j.
Proof. unfold rot. destruct (i mod 6)%nat as [|[|]], (j mod 6)%nat as [|[|]]; ring. Qed.
Definition rot2 (P : nat -> nat -> R) : nat -> nat -> R := fun i j => rot (fun k => rot (P k) j) i.
Lemma rot_total n g i : rot (fun k => total n (fun l => g k l)) i = total n (fun l => rot (fun k => g k l) i).
Proof.
  induction n as [|n IH]; cbn [total]; [apply rot_zero|]. rewrite rot_plus, IH. reflexivity.
Qed.
Lemma rot2_ext P Q i j m : (i < m * 6)%nat -> (j < m * 6)%nat -> (forall k l, (k < m * 6)%nat -> (l < m * 6)%nat -> P k l = Q k l) ->
  rot2 P i j = rot2 Q i j.
Proof. intros Hi Hj E. unfold rot2. apply (rot_ext _ _ i m Hi). intros k Hk. apply (rot_ext _ _ j m Hj). intros l Hl. apply E; auto. Qed.
Lemma rot2_total n X Y i j : rot2 (fun k l => total n (fun m => X k m * Y m l)) i j = total n (fun m => rot (fun k => X k m) i * rot (Y m) j).
Proof.
  unfold rot2.
  rewrite (rot_ext _ (fun k => total n (fun m => X k m * rot (Y m) j)) i (i / 6 + 1)).
  - rewrite rot_total. apply total_ext. intros m _. apply rot_scal.
  - assert (D := Nat.div_mod i 6 ltac:(lia)). assert (M := Nat.mod_upper_bound i 6 ltac:(lia)). lia.
  - intros k _. rewrite rot_total. apply total_ext. intros m _. apply rot_scal_l.
Qed.
Lemma rot2_plus X Y i j : rot2 (fun k l => X k l + Y k l) i j = rot2 X i j + rot2 Y i j.
Proof. unfold rot2, rot. destruct (i mod 6)%nat as [|[|]], (j mod 6)%nat as [|[|]]; ring. Qed.
Lemma rot2_minus X Y i j : rot2 (fun k l => X k l - Y k l) i j = rot2 X i j - rot2 Y i j.
Proof. unfold rot2, rot. destruct (i mod 6)%nat as [|[|]], (j mod 6)%nat as [|[|]]; ring. Qed.

(** ** The filter *)
Variable inverse : nat -> EkfModel.matrix exact -> option (EkfModel.matrix exact).
Variable junk : nat -> nat -> R.
Notation K := (ekf_kalman exact inverse junk).
(** Coordinates are turned, headings up to full turns. *)
Definition turned_entry (x x' : nat -> R) (i : nat) : Prop :=
  if Nat.eqb (i mod 6) 2 then same_heading (x' i) (x i + theta) else x' i = rot x i.
Record near2 (f f' : tdkf exact) : Prop := Near2 {
  n2_max : td_max exact f' = td_max exact f;
  n2_pos : (0 < td_max exact f)%Z;
  n2_dim : td_dim exact f = 6%nat;
  n2_dim' : td_dim exact f' = 6%nat;
  n2_P : forall i j, (i < td_size exact f)%nat -> (j < td_size exact f)%nat -> td_P exact f' i j = rot2 (td_P exact f) i j;
  n2_x : forall i, (i < td_size exact f)%nat -> turned_entry (td_x exact f) (td_x exact f') i }.

(** s' is s in the turned axes *)
Definition turned_state (s s' : state exact) : Prop :=
  st_x _ s' = c * st_x _ s - s_ * st_y _ s /\ st_y _ s' = s_ * st_x _ s + c * st_y _ s /\
  same_heading (st_yaw _ s') (st_yaw _ s + theta) /\ st_bias _ s' = st_bias _ s /\ st_vx _ s' = st_vx _ s /\ st_wz _ s' = st_wz _ s.
Lemma size_pos2 f f' : near2 f f' -> (6 <= td_size exact f)%nat.
Proof. intros H. unfold td_size. rewrite (n2_dim _ _ H). assert (E := n2_pos _ _ H). lia. Qed.
Lemma size_eq2 f f' : near2 f f' -> td_size exact f' = td_size exact f.
Proof. intros H. unfold td_size. rewrite (n2_dim _ _ H), (n2_dim' _ _ H), (n2_max _ _ H). auto. Qed.
Lemma size_six f f' : near2 f f' -> td_size exact f = (Z.to_nat (td_max exact f) * 6)%nat.
Proof. intros H. unfold td_size. rewrite (n2_dim _ _ H). reflexivity. Qed.
Lemma split6 i : exists a r, i = (a * 6 + r)%nat /\ (r < 6)%nat /\ (i mod 6 = r)%nat /\ (i / 6 = a)%nat.
Proof.
  exists (i / 6)%nat, (i mod 6)%nat. assert (D := Nat.div_mod i 6 ltac:(lia)). assert (M := Nat.mod_upper_bound i 6 ltac:(lia)). repeat split; lia.
Qed.
Lemma mod6 a r : (r < 6)%nat -> ((a * 6 + r) mod 6 = r)%nat.
Proof. intros H. rewrite Nat.add_comm, Nat.mod_add, Nat.mod_small; lia. Qed.

Lemma turned_vector st st' r : turned_state st st' -> (r < 6)%nat -> turned_entry (to_vector exact st) (to_vector exact st') r.
Proof.
  intros (E1 & E2 & E3 & E4 & E5 & E6) Hr. unfold turned_entry, rot, to_vector.
  do 6 (destruct r as [|r]; [cbn; auto|]). lia.
Qed.
Lemma turned_entry_block x x' a r : (r < 6)%nat ->
  turned_entry x x' (a * 6 + r) <-> turned_entry (fun k => x (a * 6 + k)%nat) (fun k => x' (a * 6 + k)%nat) r.
Proof. intros Hr. unfold turned_entry. rewrite mod6, (Nat.mod_small r), rot_block by lia. reflexivity. Qed.
Lemma turned_entry_ext x x' y y' m r : (r < m * 6)%nat -> (forall k, (k < m * 6)%nat -> x k = y k /\ x' k = y' k) ->
  turned_entry y y' r -> turned_entry x x' r.
Proof.
  intros Hr E. unfold turned_entry. destruct (E r Hr) as [-> ->].
  rewrite (rot_ext x y r m Hr); [auto|]. intros k Hk. apply E. auto.
Qed.

Lemma new_turned st st' P P' n : turned_state st st' -> (forall i j, (i < 6)%nat -> (j < 6)%nat -> P' i j = rot2 P i j) ->
  rel near2 (kf_new exact K st P n) (kf_new exact K st' P' n).
Proof.
  intros Hs HP. cbn. unfold td_new. destruct (0 <? n)%Z eqn:E; cbn; auto. constructor; cbn; auto; try lia.
  - unfold td_size. cbn. intros i j Hi Hj.
    rewrite (rot2_ext _ (fun k l => if Nat.eqb (k / 6) (l / 6) then P (k mod 6)%nat (l mod 6)%nat else 0) i j (Z.to_nat n) Hi Hj).
    2: { intros k l Hk Hl. rewrite init_p_entry by lia. reflexivity. }
    rewrite init_p_entry by lia.
    destruct (split6 i) as (a & r & -> & Hr & Mi & Di), (split6 j) as (b & q & -> & Hq & Mj & Dj). rewrite Di, Dj, Mi, Mj.
    unfold rot2. rewrite rot_block by lia.
    rewrite (rot_ext _ (fun k => if Nat.eqb a b then rot (P k) q else 0) r 1); [| lia |].
    + destruct (Nat.eqb a b).
      * rewrite HP by lia. reflexivity.
      * rewrite rot_zero. reflexivity.
    + intros k Hk. rewrite rot_block by lia.
      rewrite (rot_ext _ (fun l => if Nat.eqb a b then P k l else 0) q 1); [destruct (Nat.eqb a b); [reflexivity|apply rot_zero]|lia|].
      intros l Hl. rewrite !mod6 by lia. rewrite !Nat.div_add_l by lia. rewrite !Nat.div_small, !Nat.add_0_r by lia. reflexivity.
  - unfold td_size. cbn. intros i Hi.
    apply (turned_entry_ext _ _ (fun k => to_vector exact st (k mod 6)%nat) (fun k => to_vector exact st' (k mod 6)%nat) (Z.to_nat n)); auto.
    { intros k Hk. rewrite !init_x_entry by lia. auto. }
    destruct (split6 i) as (a & r & -> & Hr & Mi & Di). apply turned_entry_block; auto.
    apply (turned_entry_ext _ _ (to_vector exact st) (to_vector exact st') 1); auto; [|apply turned_vector; auto].
    intros k Hk. rewrite !mod6 by lia. auto.
Qed.

Lemma block_turned f f' d : near2 f f' -> (0 <= d < td_max exact f)%Z ->
  turned_state (of_vector exact (fun i => td_x exact f (Z.to_nat d * 6 + i)%nat)) (of_vector exact (fun i => td_x exact f' (Z.to_nat d * 6 + i)%nat)).
Proof.
  intros H Hd. assert (E : forall r, (r < 6)%nat -> turned_entry (fun k => td_x exact f (Z.to_nat d * 6 + k)%nat) (fun k => td_x exact f' (Z.to_nat d * 6 + k)%nat) r).
  { intros r Hr. apply turned_entry_block; auto. apply (n2_x _ _ H). rewrite (size_six _ _ H). nia. }
  unfold turned_state, of_vector. cbn [st_x st_y st_yaw st_bias st_vx st_wz].
  assert (E0 := E 0%nat ltac:(lia)). assert (E1 := E 1%nat ltac:(lia)). assert (E2 := E 2%nat ltac:(lia)).
  assert (E3 := E 3%nat ltac:(lia)). assert (E4 := E 4%nat ltac:(lia)). assert (E5 := E 5%nat ltac:(lia)).
  unfold turned_entry, rot in *. cbn -[Nat.mul Nat.add] in *. auto 7.
Qed.
Lemma latest_turned f f' : near2 f f' -> turned_state (kf_latest_x exact K f) (kf_latest_x exact K f').
Proof. intros H. assert (E := block_turned f f' 0 H). cbn in E. cbn. apply E. split; [lia|]. apply (n2_pos _ _ H). Qed.
Lemma get_turned f f' d : near2 f f' -> rel turned_state (kf_get_x exact K f d) (kf_get_x exact K f' d).
Proof.
  intros H. cbn. unfold td_get_x. rewrite (n2_max _ _ H), (n2_dim _ _ H), (n2_dim' _ _ H).
  destruct ((0 <=? d)%Z && (d <? td_max exact f)%Z) eqn:E; cbn; auto. apply (block_turned f f' d H). lia.
Qed.

(** ** Prediction *)
Notation transition := (create_state_transition_matrix exact sin cos Ropp).
Lemma transition_turned st st' dt X i : turned_state st st' -> (i < 6)%nat ->
  total 6 (fun l => transition st' dt i l * rot X l) = rot (fun k => total 6 (fun l => transition st dt k l * X l)) i.
Proof.
  intros (_ & _ & E3 & E4 & E5 & E6) Hi.
  assert (Hc : cos (st_yaw exact st' + st_bias exact st') = c * cos (st_yaw exact st + st_bias exact st) - s_ * sin (st_yaw exact st + st_bias exact st)).
  { rewrite E4, (same_cos _ _ (heading_plus _ _ (st_bias exact st) E3)).
    replace (st_yaw exact st + theta + st_bias exact st) with (theta + (st_yaw exact st + st_bias exact st)) by lra. apply cos_plus. }
  assert (Hs : sin (st_yaw exact st' + st_bias exact st') = s_ * cos (st_yaw exact st + st_bias exact st) + c * sin (st_yaw exact st + st_bias exact st)).
  { rewrite E4, (same_sin _ _ (heading_plus _ _ (st_bias exact st) E3)).
    replace (st_yaw exact st + theta + st_bias exact st) with (theta + (st_yaw exact st + st_bias exact st)) by lra. apply sin_plus. }
  unfold create_state_transition_matrix. cbn [d_add exact]. rewrite Hc, Hs, E5.
  set (u := cos (st_yaw exact st + st_bias exact st)). set (v := sin (st_yaw exact st + st_bias exact st)).
  do 6 (destruct i as [|i]; [unfold rot; cbn; ring|]). lia.
Qed.
Lemma stacked_turned st st' dt m X i : turned_state st st' -> (1 <= m)%nat -> (i < m * 6)%nat ->
  total (m * 6) (fun l => stacked_transition 6 (transition st' dt) i l * rot X l) =
  rot (fun k => total (m * 6) (fun l => stacked_transition 6 (transition st dt) k l * X l)) i.
Proof.
  intros H Hm Hi.
  rewrite (rot_ext _ (fun k => if (k <? 6)%nat then total 6 (fun l => transition st dt k l * X l) else X (k - 6)%nat) i m Hi).
  2: { intros k Hk. exact (stacked_left 6 (transition st dt) (m * 6) (fun l _ => X l) k 0 ltac:(lia) Hk). }
  assert (E := stacked_left 6 (transition st' dt) (m * 6) (fun l _ => rot X l) i 0 ltac:(lia) Hi). unfold times in E. rewrite E. clear E.
  destruct (Nat.ltb_spec i 6) as [L|L].
  - rewrite transition_turned with (st := st) by auto. apply (rot_ext _ _ i 1); [lia|]. intros k Hk.
    replace (k <? 6)%nat with true by lia. reflexivity.
  - destruct (split6 i) as (a & r & -> & Hr & _ & _). destruct a as [|a]; [lia|].
    replace (S a * 6 + r - 6)%nat with (a * 6 + r)%nat by lia. rewrite !rot_block by auto. apply (rot_ext _ _ r 1); [lia|]. intros k Hk.
    replace (S a * 6 + k <? 6)%nat with false by lia. f_equal. lia.
Qed.
Lemma quiet_turned N i j : (forall k l, (k mod 6 < 2)%nat -> N k l = 0) -> (forall k l, (l mod 6 < 2)%nat -> N k l = 0) -> rot2 N i j = N i j.
Proof.
  intros H1 H2.
  assert (M : forall i, (i mod 6 = 0 -> (i + 1) mod 6 = 1)%nat /\ (i mod 6 = 1 -> (i - 1) mod 6 = 0)%nat).
  { intros k. destruct (split6 k) as (a & r & -> & Hr & Mk & _). rewrite Mk. split; intros ->.
    - rewrite <- Nat.add_assoc. apply mod6. lia.
    - replace (a * 6 + 1 - 1)%nat with (a * 6 + 0)%nat by lia. apply mod6. lia. }
  destruct (M i) as [A1 A2], (M j) as [B1 B2]. unfold rot2, rot.
  destruct (i mod 6)%nat as [|[|]] eqn:Ei.
  - rewrite (H1 i j) by lia. destruct (j mod 6)%nat as [|[|]]; rewrite ?(H1 i), ?(H1 (i + 1)%nat) by lia; ring.
  - rewrite (H1 i j) by lia. destruct (j mod 6)%nat as [|[|]]; rewrite ?(H1 i), ?(H1 (i - 1)%nat) by lia; ring.
  - destruct (j mod 6)%nat as [|[|]] eqn:Ej; [| |reflexivity].
    + rewrite (H2 i j), (H2 i (j + 1)%nat) by lia; ring.
    + rewrite (H2 i j), (H2 i (j - 1)%nat) by lia; ring.
Qed.
Lemma predict_turned f f' st st' y y' prm dt : near2 f f' -> turned_state st st' -> turned_state y y' ->
  rel near2 (kf_predict exact K f y (transition st dt) (process_noise exact prm dt)) (kf_predict exact K f' y' (transition st' dt) (process_noise exact prm dt)).
Proof.
  intros H Hst Hy. assert (S1 := size_pos2 _ _ H). assert (S2 := size_eq2 _ _ H). assert (S6 := size_six _ _ H).
  set (m := Z.to_nat (td_max exact f)) in *. assert (Hm : (1 <= m)%nat) by lia.
  cbn [kf_predict ekf_kalman rel]. constructor.
  - apply (n2_max _ _ H).
  - apply (n2_pos _ _ H).
  - apply (n2_dim _ _ H).
  - apply (n2_dim' _ _ H).
  - rewrite td_size_predict. unfold td_predict. cbn [td_P]. rewrite S2, (n2_dim _ _ H), (n2_dim' _ _ H), S6. intros i j Hi Hj.
    rewrite (rot2_ext _ _ i j m Hi Hj (fun k l Hk Hl => update_p_stacked junk (m * 6) 6 (td_P exact f) (transition st dt) (process_noise exact prm dt) ltac:(lia) k l Hk Hl)).
    rewrite (update_p_stacked junk (m * 6) 6 (td_P exact f') (transition st' dt) (process_noise exact prm dt) ltac:(lia) i j Hi Hj).
    set (Fs := stacked_transition 6 (transition st dt)). set (Fs' := stacked_transition 6 (transition st' dt)). set (N := stacked_noise 6 (process_noise exact prm dt)).
    unfold plus. rewrite rot2_plus. f_equal.
    + assert (E1 : forall l, (l < m * 6)%nat -> times (m * 6) Fs' (td_P exact f') i l = rot2 (times (m * 6) Fs (td_P exact f)) i l).
      { intros l Hl. unfold times at 1. rewrite (total_ext _ _ (fun k => Fs' i k * rot (fun a => rot (td_P exact f a) l) k)).
        2: { intros k Hk. rewrite (n2_P _ _ H) by lia. reflexivity. }
        rewrite (stacked_turned st st' dt m _ i Hst Hm Hi). fold Fs. unfold rot2. apply (rot_ext _ _ i m Hi). intros k Hk.
        unfold times. rewrite rot_total. apply total_ext. intros a _. symmetry. apply rot_scal_l. }
      unfold times at 1, flip. rewrite (total_ext _ _ (fun l => Fs' j l * rot (fun b => rot (fun a => times (m * 6) Fs (td_P exact f) a b) i) l)).
      2: { intros l Hl. rewrite E1 by auto. unfold rot2. rewrite rot_swap. ring. }
      rewrite (stacked_turned st st' dt m _ j Hst Hm Hj). fold Fs. unfold rot2.
      rewrite rot_swap.
      apply (rot_ext _ _ j m Hj). intros k Hk.
      change (rot (fun a => times (m * 6) (times (m * 6) Fs (td_P exact f)) (fun a b => Fs b a) a k) i)
        with (rot (fun a => total (m * 6) (fun l => times (m * 6) Fs (td_P exact f) a l * Fs k l)) i).
      rewrite rot_total. apply total_ext. intros a _. rewrite rot_scal. ring.
    + symmetry. apply quiet_turned.
      * intros k l Hk. unfold N, stacked_noise. destruct ((k <? 6) && (l <? 6))%nat eqn:B; [|reflexivity]. rewrite Nat.mod_small in Hk by lia.
        unfold process_noise, process_noise_covariance, diagonal. destruct (Nat.eqb k l); [|reflexivity]. destruct k as [|[|k]]; [reflexivity|reflexivity|lia].
      * intros k l Hk. unfold N, stacked_noise. destruct ((k <? 6) && (l <? 6))%nat eqn:B; [|reflexivity]. rewrite Nat.mod_small in Hk by lia.
        unfold process_noise, process_noise_covariance, diagonal. destruct (Nat.eqb_spec k l) as [->|]; [|reflexivity]. destruct l as [|[|l]]; [reflexivity|reflexivity|lia].
  - rewrite td_size_predict. unfold td_predict. cbn [td_x]. rewrite S2, (n2_dim _ _ H), (n2_dim' _ _ H), S6. intros i Hi.
    apply (turned_entry_ext _ _ (fun k => if (k <? 6)%nat then to_vector exact y k else td_x exact f (k - 6)%nat)
      (fun k => if (k <? 6)%nat then to_vector exact y' k else td_x exact f' (k - 6)%nat) m); auto.
    { intros k Hk. rewrite !update_x_entry by lia. auto. }
    destruct (Nat.ltb_spec i 6) as [L|L].
    + apply (turned_entry_ext _ _ (to_vector exact y) (to_vector exact y') 1); [lia| |apply turned_vector; auto].
      intros k Hk. replace (k <? 6)%nat with true by lia. auto.
    + destruct (split6 i) as (a & r & -> & Hr & _ & _). destruct a as [|a]; [lia|]. apply turned_entry_block; auto.
      apply (turned_entry_ext _ _ (fun k => td_x exact f (a * 6 + k)%nat) (fun k => td_x exact f' (a * 6 + k)%nat) 1); [lia| |].
      * intros k Hk. replace (S a * 6 + k <? 6)%nat with false by lia. replace (S a * 6 + k - 6)%nat with (a * 6 + k)%nat by lia. auto.
      * apply turned_entry_block; auto. apply (n2_x _ _ H). lia.
Qed.
Lemma next_turned st st' dt : turned_state st st' ->
  turned_state (predict_next_state exact sin cos atan2 st dt) (predict_next_state exact sin cos atan2 st' dt).
Proof.
  intros (E1 & E2 & E3 & E4 & E5 & E6). unfold turned_state, predict_next_state, predict_with. cbn [st_x st_y st_yaw st_bias st_vx st_wz].
  cbn [d_add d_mul exact]. rewrite E1, E2, E4, E5, E6.
  rewrite (same_cos _ _ (heading_plus _ _ (st_bias exact st) E3)), (same_sin _ _ (heading_plus _ _ (st_bias exact st) E3)).
  replace (st_yaw exact st + theta + st_bias exact st) with (theta + (st_yaw exact st + st_bias exact st)) by lra.
  rewrite (cos_plus theta), (sin_plus theta).
  repeat split; auto; try (match goal with |- @eq _ ?a ?b => change (@eq R a b) end; ring).
  destruct (norm_yaw_spec (st_yaw exact st' + st_wz exact st * dt)) as [_ [j Ej]], (norm_yaw_spec (st_yaw exact st + st_wz exact st * dt)) as [_ [k Ek]].
  destruct E3 as [l El]. exists (l + k - j)%Z. rewrite minus_IZR, plus_IZR. lra.
Qed.

(** ** Measured twist *)
(** The measurement reads only entries that the axes do not touch. *)
Definition axis_free (C : nat -> nat -> R) : Prop := forall j m, C j m = 0 \/ (4 <= m mod 6)%nat.
Lemma free_product C j m a b : axis_free C -> ((4 <= m mod 6)%nat -> a = b) -> C j m * a = C j m * b.
Proof. intros H E. destruct (H j m) as [->|L]; [lra|]. rewrite E; auto. Qed.
Lemma twist_free h m d : axis_free (make_measurement_matrix exact h 6 (list_matrix exact (twist_measurement_matrix exact)) m d).
Proof.
  intros j l. unfold make_measurement_matrix, set_block, mzero. destruct (_ && _) eqn:E; [|left; reflexivity].
  rewrite Nat.sub_0_r. assert (exists r, l = d * 6 + r /\ r < 6)%nat as (r & -> & Hr) by (exists (l - 6 * d)%nat; lia).
  replace (d * 6 + r - 6 * d)%nat with r by lia. rewrite mod6 by auto.
  unfold list_matrix, twist_measurement_matrix, selection. destruct j as [|[|j]]; cbn.
  - do 6 (destruct r as [|r]; [cbn; auto; right; lia|]). lia.
  - do 6 (destruct r as [|r]; [cbn; auto; right; lia|]). lia.
  - destruct j; cbn; destruct r; auto.
Qed.

Section Update.
Variable m h : nat.
Variables P P' C N : nat -> nat -> R.
Notation n := (m * 6)%nat.
Hypothesis HP : forall i j, (i < n)%nat -> (j < n)%nat -> P' i j = rot2 P i j.
Hypothesis HC : axis_free C.
Lemma column_turned i j : (i < n)%nat -> (j < n)%nat -> (4 <= j mod 6)%nat -> P' i j = rot (fun k => P k j) i.
Proof. intros Hi Hj L. rewrite HP by auto. unfold rot2. rewrite rot_swap. rewrite (rot_fixed (fun l => rot (fun k => P k l) i) j) by lia. reflexivity. Qed.
Lemma row_turned i j : (i < n)%nat -> (j < n)%nat -> (4 <= i mod 6)%nat -> P' i j = rot (P i) j.
Proof. intros Hi Hj L. rewrite HP by auto. unfold rot2. rewrite (rot_fixed (fun k => rot (P k) j) i) by lia. reflexivity. Qed.
Lemma cross_turned l j : (l < n)%nat -> mmul exact n P' (mtr exact C) l j = rot (fun k => mmul exact n P (mtr exact C) k j) l.
Proof.
  intros Hl. unfold mmul, mtr. rewrite sum_total.
  rewrite (rot_ext _ (fun k => total n (fun m => P k m * C j m)) l m Hl) by (intros; apply sum_total).
  rewrite rot_total. apply total_ext. intros k Hk. rewrite rot_scal. cbn [d_mul exact]. rewrite (Rmult_comm (P' l k)), (Rmult_comm _ (C j k)).
  apply free_product; auto. intros L. apply column_turned; auto.
Qed.
Lemma innovation_turned : mmul exact n C (mmul exact n P' (mtr exact C)) = mmul exact n C (mmul exact n P (mtr exact C)).
Proof.
  apply functional_extensionality. intros i. apply functional_extensionality. intros j. unfold mmul at 1 3. apply sum_ext.
  intros l Hl. cbn [d_mul exact]. apply free_product; auto. intros L. rewrite cross_turned by auto.
  rewrite (rot_fixed (fun k => mmul exact n P (mtr exact C) k j) l) by lia. reflexivity.
Qed.
Lemma gain_turned : match gain exact inverse n h P C N, gain exact inverse n h P' C N with
  | Some G, Some G' => forall l j, (l < n)%nat -> G' l j = rot (fun k => G k j) l
  | None, None => True
  | _, _ => False end.
Proof.
  unfold gain. rewrite innovation_turned. destruct (inverse h _) as [V|]; auto. intros l j Hl.
  unfold mmul at 1. rewrite sum_total.
  rewrite (rot_ext _ (fun k => total h (fun m => mmul exact n P (mtr exact C) k m * V m j)) l m Hl) by (intros; apply sum_total).
  rewrite rot_total. apply total_ext. intros k Hk. rewrite rot_scal, cross_turned by auto. reflexivity.
Qed.
Variables G G' : nat -> nat -> R.
Hypothesis HG : forall l j, (l < n)%nat -> G' l j = rot (fun k => G k j) l.
Lemma weighted_turned i k : (i < n)%nat -> mmul exact h G' C i k = rot (fun l => mmul exact h G C l k) i.
Proof.
  intros Hi. unfold mmul. rewrite sum_total.
  rewrite (rot_ext _ (fun l => total h (fun m => G l m * C m k)) i m Hi) by (intros; apply sum_total).
  rewrite rot_total. apply total_ext. intros j _. rewrite rot_scal, HG by auto. reflexivity.
Qed.
Lemma weighted_free i k : mmul exact h G' C i k = 0 \/ (4 <= k mod 6)%nat.
Proof.
  destruct (Nat.ltb_spec (k mod 6) 4) as [L|L]; auto. left. unfold mmul. rewrite sum_total. apply total_zero. intros j _.
  destruct (HC j k) as [E|E]; [|lia]. cbn [d_mul exact]. rewrite E. ring.
Qed.
Lemma covariance_turned i j : (i < n)%nat -> (j < n)%nat -> update_covariance exact n h P' C G' i j = rot2 (update_covariance exact n h P C G) i j.
Proof.
  intros Hi Hj. unfold update_covariance, msub. cbn [d_sub exact]. rewrite rot2_minus, HP by auto. f_equal.
  unfold mmul at 1. rewrite sum_total.
  rewrite (rot2_ext _ (fun k l => total n (fun m => mmul exact h G C k m * P m l)) i j m Hi Hj) by (intros; apply sum_total).
  rewrite rot2_total. apply total_ext. intros k Hk. cbn [d_mul exact]. destruct (weighted_free i k) as [E|E].
  - rewrite <- weighted_turned by auto. rewrite E. ring.
  - rewrite <- weighted_turned, row_turned by auto. reflexivity.
Qed.
Variables x x' y : nat -> R.
Hypothesis Hx : forall i, (i < n)%nat -> turned_entry x x' i.
Lemma residual_turned l : vsub exact y (mvec exact n C x') l = vsub exact y (mvec exact n C x) l.
Proof.
  unfold vsub. f_equal. unfold mvec. apply sum_ext. intros k Hk. cbn [d_mul exact]. apply free_product; auto. intros L.
  assert (E := Hx k Hk). unfold turned_entry in E. replace (Nat.eqb (k mod 6) 2) with false in E by lia. rewrite E. apply rot_fixed. lia.
Qed.
Lemma state_turned i : (i < n)%nat -> turned_entry (update_state exact n h x y C G) (update_state exact n h x' y C G') i.
Proof.
  intros Hi. assert (E := Hx i Hi).
  assert (F : mvec exact h G' (vsub exact y (mvec exact n C x')) i = rot (mvec exact h G (vsub exact y (mvec exact n C x))) i).
  { unfold mvec at 1. rewrite sum_total.
    rewrite (rot_ext _ (fun l => total h (fun j => G l j * vsub exact y (mvec exact n C x) j)) i m Hi) by (intros; apply sum_total).
    rewrite rot_total. apply total_ext. intros j _. rewrite rot_scal, HG, residual_turned by auto. reflexivity. }
  unfold turned_entry in *. destruct (Nat.eqb (i mod 6) 2) eqn:B.
  - unfold update_state, vadd. rewrite F, rot_fixed by lia. cbn [d_add exact]. destruct E as [k E]. exists k. rewrite E. lra.
  - unfold update_state, vadd. cbn [d_add exact]. rewrite F, E. symmetry. apply rot_plus.
Qed.
End Update.

Lemma update_turned f f' y N d : near2 f f' ->
  rel near2 (kf_update exact K f y (twist_measurement_matrix exact) N d) (kf_update exact K f' y (twist_measurement_matrix exact) N d).
Proof.
  intros H. assert (S2 := size_eq2 _ _ H). assert (S6 := size_six _ _ H). cbn [kf_update ekf_kalman]. unfold td_update.
  rewrite S2, (n2_max _ _ H), (n2_dim _ _ H), (n2_dim' _ _ H).
  destruct (td_max exact f <=? d)%Z eqn:E1; cbn; auto. destruct (d <? 0)%Z eqn:E2; cbn; auto.
  set (C := make_measurement_matrix exact _ _ _ _ _).
  assert (HC : axis_free C) by apply twist_free.
  assert (HP : forall i j, (i < Z.to_nat (td_max exact f) * 6)%nat -> (j < Z.to_nat (td_max exact f) * 6)%nat -> td_P exact f' i j = rot2 (td_P exact f) i j).
  { intros i j Hi Hj. apply (n2_P _ _ H); lia. }
  assert (HX : forall i, (i < Z.to_nat (td_max exact f) * 6)%nat -> turned_entry (td_x exact f) (td_x exact f') i).
  { intros i Hi. apply (n2_x _ _ H); lia. }
  assert (G := gain_turned (Z.to_nat (td_max exact f)) (List.length y) (td_P exact f) (td_P exact f') C (list_matrix exact N) HP HC).
  rewrite S6. destruct (gain exact inverse _ _ (td_P exact f) C _) as [G1|], (gain exact inverse _ _ (td_P exact f') C _) as [G2|]; try contradiction; cbn; auto.
  assert (FM : forall n h M, finite_matrix exact n h M = true).
  { intros n h M. unfold finite_matrix. apply forallb_forall. intros i _. apply forallb_forall. intros j _. reflexivity. }
  rewrite !FM. cbn [rel]. constructor; cbn [td_max td_dim td_x td_P]; auto.
  - apply (n2_pos _ _ H).
  - unfold td_size. cbn [td_max td_dim]. intros i j Hi Hj. apply covariance_turned; auto.
  - unfold td_size. cbn [td_max td_dim]. intros i Hi. apply (state_turned _ _ (td_P exact f) (td_P exact f')); auto.
Qed.

(** ** The node *)
Variable roundf : R -> option Z.
Variable Orient : Type.
Variables get_yaw get_roll get_pitch : Orient -> R.
Variable turn : Orient -> Orient.
Hypothesis turn_yaw : forall o, same_heading (get_yaw (turn o)) (get_yaw o + theta).
Hypothesis turn_roll : forall o, get_roll (turn o) = get_roll o.
Hypothesis turn_pitch : forall o, get_pitch (turn o) = get_pitch o.
Variable prm : params exact.

Lemma twist_body_turned p now dt f f' m : near2 f f' ->
  rel near2 (twist_body exact roundf K p now dt f m) (twist_body exact roundf K p now dt f' m).
Proof.
  intros H. unfold twist_body. apply rel_same. intros u. apply rel_same. intros d.
  destruct (negb (check_delay_step _ _)); [exact H|]. destruct (negb (all_finite _ _)); [exact H|].
  eapply rel_bind; [apply get_turned, H|]. intros s s' (E1 & E2 & E3 & E4 & E5 & E6).
  assert (S1 := size_pos2 _ _ H).
  assert (E : twist_covariance exact (kf_latest_p exact K f') = twist_covariance exact (kf_latest_p exact K f)).
  { unfold twist_covariance. cbn [map kf_latest_p ekf_kalman]. unfold td_latest_p. rewrite !(n2_P _ _ H) by lia. reflexivity. }
  unfold get_twist_state. rewrite E, E5, E6.
  destruct (negb (gate _ _ _ _ _ _)); [exact H|]. apply rel_same. intros N. unfold try_update.
  assert (U := update_turned f f' (twist_measurement_vector exact m) N d H).
  destruct (kf_update exact K f _ _ _ _), (kf_update exact K f' _ _ _ _); cbn in U |- *; auto; contradiction.
Qed.
Lemma loop_turned {X} (body body' : tdkf exact -> X -> outcome (tdkf exact)) n :
  (forall s s' m, near2 s s' -> rel near2 (body s m) (body' s' m)) ->
  forall fuel i q s s', near2 s s' -> rel (fun x x' => fst x' = fst x /\ near2 (snd x) (snd x')) (update_loop body n fuel i q s) (update_loop body' n fuel i q s').
Proof.
  intros Hb. induction fuel as [|k IH]; intros i q s s' Hs; cbn [update_loop].
  - destruct (i <? q_size q)%Z; cbn; auto.
  - destruct (i <? q_size q)%Z; [|cbn; auto]. apply rel_same. intros [m q1]. eapply rel_bind; [apply Hb, Hs|]. intros t t' Ht. apply IH; auto.
Qed.

Notation nodeT := (node exact Orient K).
Record n2rel (n n' : nodeT) : Prop := N2rel {
  m_ekf : match n_ekf _ _ _ n, n_ekf _ _ _ n' with
          | None, None => True
          | Some f, Some f' => near2 f f'
          | _, _ => False end;
  m_last : n_last _ _ _ n' = n_last _ _ _ n;
  m_pose : n_pose _ _ _ n = q_empty;
  m_pose' : n_pose _ _ _ n' = q_empty;
  m_twist : n_twist _ _ _ n' = n_twist _ _ _ n;
  m_z : n_z _ _ _ n' = n_z _ _ _ n;
  m_roll : n_roll _ _ _ n' = n_roll _ _ _ n;
  m_pitch : n_pitch _ _ _ n' = n_pitch _ _ _ n;
  m_out : Forall2 (turned_output theta) (n_out _ _ _ n) (n_out _ _ _ n') }.

Lemma published_covariance P P' : (forall i j, (i < 3)%nat -> (j < 3)%nat -> P' i j = rot2 P i j) ->
  pose_message_covariance exact P' = turned_covariance theta (pose_message_covariance exact P).
Proof.
  intros H. unfold pose_message_covariance. rewrite !H by lia. unfold rot2, rot, turned_covariance.
  cbn -[cos sin]. repeat (f_equal; [ring|]). f_equal. ring.
Qed.

Notation step := (node_step exact roundf sin cos atan2 Ropp Orient get_yaw get_roll get_pitch K prm).
Lemma timer_turned n n' t1 t2 t3 t4 t5 : n2rel n n' -> rel n2rel (step n (EvTimer exact Orient t1 t2 t3 t4 t5)) (step n' (EvTimer exact Orient t1 t2 t3 t4 t5)).
Proof.
  intros H. assert (He := m_ekf _ _ H). cbn [node_step]. unfold timer_callback.
  destruct (n_ekf exact Orient K n) as [f|] eqn:E1, (n_ekf exact Orient K n') as [f'|] eqn:E2; try contradiction; [|exact H].
  assert (Hf := He). rewrite (m_last _ _ H).
  destruct (interval_compute exact (default_frequency exact prm) (n_last exact Orient K n) (seconds exact t1)) as [[dt| | | | |] last]; cbn [rel]; auto.
  2: { constructor; cbn [n_ekf n_last n_pose n_twist n_z n_roll n_pitch n_out]; try apply H; auto. }
  assert (L := latest_turned f f' Hf).
  eapply rel_bind; [apply predict_turned; [exact Hf|exact L|apply next_turned, L]|]. intros g g' Hg. rewrite (m_pose _ _ H), (m_pose' _ _ H), (m_twist _ _ H).
  assert (EP : forall g, pose_update exact roundf sin cos atan2 Orient get_yaw K (pose_params exact prm) q_empty g t2 dt = Ok (q_empty, g)) by reflexivity.
  rewrite !EP. cbn [bind].
  eapply rel_bind.
  { unfold twist_update. apply (loop_turned (twist_body exact roundf K (twist_params exact prm) t3 dt) (twist_body exact roundf K (twist_params exact prm) t3 dt)); [|exact Hg].
    intros s s' m Hs. apply twist_body_turned; auto. }
  intros [tq g2] [tq' g2'] [Et Hg2]. cbn in Et, Hg2. subst tq'. cbn [rel].
  assert (L2 := latest_turned g2 g2' Hg2). assert (S1 := size_pos2 _ _ Hg2).
  assert (EC : pose_message_covariance exact (kf_latest_p exact K g2') = turned_covariance theta (pose_message_covariance exact (kf_latest_p exact K g2))).
  { apply published_covariance. intros i j Hi Hj. apply (n2_P _ _ Hg2); lia. }
  assert (ET : twist_message_covariance exact (kf_latest_p exact K g2') = twist_message_covariance exact (kf_latest_p exact K g2)).
  { unfold twist_message_covariance. cbn [kf_latest_p ekf_kalman]. unfold td_latest_p. rewrite !(n2_P _ _ Hg2) by lia. reflexivity. }
  destruct L2 as (X1 & X2 & X3 & X4 & X5 & X6).
  assert (PL : turned_place theta
    [st_x exact (kf_latest_x exact K g2); st_y exact (kf_latest_x exact K g2); f_x exact (n_z exact Orient K n); f_x exact (n_roll exact Orient K n);
     f_x exact (n_pitch exact Orient K n); d_add exact (st_yaw exact (kf_latest_x exact K g2)) (st_bias exact (kf_latest_x exact K g2))]
    [st_x exact (kf_latest_x exact K g2'); st_y exact (kf_latest_x exact K g2'); f_x exact (n_z exact Orient K n'); f_x exact (n_roll exact Orient K n');
     f_x exact (n_pitch exact Orient K n'); d_add exact (st_yaw exact (kf_latest_x exact K g2')) (st_bias exact (kf_latest_x exact K g2'))]).
  { do 7 eexists. split; [reflexivity|]. rewrite X1, X2, (m_z _ _ H), (m_roll _ _ H), (m_pitch _ _ H). split; [reflexivity|].
    rewrite X4. cbn [d_add exact]. replace (st_yaw exact (kf_latest_x exact K g2) + st_bias exact (kf_latest_x exact K g2) + theta)
      with (st_yaw exact (kf_latest_x exact K g2) + theta + st_bias exact (kf_latest_x exact K g2)) by lra. apply heading_plus. exact X3. }
  constructor; cbn [n_ekf n_last n_pose n_twist n_z n_roll n_pitch n_out]; try apply H; auto.
  apply Forall2_app; [apply H|]. constructor; [|constructor; [|constructor]].
  - cbn [turned_output]. auto.
  - cbn [turned_output]. auto 10.
Qed.

Lemma turned_entries array : List.length array = 36%nat -> evenly 0 array -> evenly 3 array ->
  forall k, In k [0; 7; 14; 21; 28; 35]%nat -> nth k (turned_covariance theta array) 0 = nth k array 0.
Proof.
  intros HL (A1 & A2 & A3) (B1 & B2 & B3) k Hk. cbn [Nat.mul Nat.add] in A1, A2, A3, B1, B2, B3.
  assert (SC := sin2_cos2 theta). unfold Rsqr in SC.
  do 36 (destruct array as [|? array]; [discriminate|]). cbn [nth] in A1, A2, A3, B1, B2, B3. subst.
  cbn [In] in Hk. destruct Hk as [<-|[<-|[<-|[<-|[<-|[<-|[]]]]]]]; unfold turned_covariance; cbn -[cos sin]; try ring.
  all: match goal with |- _ = ?v => transitivity (v * (sin theta * sin theta + cos theta * cos theta)); [ring|rewrite SC; ring] end.
Qed.
Lemma initial_turned n n' m tf : n2rel n n' -> even_event Orient (EvInitialPose exact Orient m tf) ->
  rel n2rel (step n (EvInitialPose exact Orient m tf)) (step n' (EvInitialPose exact Orient (turned_pose Orient theta turn m) tf)).
Proof.
  intros H (HL & A1 & A3 & Htf). cbn [node_step]. unfold callback_initial_pose. cbn [p_frame turned_pose].
  apply rel_same. intros _. apply rel_same. intros _. destruct tf as [tr|]; [|cbn; auto].
  destruct (Htf tr eq_refl) as [T1 T2]. cbn [p_cov p_x p_y p_orient turned_pose].
  assert (L' : List.length (turned_covariance theta (p_cov exact Orient m)) = 36%nat) by (unfold turned_covariance; rewrite map_length, seq_length; reflexivity).
  assert (HL2 : @List.length R (p_cov exact Orient m) = 36%nat) by exact HL.
  assert (EV : forall i, In (Z.to_nat i) [0; 7; 14; 21; 28; 35]%nat -> (0 <= i < 36)%Z -> vat (turned_covariance theta (p_cov exact Orient m)) i = vat (p_cov exact Orient m) i).
  { intros i Hi Hb. transitivity (Ok (nth (Z.to_nat i) (turned_covariance theta (p_cov exact Orient m)) 0)); [apply vat_list; [rewrite L'|]; lia|].
    rewrite turned_entries by auto. symmetry. apply vat_list; [rewrite HL2|]; lia. }
  assert (EW : forall i, (0 <= i < 36)%Z -> vat (p_cov exact Orient m) i = Ok (nth (Z.to_nat i) (p_cov exact Orient m) 0)).
  { intros i Hb. apply vat_list; [rewrite HL2|]; lia. }
  unfold init_covariance. rewrite !EV by (first [lia|cbn; auto 10]).
  rewrite !EW by lia. cbn [bind].
  eapply rel_bind.
  { apply (new_turned (init_state exact (d_add exact (p_x exact Orient m) (tr_x exact Orient tr)) (d_add exact (p_y exact Orient m) (tr_y exact Orient tr))
               (d_add exact (get_yaw (p_orient exact Orient m)) (get_yaw (tr_rot exact Orient tr))))).
    - unfold turned_state, init_state. cbn [st_x st_y st_yaw st_bias st_vx st_wz]. rewrite T1, T2. cbn [d_add exact]. rewrite !Rplus_0_r. repeat split; auto.
      replace (get_yaw (p_orient exact Orient m) + get_yaw (tr_rot exact Orient tr) + theta)
        with (get_yaw (p_orient exact Orient m) + theta + get_yaw (tr_rot exact Orient tr)) by lra. apply heading_plus, turn_yaw.
    - intros i j Hi Hj. destruct A1 as (A1 & _). cbn [Nat.mul Nat.add] in A1. change (Z.to_nat 0) with 0%nat. change (Z.to_nat 7) with 7%nat.
      assert (A4 : @nth (D exact) 7 (p_cov exact Orient m) 0 = @nth (D exact) 0 (p_cov exact Orient m) 0) by (symmetry; exact A1). rewrite A4. assert (SC := sin2_cos2 theta). unfold Rsqr in SC. unfold rot2, rot, diagonal.
      generalize (@nth (D exact) 0 (p_cov exact Orient m) 0). generalize (@nth (D exact) (Z.to_nat 35) (p_cov exact Orient m) 0). intros w v. change (D exact) with R in w, v.
      do 6 (destruct i as [|i]; [do 6 (destruct j as [|j]; [cbn -[cos sin]; match goal with |- @eq _ ?a ?b => change (@eq R a b) end; first [ring | transitivity (v * (sin theta * sin theta + cos theta * cos theta)); [rewrite SC; ring|ring]]|]); lia|]). lia. }
  intros f f' Hf. unfold update_simple_filters. cbn [p_cov p_stamp p_z p_orient turned_pose].
  rewrite !EV by (first [lia|cbn; auto 10]). rewrite !EW by lia. cbn [bind].
  eapply rel_bind with (r := n2rel).
  { apply rel_same. intros t. cbn [rel]. rewrite turn_roll, turn_pitch.
    constructor; cbn [n_ekf n_last n_pose n_twist n_z n_roll n_pitch n_out]; try apply H; auto.
    - rewrite (m_z _ _ H). reflexivity.
    - rewrite (m_roll _ _ H). reflexivity.
    - rewrite (m_pitch _ _ H). reflexivity. }
  intros n1 n1' H1. cbn [rel]. constructor; cbn [n_ekf n_last n_pose n_twist n_z n_roll n_pitch n_out]; try apply H1; auto.
Qed.
Lemma step_turned n n' e : n2rel n n' -> even_event Orient e -> rel n2rel (step n e) (step n' (turned_event Orient theta turn e)).
Proof.
  intros H He. destruct e as [t1 t2 t3 t4 t5|m tf|m|m]; cbn [turned_event].
  - apply timer_turned. auto.
  - apply initial_turned; auto.
  - contradiction.
  - cbn [node_step]. unfold callback_twist. cbn [rel]. constructor; cbn [n_ekf n_last n_pose n_twist n_z n_roll n_pitch n_out]; try apply H; auto.
    rewrite (m_twist _ _ H). reflexivity.
Qed.
Lemma fold_turned h : forall n n', n2rel n n' -> Forall (even_event Orient) h ->
  rel n2rel (foldM step n h) (foldM step n' (map (turned_event Orient theta turn) h)).
Proof.
  induction h as [|e h IH]; intros n n' H Hs; cbn [foldM map]; [exact H|]. inversion Hs; subst.
  eapply rel_bind; [apply step_turned; auto|]. intros m m' Hm. apply IH; auto.
Qed.
Theorem run_turned h : Forall (even_event Orient) h ->
  let run := node_run exact roundf sin cos atan2 Ropp Orient get_yaw get_roll get_pitch K prm in
  rel (fun n n' => Forall2 (turned_output theta) (n_out _ _ _ n) (n_out _ _ _ n')) (run h) (run (map (turned_event Orient theta turn) h)).
Proof.
  intros Hs run. assert (F := fold_turned h (node_new exact Orient K) (node_new exact Orient K) ltac:(constructor; cbn; auto) Hs).
  unfold run, node_run. destruct (foldM _ _ h), (foldM _ _ (map _ h)); cbn in F |- *; auto; try contradiction. apply F.
Qed.
End Turn.
