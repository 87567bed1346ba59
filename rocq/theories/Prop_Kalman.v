(** C56-C59, C63, C73, C80: the Kalman filters. *)
From Coq Require Import Reals Lra Lia PeanoNat List Bool ZArith ClassicalEpsilon.
From Verif Require Import Base Arith EkfModel KalmanModel SpecKalman StackProofs KalmanProofs2 KalmanProofs3.
Import ListNotations.
Local Open Scope nat_scope.

(** Exact inversion exists, so the theorems below are about something. *)
Definition some_inverse (n : nat) (S : nat -> nat -> R) : option (nat -> nat -> R) :=
  match excluded_middle_informative (exists V, is_inverse n S V) with
  | left H => Some (proj1_sig (constructive_indefinite_description _ H))
  | right _ => None
  end.
Example some_inverse_inverts : inverts some_inverse.
Proof.
  intros n S. unfold some_inverse. destruct excluded_middle_informative as [H|H].
  - exact (proj2_sig (constructive_indefinite_description _ H)).
  - intros V HV. apply H. exists V. exact HV.
Qed.
Lemma identity_pd n : positive_definite n identity.
Proof.
  split.
  - intros i j Hi Hj. unfold identity. now rewrite Nat.eqb_sym.
  - intros v [k [Hk Nz]]. unfold variance_along.
    rewrite (total_ext n _ (fun i => v i * v i)%R).
    + apply Rlt_le_trans with (v k * v k)%R; [nra|].
      replace (v k * v k)%R with (total n (fun i => if Nat.eqb i k then v k * v k else 0)%R).
      * apply total_le. intros i Hi. destruct (Nat.eqb_spec i k) as [->|N]; nra.
      * rewrite (total_single n k); [now rewrite Nat.eqb_refl|assumption|].
        intros i Hi N. destruct (Nat.eqb_spec i k); [lia|reflexivity].
    + intros i Hi. rewrite (total_single n i); [|assumption|].
      * unfold identity. rewrite Nat.eqb_refl. lra.
      * intros j Hj N. unfold identity. replace (i =? j) with false by lia. lra.
Qed.
Lemma pd_is_psd n P : positive_definite n P -> positive_semidefinite n P.
Proof.
  intros [Hs Hp]. split; [assumption|]. intros v.
  destruct (excluded_middle_informative (exists i, i < n /\ v i <> 0%R)) as [H|H].
  - left. now apply Hp.
  - right. symmetry. apply total_zero. intros i Hi. apply total_zero. intros j Hj.
    destruct (Req_EM_T (v i) 0) as [->|N]; [lra|]. exfalso. apply H. exists i. tauto.
Qed.

Section Props.
Variable inverse : nat -> (nat -> nat -> R) -> option (nat -> nat -> R).
Hypothesis Hinv : inverts inverse.
Variable junk : nat -> nat -> R.

(** ** C56 *)
(** A history of the plain filter: predictions with m inputs and own matrices, or
    measurements; its C and R are fixed at construction. *)
Inductive kf_op := KPredict (m : nat) (u : nat -> R) (F B Q : nat -> nat -> R) | KMeasure (y : nat -> R).
Definition kf_after (n h : nat) (C N : nat -> nat -> R) (ops : list kf_op) (f : kf exact) : kf exact :=
  fold_left (fun f o => match o with
                        | KPredict m u F B Q => kf_predict_with exact n m f u F B Q
                        | KMeasure y => snd (kf_update_with exact inverse n h f y C N)
                        end) ops f.
Theorem C56_plain : forall n h C N x0 P0 ops,
  positive_definite h N -> positive_semidefinite n P0 ->
  Forall (fun o => match o with KPredict _ _ _ _ Q => positive_semidefinite n Q | KMeasure _ => True end) ops ->
  let f := kf_after n h C N ops (kf_init exact x0 P0) in
  positive_semidefinite n (kf_P exact f) /\
  forall y, exists f', kf_update_with exact inverse n h f y C N = (Ok tt, f') /\
    forall v, (variance_along n (kf_P exact f') v <= variance_along n (kf_P exact f) v)%R.
Proof.
  intros n h C N x0 P0 ops HN HP Hops f.
  assert (X : positive_semidefinite n (kf_P exact f)).
  { unfold f, kf_after. set (g := kf_init exact x0 P0). change P0 with (kf_P exact g) in HP. clearbody g. clear f. revert g HP.
    induction ops as [|o ops IH]; intros g HP; [exact HP|]. cbn [fold_left].
    inversion Hops as [|o' l Ho Hl]; subst. apply IH; [exact Hl|]. destruct o as [m u F B Q|y].
    - apply predict_psd; assumption.
    - destruct (kf_update_facts Hinv y C HP HN) as [f' [E [H1 _]]]. rewrite E. exact H1. }
  split; [exact X|]. intros y. destruct (kf_update_facts Hinv y C X HN) as [f' [E [_ H]]]. exists f'. auto.
Qed.

(** A history of the filter with delay. *)
Inductive td_op := TPredict (x : nat -> R) (F Q : nat -> nat -> R) | TMeasure (h : nat) (y : nat -> R) (C N : nat -> nat -> R) (delay : Z).
Definition td_after (ops : list td_op) (f : tdkf exact) : tdkf exact :=
  fold_left (fun f o => match o with
                        | TPredict x F Q => td_predict exact junk f x F Q
                        | TMeasure h y C N z => snd (td_update exact inverse h f y C N z)
                        end) ops f.
Definition td_op_ok (d : nat) (o : td_op) : Prop :=
  match o with
  | TPredict _ _ Q => positive_semidefinite d Q
  | TMeasure h _ _ N z => positive_definite h N /\ (0 <= z)%Z
  end.
Definition td_ok (f : tdkf exact) : Prop :=
  (0 < td_max exact f)%Z /\ 0 < td_dim exact f /\ positive_semidefinite (td_size exact f) (td_P exact f).
Lemma td_after_ok ops : forall f, td_ok f -> Forall (td_op_ok (td_dim exact f)) ops ->
  td_ok (td_after ops f) /\ td_max exact (td_after ops f) = td_max exact f /\ td_dim exact (td_after ops f) = td_dim exact f.
Proof.
  induction ops as [|o ops IH]; intros f Hf Hops; [auto|].
  inversion Hops as [|o' l Ho Hl]; subst. unfold td_after. cbn [fold_left]. fold (td_after ops).
  assert (S : let g := match o with
      | TPredict x F Q => td_predict exact junk f x F Q
      | TMeasure h y C N z => snd (td_update exact inverse h f y C N z) end in
    td_ok g /\ td_max exact g = td_max exact f /\ td_dim exact g = td_dim exact f).
  { destruct Hf as [Hm [Hd HP]]. destruct o as [x F Q|h y C N z]; cbn in Ho.
    - cbn zeta. split; [|auto]. split; [exact Hm|]. split; [exact Hd|]. exact (@td_predict_facts junk f x F Q Hm HP Ho).
    - destruct Ho as [HN Hz]. destruct (Z_lt_le_dec z (td_max exact f)) as [L|L].
      + destruct (@td_update_facts _ Hinv h f y C N z Hd HP HN (conj Hz L)) as [f' [E [E1 [E2 [E3 _]]]]].
        rewrite E. cbn. unfold td_ok. rewrite E1, E2. auto.
      + unfold td_update. replace (td_max exact f <=? z)%Z with true by lia. cbn. unfold td_ok. auto. }
  destruct S as [S1 [S2 S3]]. destruct (IH _ S1) as [A [B D]].
  - rewrite S3. exact Hl.
  - unfold td_after in *. rewrite B, D. auto.
Qed.
Theorem C56_delay : forall d x0 P0 max_delay f0 ops,
  0 < d -> positive_semidefinite d P0 -> td_new exact junk d x0 P0 max_delay = Ok f0 -> Forall (td_op_ok d) ops ->
  let f := td_after ops f0 in
  positive_semidefinite (Z.to_nat max_delay * d) (td_P exact f) /\
  positive_semidefinite d (td_latest_p exact f) /\
  forall h y C N z, positive_definite h N -> (0 <= z < max_delay)%Z ->
    exists f', td_update exact inverse h f y C N z = (Ok tt, f') /\
      forall v, (variance_along (Z.to_nat max_delay * d) (td_P exact f') v <= variance_along (Z.to_nat max_delay * d) (td_P exact f) v)%R.
Proof.
  intros d x0 P0 mx f0 ops Hd HP0 Hn Hops f. unfold td_new in Hn. destruct (Z.ltb_spec 0 mx) as [L|L]; [|discriminate]. injection Hn as <-.
  destruct (td_after_ok ops (Td exact (init_x exact junk d x0 (Z.to_nat mx)) (init_p exact d P0 (Z.to_nat mx)) mx d)) as [[A1 [A2 A3]] [B D]].
  - split; [exact L|]. split; [exact Hd|]. apply init_p_psd. exact HP0.
  - exact Hops.
  - fold f in A1, A2, A3, B, D. cbn in B, D. assert (Sz : td_size exact f = Z.to_nat mx * d) by (unfold td_size; rewrite B, D; reflexivity).
    rewrite Sz in A3. split; [exact A3|]. split.
    + apply corner_psd with (Z.to_nat mx * d); [nia|exact A3].
    + intros h y C N z HN Hz. rewrite <- Sz in A3. destruct (@td_update_facts _ Hinv h f y C N z A2 A3 HN ltac:(lia)) as [f' [E [_ [_ [_ H]]]]].
      exists f'. split; [exact E|]. rewrite <- Sz. exact H.
Qed.

(** ** C57 *)
Theorem C57_predict : forall f x_next F Q, (0 < td_max exact f)%Z ->
  let f' := td_predict exact junk f x_next F Q in
  let d := td_dim exact f in
  textbook_prediction (td_size exact f) (stacked_transition d F) (stacked_noise d Q)
    (stacked_offset d (fun i => x_next i - apply_to d F (td_latest_x exact f) i)%R)
    (td_x exact f) (td_P exact f) (td_x exact f') (td_P exact f').
Proof. intros f x F Q H. exact (@td_predict_textbook junk f x F Q H). Qed.
Theorem C57_update : forall h f y C N delay, 0 < td_dim exact f -> (0 <= delay < td_max exact f)%Z ->
  let D := stacked_measurement (td_dim exact f) (Z.to_nat delay) C in
  match td_update exact inverse h f y C N delay with
  | (Ok _, f') => textbook_update (td_size exact f) h D N y (td_x exact f) (td_P exact f) (td_x exact f') (td_P exact f') /\
                  td_max exact f' = td_max exact f /\ td_dim exact f' = td_dim exact f
  | (ThrowInvalid, f') => f' = f /\
      forall V, ~ is_inverse h (plus (times (td_size exact f) D (times (td_size exact f) (td_P exact f) (flip D))) N) V
  | _ => False
  end.
Proof. intros h f y C N z Hd Hz. exact (@td_update_textbook inverse Hinv junk h f y C N z Hd Hz). Qed.
(** The plain filter is the textbook filter of its own matrices. *)
Theorem C57_plain : forall n m h f u F B Q y C N f',
  textbook_prediction n F Q (apply_to m B u) (kf_x exact f) (kf_P exact f)
    (kf_x exact (kf_predict_with exact n m f u F B Q)) (kf_P exact (kf_predict_with exact n m f u F B Q)) /\
  (kf_update_with exact inverse n h f y C N = (Ok tt, f') ->
   textbook_update n h C N y (kf_x exact f) (kf_P exact f) (kf_x exact f') (kf_P exact f')).
Proof.
  intros. split; [apply kf_predict_textbook|]. intros E. exact (kf_update_textbook Hinv E).
Qed.

(** The same for the estimates as they are read element by element. *)
Theorem C57_elements : forall n h f y C N f' x x',
  kf_update_with exact inverse n h f y C N = (Ok tt, f') ->
  (forall i, i < n -> kf_element exact n f (Z.of_nat i) = Ok (x i)) ->
  (forall i, i < n -> kf_element exact n f' (Z.of_nat i) = Ok (x' i)) ->
  textbook_update n h C N y x (kf_P exact f) x' (kf_P exact f').
Proof.
  intros n h f y C N f' x x' E Hx Hx'.
  assert (R : forall (g : kf exact) i v, i < n -> kf_element exact n g (Z.of_nat i) = Ok v -> kf_x exact g i = v).
  { intros g i v Hi H. unfold kf_element in H. rewrite (proj2 (Z.leb_le 0 (Z.of_nat i))), (proj2 (Z.ltb_lt (Z.of_nat i) (Z.of_nat n))) in H by lia.
    cbn [andb] in H. rewrite Nat2Z.id in H. congruence. }
  destruct (kf_update_textbook Hinv E) as [V [K [H1 [H2 [H3 H4]]]]]. exists V, K. split; [exact H1|]. split; [exact H2|]. split; [|exact H4].
  intros i Hi. rewrite <- (R f' i (x' i) Hi (Hx' i Hi)), (H3 i Hi), <- (R f i (x i) Hi (Hx i Hi)). f_equal.
  unfold apply_to. apply total_ext. intros k _. f_equal. f_equal. apply total_ext. intros j Hj. rewrite (R f j (x j) Hj (Hx j Hj)). reflexivity.
Qed.

(** ** C63: fusing k times with k N is fusing once with N *)
Theorem C63_plain : forall n h f y C N k,
  positive_semidefinite n (kf_P exact f) -> positive_definite h N -> k <> 0 ->
  let fuse := fun N f => snd (kf_update_with exact inverse n h f y C N) in
  let many := Nat.iter k (fuse (scaled (INR k) N)) f in
  let once := fuse N f in
  same_vector n (kf_x exact many) (kf_x exact once) /\ same_matrix n n (kf_P exact many) (kf_P exact once).
Proof. intros n h f y C N k HP HN Hk. exact (@kf_smooth _ Hinv n h f y C N k HP HN Hk). Qed.
Theorem C63_delay : forall f h y C N delay k,
  0 < td_dim exact f -> positive_semidefinite (td_size exact f) (td_P exact f) -> positive_definite h N ->
  (0 <= delay < td_max exact f)%Z -> k <> 0 ->
  let fuse := fun N f => snd (td_update exact inverse h f y C N delay) in
  let many := Nat.iter k (fuse (scaled (INR k) N)) f in
  let once := fuse N f in
  same_vector (td_size exact f) (td_x exact many) (td_x exact once) /\
  same_matrix (td_size exact f) (td_size exact f) (td_P exact many) (td_P exact once).
Proof. intros f h y C N z k Hd HP HN Hz Hk. exact (@td_smooth _ Hinv f h y C N z Hd HP HN (proj1 Hz) k (proj2 Hz) Hk). Qed.

(** ** C80: the same over several ticks
    One prediction x -> F x + b with noise Q per tick; the measurement is fused at every
    tick, with a delay that grows by one. *)
Definition fuse_once (h : nat) (y : nat -> R) (C N : nat -> nat -> R) (delay : Z) (f : tdkf exact) : tdkf exact :=
  snd (td_update exact inverse h f y C N delay).
Definition tick_linear (F : nat -> nat -> R) (b : nat -> R) (Q : nat -> nat -> R) (f : tdkf exact) : tdkf exact :=
  td_predict exact junk f (fun i => apply_to (td_dim exact f) F (td_latest_x exact f) i + b i)%R F Q.
Fixpoint fuse_over_ticks (h : nat) (y : nat -> R) (C N : nat -> nat -> R) (ticks : list ((nat -> nat -> R) * (nat -> R) * (nat -> nat -> R))) (delay : Z) (f : tdkf exact) : tdkf exact :=
  match ticks with
  | [] => fuse_once h y C N delay f
  | (F, b, Q) :: rest => fuse_over_ticks h y C N rest (delay + 1) (tick_linear F b Q (fuse_once h y C N delay f))
  end.
Lemma fuse_dim h y C N z f : td_dim exact (fuse_once h y C N z f) = td_dim exact f.
Proof.
  unfold fuse_once, td_update. destruct (_ <=? z)%Z; [reflexivity|]. destruct (z <? 0)%Z; [reflexivity|].
  destruct (gain _ _ _ _ _ _ _); [|reflexivity]. destruct (finite_matrix _ _ _ _); reflexivity.
Qed.
Lemma over_ticks_spread d h y C N ticks : forall z f, td_dim exact f = d ->
  fuse_over_ticks h y C N ticks z f = spread inverse junk d h y C N ticks z f.
Proof.
  induction ticks as [|[[F b] Q] rest IH]; intros z f Hd; [reflexivity|]. cbn. rewrite IH.
  - unfold tick_linear. rewrite fuse_dim, Hd. reflexivity.
  - unfold tick_linear. cbn. rewrite fuse_dim. exact Hd.
Qed.
Theorem C80_late_fusion : forall ticks f h y C N delay,
  0 < td_dim exact f -> positive_semidefinite (td_size exact f) (td_P exact f) -> positive_definite h N ->
  (0 <= delay)%Z -> (delay + Z.of_nat (length ticks) < td_max exact f)%Z ->
  Forall (fun '(_, _, Q) => positive_semidefinite (td_dim exact f) Q) ticks ->
  let late := fuse_over_ticks h y C (scaled (INR (S (length ticks))) N) ticks delay f in
  let early := fold_left (fun g '(F, b, Q) => tick_linear F b Q g) ticks (fuse_once h y C N delay f) in
  same_vector (td_size exact f) (td_x exact late) (td_x exact early) /\
  same_matrix (td_size exact f) (td_size exact f) (td_P exact late) (td_P exact early).
Proof.
  intros ticks f h y C N z Hd HP HN Hz Hl Hq late early.
  assert (E := @td_spread inverse Hinv junk f h y C N z Hd HP HN Hz ticks Hl Hq). cbn zeta in E.
  unfold late, early. rewrite (over_ticks_spread (td_dim exact f)) by reflexivity.
  enough (X : forall t g, td_dim exact g = td_dim exact f ->
    fold_left (fun g '(F, b, Q) => tick_linear F b Q g) t g = forward junk (td_dim exact f) t g).
  { rewrite X by apply fuse_dim. exact E. }
  clear. induction t as [|[[F b] Q] t IH]; intros g Hg; [reflexivity|]. cbn. rewrite IH by exact Hg. unfold forward, tick_linear, advance. rewrite Hg. reflexivity.
Qed.
(** In particular a measurement that arrives late may be fused late. *)
Theorem C80_commute : forall f h y C N F b Q delay,
  0 < td_dim exact f -> positive_semidefinite (td_size exact f) (td_P exact f) -> positive_definite h N ->
  positive_semidefinite (td_dim exact f) Q -> (0 <= delay)%Z -> (delay + 1 < td_max exact f)%Z ->
  let late := fuse_once h y C N (delay + 1) (tick_linear F b Q f) in
  let early := tick_linear F b Q (fuse_once h y C N delay f) in
  same_vector (td_size exact f) (td_x exact late) (td_x exact early) /\
  same_matrix (td_size exact f) (td_size exact f) (td_P exact late) (td_P exact early).
Proof.
  intros f h y C N F b Q z Hd HP HN HQ Hz Hl late early.
  assert (E := @td_commute inverse Hinv junk f h y C N z Hd HP HN Hz F b Q Hl HQ). unfold late, early, tick_linear. rewrite fuse_dim. exact E.
Qed.

(** ** C73 *)
Lemma distance_variance n V v : KalmanModel.sum exact n (fun i => d_mul exact (v i) (mvec exact n V v i)) = variance_along n V v.
Proof.
  rewrite sum_total. unfold variance_along. apply total_ext. intros i Hi. unfold mvec. rewrite sum_total. cbn.
  rewrite <- total_scal. apply total_ext. intros j Hj. lra.
Qed.
Lemma Rleb_true x y : Rleb x y = true <-> (x <= y)%R.
Proof. unfold Rleb. destruct (Rle_dec x y); split; intros; auto; discriminate. Qed.
Theorem C73_gate : forall n cov, positive_definite n cov ->
  exists V, is_inverse n cov V /\
  (forall dist x y, mahalanobis_gate exact inverse n dist x y cov = true <->
     (variance_along n V (fun i => x i - y i) <= dist * dist)%R) /\
  (forall x y, 0 <= variance_along n V (fun i => x i - y i))%R /\
  (forall x y, variance_along n V (fun i => x i - y i)%R = 0%R <-> same_vector n x y) /\
  (forall dist dist' x y, (0 <= dist <= dist')%R ->
     mahalanobis_gate exact inverse n dist x y cov = true -> mahalanobis_gate exact inverse n dist' x y cov = true).
Proof.
  intros n cov Hc. destruct (pd_has_inverse Hc) as [W HW].
  assert (HI := Hinv n cov). unfold mahalanobis_gate, squared_mahalanobis.
  destruct (inverse n cov) as [V|]; [|exfalso; exact (HI W HW)].
  exists V. split; [exact HI|]. assert (PV := pd_inverse Hc HI). assert (SV := pd_is_psd _ _ PV).
  assert (G : forall dist x y, d_leb exact (KalmanModel.sum exact n (fun i => d_mul exact (vsub exact x y i) (mvec exact n V (vsub exact x y) i))) (d_mul exact dist dist) = true <->
     (variance_along n V (fun i => x i - y i) <= dist * dist)%R).
  { intros dist x y. rewrite distance_variance. apply Rleb_true. }
  split; [exact G|]. split; [intros; apply SV|]. split.
  - intros x y. split.
    + intros E i Hi. destruct (Req_EM_T (x i - y i) 0) as [E2|N]; [lra|]. exfalso.
      assert (P := proj2 PV (fun i => (x i - y i)%R) (ex_intro _ i (conj Hi N))). cbn in P. lra.
    + intros E. apply total_zero. intros i Hi. apply total_zero. intros j Hj. cbn. rewrite (E i Hi). lra.
  - intros d1 d2 x y Hd H. apply G. apply G in H. nra.
Qed.
Theorem C73_singular : forall n dist x y cov, (forall V, ~ is_inverse n cov V) -> mahalanobis_gate exact inverse n dist x y cov = false.
Proof.
  intros n dist x y cov H. unfold mahalanobis_gate, squared_mahalanobis. assert (HI := Hinv n cov).
  destruct (inverse n cov) as [V|]; [|reflexivity]. exfalso. exact (H V HI).
Qed.
End Props.

(** ** C58, in any arithmetic *)
Section Memory.
Variable A : arith.
Variable junk : nat -> nat -> D A.
Definition predictions (h : list ((nat -> D A) * (nat -> nat -> D A) * (nat -> nat -> D A))) (f : tdkf A) : tdkf A :=
  fold_left (fun f '(x, F, Q) => td_predict A junk f x F Q) h f.
Lemma predictions_const h : forall f, td_max A (predictions h f) = td_max A f /\ td_dim A (predictions h f) = td_dim A f.
Proof. induction h as [|[[x F] Q] h IH]; intros f; [auto|]. apply (IH (td_predict A junk f x F Q)). Qed.
Lemma predictions_block h : forall f k i, k < Z.to_nat (td_max A f) -> i < td_dim A f ->
  td_block A (predictions h f) k i = if k <? length h then nth k (rev (map (fun p => fst (fst p)) h)) (fun _ => d_of_Z A 0) i else td_block A f (k - length h) i.
Proof.
  induction h as [|[[x F] Q] h IH] using rev_ind; intros f k i Hk Hi.
  - cbn. now rewrite Nat.sub_0_r.
  - assert (U : predictions (h ++ [(x, F, Q)]) f = td_predict A junk (predictions h f) x F Q) by (unfold predictions; rewrite fold_left_app; reflexivity).
    rewrite U.
    destruct (predictions_const h f) as [C1 C2].
    rewrite td_block_predict; [|rewrite C1; exact Hk|rewrite C2; exact Hi]. rewrite map_app, rev_app_distr, app_length. cbn [map rev app length].
    destruct k as [|k].
    + replace (0 <? length h + 1) with true by lia. reflexivity.
    + rewrite IH by lia. replace (S k <? length h + 1) with (k <? length h) by lia. cbn [nth].
      destruct (k <? length h); [reflexivity|]. f_equal. lia.
Qed.
(** From a new filter: the initial state before the first prediction. *)
Theorem C58_history : forall d x0 P0 max_delay f0 h delay,
  td_new A junk d x0 P0 max_delay = Ok f0 -> (0 <= delay < max_delay)%Z ->
  exists v, td_get_x A (predictions h f0) delay = Ok v /\
    forall i, i < d -> v i = nth (Z.to_nat delay) (rev (map (fun p => fst (fst p)) h)) x0 i.
Proof.
  intros d x0 P0 m f0 h z Hn Hz. unfold td_new in Hn. destruct (Z.ltb_spec 0 m) as [L|L]; [|discriminate]. injection Hn as <-.
  set (f0 := Td A _ _ m d). destruct (predictions_const h f0) as [C1 C2].
  destruct (td_get_x_block A (predictions h f0) z) as [v [E Hv]]; [rewrite C1; exact Hz|].
  exists v. split; [exact E|]. intros i Hi. rewrite Hv, predictions_block by (cbn; lia).
  destruct (Nat.ltb_spec (Z.to_nat z) (length h)) as [L2|L2].
  - rewrite (nth_indep _ _ x0) by (rewrite rev_length, map_length; exact L2). reflexivity.
  - rewrite nth_overflow by (rewrite rev_length, map_length; exact L2). unfold td_block. cbn [td_x td_dim f0].
    rewrite init_x_entry by (cbn; nia). rewrite Nat.add_comm, Nat.mod_add by lia. rewrite Nat.mod_small by assumption. reflexivity.
Qed.
(** From any filter, in particular one that has fused measurements. *)
Theorem C58_shift : forall f h delay, (0 <= delay < td_max A f)%Z ->
  exists v, td_get_x A (predictions h f) delay = Ok v /\
    if (delay <? Z.of_nat (length h))%Z
    then forall i, i < td_dim A f -> v i = nth (Z.to_nat delay) (rev (map (fun p => fst (fst p)) h)) (fun _ => d_of_Z A 0) i
    else exists w, td_get_x A f (delay - Z.of_nat (length h)) = Ok w /\ forall i, i < td_dim A f -> v i = w i.
Proof.
  intros f h z Hz. destruct (predictions_const h f) as [C1 C2].
  destruct (td_get_x_block A (predictions h f) z) as [v [E Hv]]; [rewrite C1; exact Hz|].
  exists v. split; [exact E|]. destruct (Z.ltb_spec z (Z.of_nat (length h))) as [L|L].
  - intros i Hi. rewrite Hv, predictions_block by lia. replace (Z.to_nat z <? length h) with true by lia. reflexivity.
  - destruct (td_get_x_block A f (z - Z.of_nat (length h))) as [w [E2 Hw]]; [lia|]. exists w. split; [exact E2|].
    intros i Hi. rewrite Hv, Hw, predictions_block by lia. replace (Z.to_nat z <? length h) with false by lia. f_equal. lia.
Qed.
Theorem C58_outside : forall f delay, ~ (0 <= delay < td_max A f)%Z -> td_get_x A f delay = UB.
Proof. intros f z H. unfold td_get_x. replace ((0 <=? z)%Z && (z <? td_max A f)%Z) with false by lia. reflexivity. Qed.

(** ** C59, in any arithmetic *)
Variable inverse : nat -> (nat -> nat -> D A) -> option (nat -> nat -> D A).
Theorem C59_delay : forall h f y C N delay e f',
  td_update A inverse h f y C N delay = (e, f') -> e <> Ok tt -> f' = f /\ (e = ThrowInvalid \/ e = UB /\ (delay < 0)%Z).
Proof.
  intros h f y C N z e f' H Ne. unfold td_update in H. destruct (_ <=? z)%Z; [injection H as <- <-; auto|].
  destruct (Z.ltb_spec z 0); [injection H as <- <-; auto|].
  destruct (gain _ _ _ _ _ _ _) as [K|]; [|injection H as <- <-; auto].
  destruct (finite_matrix _ _ _ _); injection H as <- <-; [congruence|auto].
Qed.
Theorem C59_too_late : forall h f y C N delay, (td_max A f <= delay)%Z -> td_update A inverse h f y C N delay = (ThrowInvalid, f).
Proof. intros h f y C N z H. unfold td_update. replace (td_max A f <=? z)%Z with true by lia. reflexivity. Qed.
Theorem C59_plain : forall n h f y C N e f',
  kf_update_with A inverse n h f y C N = (e, f') -> e <> Ok tt -> f' = f /\ e = ThrowInvalid.
Proof.
  intros n h f y C N e f' H Ne. unfold kf_update_with in H.
  destruct (gain _ _ _ _ _ _ _) as [K|]; [|injection H as <- <-; auto].
  destruct (finite_matrix _ _ _ _); injection H as <- <-; [congruence|auto].
Qed.
(** An update inside the buffer is accepted exactly if every entry of the gain is a finite
    number ([d_trunc] of NaN and of infinities is None). *)
Lemma finite_matrix_iff n h G : finite_matrix A n h G = true <-> forall i j, i < n -> j < h -> d_trunc A (G i j) <> None.
Proof.
  unfold finite_matrix. rewrite forallb_forall. split.
  - intros H i j Hi Hj. specialize (H i ltac:(apply in_seq; lia)). rewrite forallb_forall in H. specialize (H j ltac:(apply in_seq; lia)). destruct (d_trunc A (G i j)); congruence.
  - intros H i Hi. apply in_seq in Hi. apply forallb_forall. intros j Hj. apply in_seq in Hj. specialize (H i j ltac:(lia) ltac:(lia)). destruct (d_trunc A (G i j)); congruence.
Qed.
Theorem C59_finite_gain : forall h f y C N delay, (0 <= delay < td_max A f)%Z ->
  fst (td_update A inverse h f y C N delay) = Ok tt <->
  exists G, gain A inverse (td_size A f) h (td_P A f) (make_measurement_matrix A h (td_dim A f) C (Z.to_nat (td_max A f)) (Z.to_nat delay)) N = Some G /\
    forall i j, i < td_size A f -> j < h -> d_trunc A (G i j) <> None.
Proof.
  intros h f y C N z Hz. unfold td_update. replace (td_max A f <=? z)%Z with false by lia. replace (z <? 0)%Z with false by lia. cbv zeta.
  destruct (gain _ _ _ _ _ _ _) as [G|].
  - destruct (finite_matrix A (td_size A f) h G) eqn:E; cbn [fst].
    + split; [intros _|reflexivity]. exists G. split; [reflexivity|]. apply finite_matrix_iff. exact E.
    + split; [discriminate|]. intros (G' & H1 & H2). injection H1 as <-. apply finite_matrix_iff in H2. congruence.
  - split; [discriminate|]. intros (G' & H1 & _). discriminate.
Qed.
Theorem C59_plain_finite_gain : forall n h f y C N,
  fst (kf_update_with A inverse n h f y C N) = Ok tt <->
  exists G, gain A inverse n h (kf_P A f) C N = Some G /\ forall i j, i < n -> j < h -> d_trunc A (G i j) <> None.
Proof.
  intros n h f y C N. unfold kf_update_with. destruct (gain _ _ _ _ _ _ _) as [G|].
  - destruct (finite_matrix A n h G) eqn:E; cbn [fst].
    + split; [intros _|reflexivity]. exists G. split; [reflexivity|]. apply finite_matrix_iff. exact E.
    + split; [discriminate|]. intros (G' & H1 & H2). injection H1 as <-. apply finite_matrix_iff in H2. congruence.
  - split; [discriminate|]. intros (G' & H1 & _). discriminate.
Qed.
End Memory.

(** ** Concrete cases *)
(** A filter of two states and three blocks that has predicted and fused a delayed
    measurement of the first state. *)
Definition ex_junk : nat -> nat -> R := fun _ _ => 7%R.
Definition ex_x0 : nat -> R := fun i => INR i.
Definition ex_F : nat -> nat -> R := fun i j => if Nat.eqb i j then 1%R else if Nat.eqb i 0 then 2%R else 0%R.
Definition ex_C : nat -> nat -> R := fun _ j => if Nat.eqb j 0 then 1%R else 0%R.
Definition ex_ops : list td_op :=
  [TPredict (fun i => 3 + INR i)%R ex_F identity; TMeasure 1 (fun _ => 5%R) ex_C identity 1; TMeasure 1 (fun _ => 5%R) ex_C identity 9].
Definition ex_filter : tdkf exact :=
  Td exact (init_x exact ex_junk 2 ex_x0 3) (init_p exact 2 identity 3) 3 2.
Lemma ex_filter_psd : positive_semidefinite (td_size exact ex_filter) (td_P exact ex_filter).
Proof. apply (init_p_psd 2 identity 3). apply pd_is_psd, identity_pd. Qed.
Example C56_delay_case : td_new exact ex_junk 2 ex_x0 identity 3 = Ok ex_filter /\ positive_semidefinite 2 identity /\ Forall (td_op_ok 2) ex_ops.
Proof.
  split; [reflexivity|]. split; [apply pd_is_psd, identity_pd|].
  apply Forall_cons; [apply pd_is_psd, identity_pd|]. apply Forall_cons; [split; [apply identity_pd|lia]|].
  apply Forall_cons; [split; [apply identity_pd|lia]|]. apply Forall_nil.
Qed.
Example C56_plain_case : positive_definite 1 identity /\ positive_semidefinite 2 identity /\
  Forall (fun o => match o with KPredict _ _ _ _ Q => positive_semidefinite 2 Q | KMeasure _ => True end)
    [KPredict 1 (fun _ => 1%R) ex_F identity identity; KMeasure (fun _ => 4%R)].
Proof.
  split; [apply identity_pd|]. split; [apply pd_is_psd, identity_pd|].
  apply Forall_cons; [apply pd_is_psd, identity_pd|]. apply Forall_cons; [exact I|]. apply Forall_nil.
Qed.
(** In IEEE arithmetic with one state: an infinite variance makes the gain NaN although the
    inverse is finite; the measurement is rejected. *)
(** A measurement of the first of two values, read before and afterwards. *)
Example C57_elements_case : exists x' f',
  kf_update_with exact some_inverse 2 1 (kf_init exact ex_x0 identity) (fun _ => 5%R) (fun _ j => if Nat.eqb j 0 then 1 else 0)%R identity = (Ok tt, f') /\
  (forall i, i < 2 -> kf_element exact 2 (kf_init exact ex_x0 identity) (Z.of_nat i) = Ok (ex_x0 i)) /\
  (forall i, i < 2 -> kf_element exact 2 f' (Z.of_nat i) = Ok (x' i)).
Proof.
  destruct (C56_plain some_inverse some_inverse_inverts 2 1 (fun _ j => if Nat.eqb j 0 then 1 else 0)%R identity ex_x0 identity []) as [_ H].
  - apply identity_pd.
  - apply pd_is_psd, identity_pd.
  - constructor.
  - destruct (H (fun _ => 5%R)) as [f' [E _]]. exists (kf_x exact f'), f'. split; [exact E|].
    split; intros i Hi; unfold kf_element; rewrite (proj2 (Z.leb_le 0 (Z.of_nat i))), (proj2 (Z.ltb_lt (Z.of_nat i) (Z.of_nat 2))) by lia;
      rewrite Nat2Z.id; reflexivity.
Qed.
Example C59_nan_case :
  let one := fun _ _ : nat => of_Z64 1 in
  let f := Kf (ieee (fun x => x)) (fun _ => of_Z64 4) (fun _ _ => Flocq.IEEE754.BinarySingleNaN.B754_infinity false) in
  match kf_update_with (ieee (fun x => x)) (fun _ _ => Some (fun _ _ => of_Z64 0)) 1 1 f (fun _ => of_Z64 8) one one with
  | (ThrowInvalid, g) => Flocq.IEEE754.BinarySingleNaN.Beqb (kf_x _ g 0) (of_Z64 4) = true
  | _ => False
  end.
Proof. vm_compute. reflexivity. Qed.
(** One state with variance 1: two updates with noise 2 leave the variance 1/2, as one with
    noise 1 does. *)
Example C63_case :
  let fuse := fun N f => snd (kf_update_with exact some_inverse 1 1 f (fun _ => 8%R) identity N) in
  let f := Kf exact (fun _ => 4%R) identity in
  kf_P exact (fuse identity f) 0 0 = (1 / 2)%R /\ kf_x exact (fuse identity f) 0 = 6%R /\
  kf_P exact (Nat.iter 2 (fuse (scaled (INR 2) identity)) f) 0 0 = (1 / 2)%R.
Proof.
  intros fuse f.
  assert (X : kf_P exact (fuse identity f) 0 0 = (1 / 2)%R /\ kf_x exact (fuse identity f) 0 = 6%R).
  { unfold fuse. destruct (kf_update_facts some_inverse_inverts (n := 1) (h := 1) (f := f) (fun _ => 8%R) identity (pd_is_psd _ _ (identity_pd 1)) (identity_pd 1)) as [f' [E _]].
    assert (TB := kf_update_textbook some_inverse_inverts E). rewrite E. cbn [snd].
    destruct TB as [V [K [[HV _] [HK [Hx HP]]]]].
    specialize (HV 0 0 ltac:(lia) ltac:(lia)). specialize (HK 0 0 ltac:(lia) ltac:(lia)). specialize (Hx 0 ltac:(lia)). specialize (HP 0 0 ltac:(lia) ltac:(lia)).
    cbv - [Rplus Rmult Rminus IZR Rdiv kf_x kf_P] in HV. unfold f in *. cbn in *. unfold plus, times, flip, identity, minus, apply_to in *. cbn in *. rewrite HK in *.
    assert (V 0%nat 0%nat = 1 / 2)%R by lra. rewrite H in *. split; lra. }
  destruct X as [X1 X2]. split; [exact X1|]. split; [exact X2|]. rewrite <- X1.
  apply (proj2 (@C63_plain some_inverse some_inverse_inverts 1 1 f (fun _ => 8%R) identity identity 2 (pd_is_psd _ _ (identity_pd 1)) (identity_pd 1) ltac:(lia))); lia.
Qed.
Example C80_case : 0 < td_dim exact ex_filter /\ positive_semidefinite (td_size exact ex_filter) (td_P exact ex_filter) /\
  (0 + Z.of_nat (length [(ex_F, ex_x0, identity); (identity, ex_x0, identity)]) < td_max exact ex_filter)%Z /\
  Forall (fun '(_, _, Q) => positive_semidefinite (td_dim exact ex_filter) Q) [(ex_F, ex_x0, identity); (identity, ex_x0, identity)].
Proof.
  split; [cbn; lia|]. split; [apply ex_filter_psd|]. split; [cbn; lia|].
  constructor; [|constructor; [|constructor]]; apply pd_is_psd, identity_pd.
Qed.
Example C73_case : let x := (fun i => if Nat.eqb i 0 then 3 else 0)%R in
  mahalanobis_gate exact some_inverse 2 3%R x (fun _ => 0%R) identity = true /\
  mahalanobis_gate exact some_inverse 2 2%R x (fun _ => 0%R) identity = false.
Proof.
  intros x. destruct (@C73_gate some_inverse some_inverse_inverts 2 identity (identity_pd 2)) as [V [HV [G _]]].
  assert (I : is_inverse 2 identity identity).
  { split; intros i j Hi Hj; (destruct i as [|[|i]]; [| |lia]); (destruct j as [|[|j]]; [| |lia]); cbv; lra. }
  assert (E : variance_along 2 V (fun i => x i - 0)%R = 9%R).
  { rewrite (variance_ext 2 V identity _ x).
    - cbv. lra.
    - apply (inverse_unique HV I).
    - intros i _. lra. }
  split.
  - apply G. rewrite E. lra.
  - destruct (mahalanobis_gate exact some_inverse 2 2%R x (fun _ => 0%R) identity) eqn:B; [|reflexivity].
    apply G in B. rewrite E in B. lra.
Qed.
Example C58_case : forall F Q, exists v w,
  td_get_x exact (predictions exact ex_junk [((fun _ => 1%R), F, Q); ((fun _ => 2%R), F, Q)] ex_filter) 1 = Ok v /\ v 0 = 1%R /\
  td_get_x exact (predictions exact ex_junk [((fun _ => 1%R), F, Q); ((fun _ => 2%R), F, Q)] ex_filter) 2 = Ok w /\ w 1 = 1%R.
Proof.
  intros F Q.
  destruct (C58_history exact ex_junk 2 ex_x0 identity 3 ex_filter [((fun _ => 1%R), F, Q); ((fun _ => 2%R), F, Q)] 1 eq_refl ltac:(lia)) as [v [E Hv]].
  destruct (C58_history exact ex_junk 2 ex_x0 identity 3 ex_filter [((fun _ => 1%R), F, Q); ((fun _ => 2%R), F, Q)] 2 eq_refl ltac:(lia)) as [w [E2 Hw]].
  exists v, w. split; [exact E|]. split; [rewrite Hv by lia; reflexivity|]. split; [exact E2|]. rewrite Hw by lia. reflexivity.
Qed.
(** A measurement of nothing without noise has no gain: the update throws. *)
Example C59_case : exists e, td_update exact some_inverse 1 ex_filter (fun _ => 5%R) (fun _ _ => 0%R) (fun _ _ => 0%R) 1 = (e, ex_filter) /\ e = ThrowInvalid.
Proof.
  assert (T := @C57_update some_inverse some_inverse_inverts ex_junk 1 ex_filter (fun _ => 5%R) (fun _ _ => 0%R) (fun _ _ => 0%R) 1 ltac:(cbn; lia) ltac:(cbn; lia)).
  cbn zeta in T. destruct (td_update _ _ _ _ _ _ _ _) as [e f'] eqn:E. destruct e; try contradiction.
  - exfalso. destruct T as [[V [K [[HV _] _]]] _]. specialize (HV 0 0 ltac:(lia) ltac:(lia)).
    unfold times at 1 in HV. cbn [total] in HV. unfold plus in HV.
    enough (Z : times (td_size exact ex_filter) (stacked_measurement (td_dim exact ex_filter) (Z.to_nat 1) (fun _ _ => 0%R))
       (times (td_size exact ex_filter) (td_P exact ex_filter) (flip (stacked_measurement (td_dim exact ex_filter) (Z.to_nat 1) (fun _ _ => 0%R)))) 0 0 = 0%R).
    { rewrite Z in HV. unfold identity in HV. cbn in HV. lra. }
    unfold times at 1. apply total_zero. intros l _. unfold stacked_measurement at 1. destruct (_ =? _); lra.
  - exists ThrowInvalid. destruct T as [-> _]. auto.
Qed.

Print Assumptions C56_plain.
Print Assumptions C56_delay.
Print Assumptions C57_predict.
Print Assumptions C57_update.
Print Assumptions C57_plain.
Print Assumptions C57_elements.
Print Assumptions C58_history.
Print Assumptions C58_shift.
Print Assumptions C59_delay.
Print Assumptions C59_plain.
Print Assumptions C59_finite_gain.
Print Assumptions C59_plain_finite_gain.
Print Assumptions C63_plain.
Print Assumptions C63_delay.
Print Assumptions C73_gate.
Print Assumptions C80_late_fusion.
Print Assumptions C80_commute.
