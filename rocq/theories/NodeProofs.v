(** Proofs about the localization node: histories of prior and scan messages. *)
From Coq Require Import List ZArith Bool Lia Lra Reals Sorting.Sorted.
From Flocq Require Import Core IEEE754.BinarySingleNaN Sterbenz.
From Verif Require Import Base Arith LibModel LocModel SpecLoc FloatLemmas StoreProofs.
Import ListNotations.
Open Scope R_scope.

(** ** stamps as doubles *)
Lemma bpow63 : bpow radix2 63 = IZR (2 ^ 63). Proof. reflexivity. Qed.
Lemma of_Z64_rnd z : (- 2 ^ 63 <= z < 2 ^ 63)%Z ->
  val (of_Z64 z) = rnd (IZR z) /\ fin (of_Z64 z) /\ Rabs (val (of_Z64 z)) <= bpow radix2 63.
Proof.
  intros H. assert (B : Rabs (IZR z) <= bpow radix2 63).
  { rewrite <- abs_IZR, bpow63. apply IZR_le. lia. }
  pose proof (binary_normalize_correct 53 1024 prec64 emax64 mode_NE z 0 false) as C.
  cbv zeta in C. unfold F2R in C. cbn [Fnum Fexp] in C.
  change (bpow radix2 0) with 1 in C. rewrite Rmult_1_r in C.
  change (round_mode mode_NE) with ZnearestE in C.
  fold (rnd (IZR z)) in C. rewrite (rnd_lt_emax _ 63) in C by (auto; lia).
  destruct C as [C1 [C2 _]].
  assert (E : val (of_Z64 z) = rnd (IZR z)) by exact C1.
  split; auto. split; auto. rewrite E. apply rnd_le; [apply fmt_bpow; lia|auto].
Qed.
Lemma stamp_mono a b : (- 2 ^ 63 <= a)%Z -> (a <= b)%Z -> (b < 2 ^ 63)%Z -> val (of_Z64 a) <= val (of_Z64 b).
Proof.
  intros. destruct (of_Z64_rnd a) as [-> _]; [lia|]. destruct (of_Z64_rnd b) as [-> _]; [lia|].
  apply rnd_mono, IZR_le. auto.
Qed.
Lemma rnd_err_lt x k : (-1000 <= k)%Z -> Rabs x < bpow radix2 k -> Rabs (rnd x - x) <= bpow radix2 (k - 54).
Proof.
  intros Hk H. unfold rnd. eapply Rle_trans; [apply error_le_half_ulp; apply vexp|].
  assert (Hu : ulp radix2 (SpecFloat.fexp 53 1024) x <= bpow radix2 (k - 53)).
  { destruct (Req_dec x 0) as [->|Hx].
    - eapply Rle_trans; [apply ulp_le with (y := bpow radix2 (k - 1)); try apply vexp; try apply mexp|].
      + rewrite Rabs_R0. apply Rabs_pos.
      + rewrite ulp_bpow. apply bpow_le. rewrite fexp_eq. unfold FLT_exp. lia.
    - rewrite ulp_neq_0 by auto. apply bpow_le. unfold cexp. rewrite fexp_eq. unfold FLT_exp.
      pose proof (mag_le_bpow radix2 x k Hx H). lia. }
  replace (k - 54)%Z with ((k - 53) + -1)%Z by lia. rewrite bpow_plus.
  change (bpow radix2 (-1)) with (/ 2). lra.
Qed.
Lemma stamp_strict a b : (- 2 ^ 61 < a)%Z -> (a + 256 < b)%Z -> (b < 2 ^ 61)%Z -> val (of_Z64 a) < val (of_Z64 b).
Proof.
  intros Ha Hab Hb. destruct (of_Z64_rnd a) as [-> _]; [lia|]. destruct (of_Z64_rnd b) as [-> _]; [lia|].
  assert (B : forall z, (- 2 ^ 61 < z < 2 ^ 61)%Z -> Rabs (rnd (IZR z) - IZR z) <= 128).
  { intros z Hz. change 128 with (bpow radix2 (61 - 54)). apply rnd_err_lt; [lia|].
    rewrite <- abs_IZR. change (bpow radix2 61) with (IZR (2 ^ 61)). apply IZR_lt. lia. }
  pose proof (B a ltac:(lia)) as B1. pose proof (B b ltac:(lia)) as B2.
  apply Rabs_le_inv in B1, B2. apply IZR_lt in Hab. rewrite plus_IZR in Hab. lra.
Qed.

Lemma insert_nonempty (A : arith) O t (o : O) (m : store A O) : st_insert t o m <> [].
Proof. destruct m as [|[k v] m]; simpl; [discriminate|]. destruct (d_ltb A k t); [discriminate|]. destruct (d_ltb A t k); discriminate. Qed.

Section Node.
Variable acosf : b64 -> b64.
Notation A := (ieee acosf).
Variable P Scan : Type.
Variable localize : Scan -> P -> outcome P.

Definition dkey (x : D A) : R := val x.
Definition dgood (x : D A) : Prop := fin x.
Lemma dkey_ltb (x y : D A) : dgood x -> dgood y -> (d_ltb A x y = true <-> dkey x < dkey y).
Proof.
  intros Hx Hy. unfold dkey. change (d_ltb A x y) with (Bltb (x : b64) (y : b64)).
  rewrite (ltb64_ok x y Hx Hy). destruct (Rlt_bool_spec (val x) (val y)); split; intros; auto; try discriminate.
  exfalso; lra.
Qed.

(** scan stamp plus one second *)
Definition horizon (t : Z) : b64 := add64 (of_Z64 t) (of_Z64 1000000000).
Lemma horizon_ok t : (- 2 ^ 63 <= t < 2 ^ 63)%Z -> fin (horizon t) /\ val (of_Z64 t) <= val (horizon t).
Proof.
  intros H. destruct (of_Z64_rnd t H) as [_ [F1 B1]].
  destruct (of_Z64_ok 1000000000) as [V2 F2]; [lia|].
  destruct (add64_ok (of_Z64 t) (of_Z64 1000000000) 64 F1 F2) as [V3 F3]; [lia| |].
  - rewrite V2. replace (bpow radix2 64) with (2 * bpow radix2 63) by (simpl; lra). apply Rabs_le_inv in B1. apply Rabs_le.
    assert (1000000000 <= bpow radix2 63) by (rewrite bpow63; apply IZR_le; lia). lra.
  - split; auto. unfold horizon. rewrite V3.
    replace (val (of_Z64 t)) with (rnd (val (of_Z64 t))) at 1 by (apply rnd_exact, fmt_val).
    apply rnd_mono. rewrite V2. lra.
Qed.

Lemma int64_app (h1 h2 : list (event P Scan)) : int64_stamps (h1 ++ h2) <-> int64_stamps h1 /\ int64_stamps h2.
Proof.
  unfold int64_stamps. split.
  - intros H. split; intros e He; apply H, in_or_app; auto.
  - intros [H1 H2] e He. apply in_app_or in He. destruct He; [apply H1|apply H2]; auto.
Qed.
Lemma prior_app (h1 h2 : list (event P Scan)) : prior_history (h1 ++ h2) = prior_history h1 ++ prior_history h2.
Proof. induction h1 as [|[|] h1 IH]; simpl; auto. rewrite IH. auto. Qed.
Lemma prior_in (h : list (event P Scan)) s p : In (s, p) (prior_history h) <-> In (EvPrior s p) h.
Proof.
  induction h as [|[s' p'|t x] h IH]; simpl; [tauto| |].
  - rewrite IH. split; intros [E|H]; auto; left; congruence.
  - rewrite IH. split; [auto|intros [E|H]; auto; discriminate].
Qed.
Lemma foldM_app {X S} (f : S -> X -> outcome S) l1 l2 s : foldM f s (l1 ++ l2) = (s' <- foldM f s l1 ;; foldM f s' l2).
Proof. revert s. induction l1 as [|x l1 IH]; intros s; simpl; auto. destruct (f s x); simpl; auto. Qed.

Notation run := (node_run A P Scan localize).

Lemma run_snoc h e : run (h ++ [e]) = (n <- run h ;; node_step A P Scan localize n e).
Proof.
  unfold node_run. rewrite foldM_app. destruct (foldM _ _ h); cbn [bind]; auto. simpl.
  destruct (node_step _ _ _ _ _ e); auto.
Qed.

Definition ok_store := ordered A P dgood dkey.


Record inv (h : list (event P Scan)) (n : node A P) : Prop := {
  inv_ord : ok_store (priors n);
  inv_nil : priors n = [] <-> prior_history h = [];
  inv_sound : forall s v, In (s, v) (priors n) ->
     last_inserted (fun a b => a = b) (map (fun p => (val (of_Z64 (fst p)), snd p)) (prior_history h)) (dkey s) v;
  inv_min : forall s p, In (s, p) (prior_history h) -> exists s' v, In (s', v) (priors n) /\ dkey s' <= val (of_Z64 s);
  inv_kept : forall h1 h2 s p, h = h1 ++ EvPrior s p :: h2 ->
     (forall t x, In (EvScan t x) h2 -> val (of_Z64 s) <= val (horizon t)) ->
     exists s' v, In (s', v) (priors n) /\ dkey s' = val (of_Z64 s);
}.

Lemma last_inserted_app {K O} (same : K -> K -> Prop) hist h2 s (o : O) :
  last_inserted same hist s o -> (forall p, In p h2 -> ~ same (fst p) s) -> last_inserted same (hist ++ h2) s o.
Proof.
  intros [a [s' [b [E1 [E2 E3]]]]] H. exists a, s', (b ++ h2). split; [rewrite E1, <- app_assoc; auto|]. split; auto.
  intros p Hp. apply in_app_or in Hp. destruct Hp; auto.
Qed.

Lemma split_snoc {T} (h h1 h2 : list T) e : h ++ [e] = h1 ++ h2 ->
  (h2 = [] /\ h1 = h ++ [e]) \/ exists h2', h2 = h2' ++ [e] /\ h = h1 ++ h2'.
Proof.
  intros H. destruct (rev h2) as [|x r] eqn:E.
  - left. assert (h2 = []) by (rewrite <- (rev_involutive h2), E; auto). subst. rewrite app_nil_r in H. auto.
  - right. assert (E2 : h2 = rev r ++ [x]) by (rewrite <- (rev_involutive h2), E; auto). subst h2.
    rewrite app_assoc in H. apply app_inj_tail in H. destruct H as [-> ->]. exists (rev r). auto.
Qed.

Lemma inv_prior h n s p : int64_stamps (h ++ [EvPrior s p]) -> inv h n -> inv (h ++ [EvPrior s p]) (on_prior A P n s p).
Proof.
  intros Hi [I1 I2 I3 I4 I5]. apply int64_app in Hi. destruct Hi as [_ Hi].
  assert (Hs : (- 2 ^ 63 <= s < 2 ^ 63)%Z) by (apply (Hi (EvPrior s p)); left; auto).
  destruct (of_Z64_rnd s Hs) as [_ [Fs _]].
  assert (G : dgood (nanoseconds A s)) by exact Fs.
  constructor; cbn [on_prior priors].
  - apply insert_ordered; auto. apply dkey_ltb.
  - split; intros H; [exfalso; revert H; apply insert_nonempty|]. rewrite prior_app in H. simpl in H.
    destruct (prior_history h); discriminate.
  - intros s' v Hin. rewrite prior_app, map_app. simpl.
    apply (insert_in A P dgood dkey dkey_ltb) in Hin; auto. destruct Hin as [[E ->]|[Hin Hne]].
    + exists (map (fun p => (val (of_Z64 (fst p)), snd p)) (prior_history h)), (val (of_Z64 s)), []. split; [reflexivity|].
      split; [symmetry; exact E|intros ? []].
    + apply last_inserted_app; auto. intros q [<-|[]]. simpl. intros E. apply Hne. symmetry. exact E.
  - intros s0 p0 Hin. rewrite prior_app in Hin. apply in_app_or in Hin. simpl in Hin. destruct Hin as [Hin|[E|[]]].
    + destruct (I4 s0 p0 Hin) as [s' [v [H1 H2]]].
      destruct (Req_dec (dkey s') (dkey (nanoseconds A s))) as [E|E].
      * destruct (insert_new A P dgood dkey dkey_ltb (nanoseconds A s) p (priors n) I1 G) as [s2 [H3 H4]].
        exists s2, p. split; auto. rewrite H4, <- E. auto.
      * exists s', v. split; auto. apply (insert_old A P dgood dkey dkey_ltb); auto.
    + inversion E; subst. destruct (insert_new A P dgood dkey dkey_ltb (nanoseconds A s0) p0 (priors n) I1 G) as [s2 [H3 H4]].
      exists s2, p0. split; auto. right. exact H4.
  - intros h1 h2 s0 p0 E Hsc. apply split_snoc in E.
    destruct (Req_dec (val (of_Z64 s0)) (dkey (nanoseconds A s))) as [Ek|Ek].
    { destruct (insert_new A P dgood dkey dkey_ltb (nanoseconds A s) p (priors n) I1 G) as [s2 [H3 H4]].
      exists s2, p. split; auto. rewrite H4. auto. }
    destruct E as [[E _]|[h2' [E1 E2]]]; [discriminate|].
    destruct h2' as [|e h2']; simpl in E1; inversion E1; subst; [exfalso; apply Ek; reflexivity|].
    destruct (I5 h1 h2' s0 p0 eq_refl) as [s' [v [K1 K2]]].
    { intros t x Ht. apply (Hsc t x), in_or_app; auto. }
    exists s', v. split; auto. apply (insert_old A P dgood dkey dkey_ltb); auto. rewrite K2; auto.
Qed.

(** one scan *)
Lemma on_scan_cases h n t x : int64_stamps (h ++ [EvScan t x]) -> inv h n ->
  (prior_history h = [] /\ on_scan A P Scan localize n t x = Ok n) \/
  (prior_history h <> [] /\ (forall s p, In (s, p) (prior_history h) -> val (horizon t) < val (of_Z64 s)) /\
     on_scan A P Scan localize n t x = UB) \/
  (prior_history h <> [] /\ (exists s p, In (s, p) (prior_history h) /\ val (of_Z64 s) <= val (horizon t)) /\
   exists s o rest, st_get_closest (of_Z64 t : D A) (priors n) = Ok (s, o) /\
     (forall p, In p rest <-> In p (priors n) /\ dkey (fst p) <= val (horizon t)) /\ ok_store rest /\ rest <> [] /\
     on_scan A P Scan localize n t x =
       (pose <- localize x o ;; Ok {| priors := rest; outs := outs n ++
          [{| pub_stamp := t; pub_pose := pose; tf_stamp := t; tf_pose := pose |}] |})).
Proof.
  intros Hi I. destruct I as [I1 I2 I3 I4 I5]. apply int64_app in Hi. destruct Hi as [_ Hi].
  assert (Ht : (- 2 ^ 63 <= t < 2 ^ 63)%Z) by (apply (Hi (EvScan t x)); left; auto).
  destruct (of_Z64_rnd t Ht) as [_ [Ft _]]. destruct (horizon_ok t Ht) as [Fh _].
  destruct (priors n) as [|p0 m] eqn:E.
  { left. split; [apply I2; auto|]. unfold on_scan. rewrite E. auto. }
  right. assert (Hne : prior_history h <> []) by (intros H; apply I2 in H; discriminate).
  assert (U : on_scan A P Scan localize n t x =
     (' p <- st_get_closest (of_Z64 t : D A) (p0 :: m) ;;
      rest <- st_remove_older_than (horizon t : D A) (p0 :: m) ;;
      pose <- localize x (snd p) ;;
      Ok {| priors := rest; outs := outs n ++ [{| pub_stamp := t; pub_pose := pose; tf_stamp := t; tf_pose := pose |}] |})).
  { unfold on_scan. rewrite E. auto. }
  destruct (get_closest_spec A P dgood dkey dkey_ltb (of_Z64 t) (p0 :: m) I1 Ft ltac:(discriminate)) as [s [o [GC _]]].
  rewrite GC in U. cbn [bind snd] in U.
  destruct (remove_spec A P dgood dkey dkey_ltb (horizon t) (p0 :: m) I1 Fh) as [[rest [R1 [R2 [R3 R4]]]]|[R1 [_ R3]]].
  - right. split; auto. rewrite R1 in U. cbn [bind] in U. split.
    + specialize (R4 ltac:(discriminate)). destruct rest as [|[k v] rest]; [congruence|].
      destruct (proj1 (R3 (k, v)) ltac:(left; auto)) as [Hin Hle]. simpl in Hle.
      destruct (I3 k v Hin) as [a [s' [b [E1 [E2 _]]]]].
      assert (Hm : In (s', v) (map (fun p => (val (of_Z64 (fst p)), snd p)) (prior_history h))) by (rewrite E1; apply in_or_app; right; left; auto).
      apply in_map_iff in Hm. destruct Hm as [[z p] [Hz1 Hz2]]. injection Hz1 as Hz3 Hz4. cbn [fst snd] in *. exists z, p. split; auto.
      rewrite Hz3, E2. exact Hle.
    + exists s, o, rest. split; auto. split; auto. split; auto. split; [apply R4; discriminate|auto].
  - left. split; auto. rewrite R1 in U. cbn [bind] in U. split; auto.
    intros z p Hin. destruct (I4 z p Hin) as [s' [v [H1 H2]]]. specialize (R3 _ H1). simpl in R3.
    eapply Rlt_le_trans; [exact R3|exact H2].
Qed.

Lemma inv_scan h n n' t x : int64_stamps (h ++ [EvScan t x]) -> inv h n ->
  on_scan A P Scan localize n t x = Ok n' -> inv (h ++ [EvScan t x]) n'.
Proof.
  intros Hi I H. assert (Hp : prior_history (h ++ [EvScan t x]) = prior_history h) by (rewrite prior_app; simpl; apply app_nil_r).
  destruct (on_scan_cases h n t x Hi I) as [[C1 C2]|[[_ [_ C]]|[C0 [_ [s [o [rest [C1 [C2 [C3 [C4 C5]]]]]]]]]]].
  - rewrite C2 in H. inversion H; subst. destruct I as [I1 I2 I3 I4 I5]. constructor; try rewrite Hp; auto.
    intros h1 h2 s p E Hsc. exfalso. rewrite E, prior_app in Hp. rewrite C1 in Hp. simpl in Hp.
    destruct (prior_history h1); discriminate.
  - congruence.
  - rewrite C5 in H. destruct (localize x o); try discriminate. cbn [bind] in H. inversion H; subst. clear H C5.
    destruct I as [I1 I2 I3 I4 I5]. constructor; cbn [priors]; try rewrite Hp; auto.
    + split; intros; congruence.
    + intros s' v Hin. apply C2 in Hin. apply I3. tauto.
    + intros z p0 Hin. destruct (I4 z p0 Hin) as [s' [v [H1 H2]]].
      destruct (Rle_dec (dkey s') (val (horizon t))) as [L|L].
      * exists s', v. split; auto. apply C2. auto.
      * destruct rest as [|[k w] rest]; [congruence|]. destruct (proj1 (C2 (k, w)) ltac:(left; auto)) as [Hk1 Hk2].
        exists k, w. split; [left; auto|]. simpl in Hk2. lra.
    + intros h1 h2 z p0 E Hsc. apply split_snoc in E.
      destruct E as [[E _]|[h2' [E1 E2]]]; [discriminate|].
      destruct h2' as [|e h2']; simpl in E1; inversion E1; subst.
      destruct (I5 h1 h2' z p0 eq_refl) as [s' [v [K1 K2]]].
      { intros t' x' Ht'. apply (Hsc t' x'), in_or_app; auto. }
      exists s', v. split; auto. apply C2. split; auto. simpl. rewrite K2. apply (Hsc t x), in_or_app. right. left. auto.
Qed.

Lemma inv_run h n : int64_stamps h -> run h = Ok n -> inv h n.
Proof.
  intros Hi. revert n. rewrite <- (rev_involutive h) in *. induction (rev h) as [|e r IH]; intros n H; simpl in *.
  - unfold node_run in H. simpl in H. inversion H; subst. constructor; simpl; try tauto; try (intros; contradiction).
    + apply ordered_nil.
    + intros h1 h2 s p E. destruct h1; discriminate.
  - rewrite run_snoc in H. pose proof (proj1 (proj1 (int64_app _ _) Hi)) as Hi'.
    destruct (run (rev r)) as [n0| | | | |] eqn:E; try discriminate. cbn [bind] in H. specialize (IH Hi' n0 eq_refl).
    destruct e as [s p|t x]; simpl in H.
    + inversion H; subst. apply inv_prior; auto.
    + apply (inv_scan _ n0); auto.
Qed.

(** published messages *)
Lemma answered_app seen (h1 h2 : list (event P Scan)) : answered seen (h1 ++ h2) =
  answered seen h1 ++ answered (seen || negb (match prior_history h1 with [] => true | _ => false end)) h2.
Proof.
  revert seen. induction h1 as [|[s p|t x] h1 IH]; intros seen; simpl.
  - rewrite orb_false_r. auto.
  - rewrite IH. rewrite orb_true_r. simpl. auto.
  - destruct seen; simpl; rewrite IH; auto.
Qed.
Lemma outs_spec h n : int64_stamps h -> run h = Ok n ->
  map pub_stamp (outs n) = answered false h /\ map tf_stamp (outs n) = answered false h /\ map tf_pose (outs n) = map pub_pose (outs n).
Proof.
  intros Hi. revert n. rewrite <- (rev_involutive h) in *. induction (rev h) as [|e r IH]; intros n H; simpl in *.
  - unfold node_run in H. simpl in H. inversion H; subst. simpl. auto.
  - rewrite run_snoc in H. pose proof (proj1 (proj1 (int64_app _ _) Hi)) as Hi'.
    destruct (run (rev r)) as [n0| | | | |] eqn:E; try discriminate. cbn [bind] in H.
    destruct (IH Hi' n0 eq_refl) as [H1 [H2 H3]]. pose proof (inv_run _ _ Hi' E) as I. rewrite answered_app.
    destruct e as [s p|t x]; simpl in H.
    + inversion H; subst. cbn [on_prior outs answered]. rewrite app_nil_r. auto.
    + destruct (on_scan_cases _ n0 t x Hi I) as [[C1 C2]|[[_ [_ C]]|[C0 [_ [s [o [rest [C1 [C2 [C3 [C4 C5]]]]]]]]]]].
      * rewrite C2 in H. inversion H; subst. rewrite C1. simpl. rewrite app_nil_r. auto.
      * congruence.
      * rewrite C5 in H. destruct (localize x o); try discriminate. cbn [bind] in H. inversion H; subst.
        cbn [outs]. rewrite !map_app, H1, H2, H3. destruct (prior_history (rev r)); [congruence|]. simpl. auto.
Qed.

(** when the node is defined *)
Lemma defined_iff h : int64_stamps h -> (forall x p, exists q, localize x p = Ok q) ->
  ((exists n, run h = Ok n) <->
   forall h1 t x h2, h = h1 ++ EvScan t x :: h2 -> prior_history h1 <> [] ->
     exists s p, In (s, p) (prior_history h1) /\ val (of_Z64 s) <= val (horizon t)) /\ ((exists n, run h = Ok n) \/ run h = UB).
Proof.
  intros Hi Hl. rewrite <- (rev_involutive h) in *. induction (rev h) as [|e r IH]; simpl in *.
  - split; [|left; unfold node_run; simpl; eauto]. split; [|intros; unfold node_run; simpl; eauto].
    intros _ h1 t x h2 E. destruct h1; discriminate.
  - pose proof (proj1 (proj1 (int64_app _ _) Hi)) as Hi'. specialize (IH Hi'). destruct IH as [IH1 IH2].
    rewrite run_snoc. destruct IH2 as [[n0 E]|E]; rewrite E; cbn [bind].
    + pose proof (inv_run _ _ Hi' E) as I.
      assert (Pre : forall h1 t x h2, rev r = h1 ++ EvScan t x :: h2 -> prior_history h1 <> [] ->
         exists s p, In (s, p) (prior_history h1) /\ val (of_Z64 s) <= val (horizon t)) by (apply IH1; eauto).
      destruct e as [s p|t x]; simpl.
      * split; [|eauto]. split; [|eauto]. intros _ h1 t x h2 E2. apply split_snoc in E2.
        destruct E2 as [[E2 _]|[h2' [E2 E3]]]; [discriminate|].
        destruct h2' as [|e h2']; simpl in E2; inversion E2; subst. eauto.
      * destruct (on_scan_cases _ n0 t x Hi I) as [[C1 C2]|[[C0 [C1 C]]|[C0 [[s0 [p0 [C6 C7]]] [s [o [rest [C1 [C2 [C3 [C4 C5]]]]]]]]]]].
        -- rewrite C2. split; [|eauto]. split; [|eauto]. intros _ h1 t' x' h2 E2 Hne. apply split_snoc in E2.
           destruct E2 as [[E2 _]|[h2' [E2 E3]]]; [discriminate|].
           destruct h2' as [|e h2']; simpl in E2; inversion E2; subst; [rewrite app_nil_r in E3; congruence|]. eauto.
        -- rewrite C. split; [|auto]. split; [intros [n H]; discriminate|]. intros H. exfalso.
           destruct (H (rev r) t x [] eq_refl C0) as [s [p [G1 G2]]]. specialize (C1 s p G1). lra.
        -- rewrite C5. destruct (Hl x o) as [q Hq]. rewrite Hq. cbn [bind]. split; [|eauto]. split; [|eauto].
           intros _ h1 t' x' h2 E2 Hne. apply split_snoc in E2.
           destruct E2 as [[E2 _]|[h2' [E2 E3]]]; [discriminate|].
           destruct h2' as [|e h2']; simpl in E2; inversion E2; subst; [rewrite app_nil_r in E3; subst; eauto|]. eauto.
    + split; [|auto]. split; [intros [n H]; discriminate|]. intros H. exfalso.
      assert (G : exists n, run (rev r) = Ok n).
      { apply IH1. intros h1 t x h2 E2 Hne. apply (H h1 t x (h2 ++ [e])); auto. rewrite E2, <- app_assoc. auto. }
      destruct G as [n G]. congruence.
Qed.

End Node.
