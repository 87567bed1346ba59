(** Properties C34-C38: prior poses and the localization node. *)
From Coq Require Import List ZArith Bool Lia Lra Reals Sorting.Sorted.
From Flocq Require Import Core IEEE754.BinarySingleNaN Sterbenz.
From Verif Require Import Base Arith LocModel SpecLoc FloatLemmas AngleProofs StoreProofs NodeProofs.
Import ListNotations.
Open Scope R_scope.

(** ** C34 Closest prior. *)

(** Exact arithmetic: after any non-empty history of insertions. *)
Theorem C34_closest_exact (O : Type) (hist : list (R * O)) (t : R) : hist <> [] ->
  exists s o, st_get_closest (A := exact) t (store_of (A := exact) hist) = Ok (s, o) /\
    last_inserted eq hist s o /\
    forall p, In p hist ->
      Rabs (t - s) <= Rabs (t - fst p) /\ (Rabs (t - fst p) = Rabs (t - s) -> fst p <= s).
Proof.
  intros Hne.
  assert (Hkey : forall x y : D exact, True -> True -> (d_ltb exact x y = true <-> x < y)).
  { intros x y _ _. apply (Rltb_spec x y). }
  destruct (store_of_spec exact O (fun _ => True) (fun x => x) Hkey hist) as [H1 [H2 H3]].
  { apply Forall_forall. intros; exact I. }
  assert (Hs : store_of (A := exact) hist <> []).
  { destruct hist as [|p h]; [congruence|]. destruct (H3 p (or_introl eq_refl)) as [s [v [Hin _]]].
    intros E. rewrite E in Hin. destruct Hin. }
  destruct (get_closest_spec exact O (fun _ => True) (fun x => x) Hkey t _ H1 I Hs) as [s [o [GC _]]].
  destruct (closest_min exact O (fun _ => True) (fun x => x) Hkey (fun x => x) (fun x y H => H) t _ s o H1 I Hs) as [K1 [K2 K3]]; auto.
  exists s, o. split; auto. split; [apply H2; auto|].
  intros p Hp. destruct (H3 p Hp) as [s' [v [Hin E]]]. cbn in E. split.
  - rewrite <- E. apply (K2 _ Hin).
  - intros Ed. rewrite <- E. apply (K3 (fun x y H => H) _ Hin). cbn. rewrite E. auto.
Qed.
Print Assumptions C34_closest_exact.

Lemma double_store (acosf : b64 -> b64) (O : Type) (hist : list (b64 * O)) (t : b64) : hist <> [] ->
  Forall (fun p => fin (fst p) /\ Rabs (val (fst p)) <= bpow radix2 64) hist -> fin t -> Rabs (val t) <= bpow radix2 64 ->
  exists s o, st_get_closest (A := ieee acosf) t (store_of (A := ieee acosf) hist) = Ok (s, o) /\
    last_inserted (fun a b => val a = val b) hist s o /\
    (forall p, In p hist -> rnd (Rabs (val t - val s)) <= rnd (Rabs (val t - val (fst p)))) /\
    ((forall p, In p hist -> val t / 2 <= val (fst p) <= 2 * val t) ->
     forall p, In p hist -> Rabs (val t - val s) <= Rabs (val t - val (fst p)) /\
       (Rabs (val t - val (fst p)) = Rabs (val t - val s) -> val (fst p) <= val s)).
Proof.
  intros Hne HF Ft Bt. set (A := ieee acosf). rewrite Forall_forall in HF.
  pose proof (dkey_ltb acosf) as Hkey.
  destruct (store_of_spec A O (dgood acosf) (dkey acosf) Hkey hist) as [H1 [H2 H3]].
  { apply Forall_forall. intros p Hp. apply (HF p Hp). }
  assert (Hs : store_of (A := A) hist <> []).
  { destruct hist as [|p h]; [congruence|]. destruct (H3 p (or_introl eq_refl)) as [s [v [Hin _]]].
    intros E. rewrite E in Hin. destruct Hin. }
  assert (Hb : forall s v, In (s, v) (store_of (A := A) hist) -> fin s /\ Rabs (val s) <= bpow radix2 64 /\
     exists p, In p hist /\ val (fst p) = val s).
  { intros s v Hin. split; [|].
    - destruct H1 as [_ H1]. rewrite Forall_forall in H1. apply (H1 _ Hin).
    - destruct (H2 s v Hin) as [a [s' [b [E1 [E2 _]]]]]. unfold samek, dkey in E2.
      assert (Hp : In (s', v) hist) by (rewrite E1; apply in_or_app; right; left; auto).
      split; [rewrite <- E2; apply (HF _ Hp)|]. exists (s', v). auto. }
  destruct (get_closest_spec A O (dgood acosf) (dkey acosf) Hkey t _ H1 Ft Hs) as [s [o [GC [Hin _]]]].
  assert (SUB : forall x y, fin x -> fin y -> Rabs (val x) <= bpow radix2 64 -> Rabs (val y) <= bpow radix2 64 ->
     val (sub64 x y) = rnd (val x - val y) /\ fin (sub64 x y)).
  { intros x y Fx Fy Bx By. apply (sub64_ok x y 65 Fx Fy); [lia|].
    replace (bpow radix2 65) with (2 * bpow radix2 64) by (simpl; lra).
    apply Rabs_le_inv in Bx, By. apply Rabs_le. lra. }
  assert (CMP : forall t0 o0 t1 o1, In (t0, o0) (store_of (A := A) hist) -> In (t1, o1) (store_of (A := A) hist) ->
     (d_ltb A (d_sub A t t0) (d_sub A t1 t) = true <-> rnd (val t - val t0) < rnd (val t1 - val t))).
  { intros t0 o0 t1 o1 I0 I1. destruct (Hb _ _ I0) as [F0 [B0 _]]. destruct (Hb _ _ I1) as [F1 [B1 _]].
    destruct (SUB t t0 Ft F0 Bt B0) as [V0 G0]. destruct (SUB t1 t F1 Ft B1 Bt) as [V1 G1].
    pose proof (Hkey (sub64 t t0) (sub64 t1 t) G0 G1) as K. unfold dkey in K. rewrite V0, V1 in K. exact K. }
  exists s, o. split; auto. split; [apply H2; auto|]. split.
  - destruct (closest_min A O (dgood acosf) (dkey acosf) Hkey rnd rnd_mono t _ s o H1 Ft Hs) as [K1 [K2 _]]; auto.
    { intros t0 o0 t1 o1 I0 I1 _. apply (CMP _ _ _ _ I0 I1). }
    intros p Hp. destruct (H3 p Hp) as [s' [v [Hin' E]]]. unfold dkey in E.
    specialize (K2 _ Hin'). cbn [fst] in K2. unfold dkey in K2. rewrite E in K2. exact K2.
  - intros HSt. destruct (closest_min A O (dgood acosf) (dkey acosf) Hkey (fun x => x) (fun x y H => H) t _ s o H1 Ft Hs) as [K1 [K2 K3]]; auto.
    { intros t0 o0 t1 o1 I0 I1 _. unfold dkey. rewrite (CMP _ _ _ _ I0 I1).
      destruct (Hb _ _ I0) as [_ [_ [p0 [P0 E0]]]]. destruct (Hb _ _ I1) as [_ [_ [p1 [P1 E1]]]].
      pose proof (HSt _ P0) as S0. pose proof (HSt _ P1) as S1. rewrite E0 in S0. rewrite E1 in S1.
      rewrite (rnd_exact (val t - val t0)), (rnd_exact (val t1 - val t)); [tauto| |].
      - apply sterbenz; try apply fmt_val; try apply vexp; try apply mexp. lra.
      - replace (val t - val t0) with (- (val t0 - val t)) by lra. apply generic_format_opp.
        apply sterbenz; try apply fmt_val; try apply vexp; try apply mexp. lra. }
    intros p Hp. destruct (H3 p Hp) as [s' [v [Hin' E]]]. unfold dkey in E. split.
    + specialize (K2 _ Hin'). cbn [fst] in K2. unfold dkey in K2. rewrite E in K2. exact K2.
    + intros Ed. specialize (K3 (fun x y H => H) _ Hin'). cbn [fst] in K3. unfold dkey in K3. rewrite E in K3. exact (K3 Ed).
Qed.

(** Double stamps: the object is the one last inserted under that stamp, and no stamp has
    a smaller distance after the rounding of the subtraction; the distance is truly
    minimal (and the later stamp wins a tie) when all stamps lie within a factor two of
    the query, as epoch stamps do. *)
Theorem C34_closest_double (acosf : b64 -> b64) (O : Type) (hist : list (b64 * O)) (t : b64) : hist <> [] ->
  Forall (fun p => is_finite (fst p) = true /\ Rabs (B2R (fst p)) <= bpow radix2 64) hist ->
  is_finite t = true -> Rabs (B2R t) <= bpow radix2 64 ->
  exists s o, st_get_closest (A := ieee acosf) t (store_of (A := ieee acosf) hist) = Ok (s, o) /\
    last_inserted (fun a b => B2R a = B2R b) hist s o /\
    (forall p, In p hist -> rnd (Rabs (B2R t - B2R s)) <= rnd (Rabs (B2R t - B2R (fst p)))) /\
    ((forall p, In p hist -> B2R t / 2 <= B2R (fst p) <= 2 * B2R t) ->
     forall p, In p hist -> Rabs (B2R t - B2R s) <= Rabs (B2R t - B2R (fst p)) /\
       (Rabs (B2R t - B2R (fst p)) = Rabs (B2R t - B2R s) -> B2R (fst p) <= B2R s)).
Proof. exact (double_store acosf O hist t). Qed.
Print Assumptions C34_closest_double.
(** On the empty store the call is undefined. *)
Theorem C34_empty (A : arith) (O : Type) (t : D A) : st_get_closest (O := O) t [] = UB.
Proof. exact eq_refl. Qed.
Print Assumptions C34_empty.

(** Insertions at 1, 3, again 1; the query 2 is a tie and gets the later stamp, the query
    1 gets the second object. *)
Definition id64 (x : b64) : b64 := x.
Definition ex_hist : list (b64 * nat) := [(of_Z64 1, 10%nat); (of_Z64 3, 30%nat); (of_Z64 1, 11%nat)].
Definition closest_tag (t : Z) : outcome (option Z * nat) :=
  ' p <- st_get_closest (A := ieee id64) (of_Z64 t) (store_of (A := ieee id64) ex_hist) ;;
  Ok (trunc64 (fst p), snd p).
Example ex_C34 : closest_tag 2 = Ok (Some 3%Z, 30%nat) /\ closest_tag 1 = Ok (Some 1%Z, 11%nat) /\
  closest_tag 100 = Ok (Some 3%Z, 30%nat).
Proof. vm_compute. auto. Qed.

(** ** C35 is refuted: RemoveOlderThan(2) on stamps 1, 2, 3 removes 3 and keeps 1; on the
    single stamp 3 it is undefined. *)
Theorem C35_remove_older_refuted :
  exists (m : store exact nat) m',
    m = store_of (A := exact) [(1, 1%nat); (2, 2%nat); (3, 3%nat)] /\
    st_remove_older_than (A := exact) 2 m = Ok m' /\
    In (1, 1%nat) m' /\ ~ In (3, 3%nat) m' /\
    st_remove_older_than (A := exact) 2 (store_of (A := exact) [(3, 3%nat)]) = UB.
Proof.
  assert (T : forall a b : R, a < b -> d_ltb exact a b = true) by (intros; apply (proj2 (Rltb_spec a b)); auto).
  assert (Fa : forall a b : R, b <= a -> d_ltb exact a b = false).
  { intros a b H. change (Rltb a b = false). destruct (Rltb a b) eqn:E; auto. apply Rltb_spec in E. lra. }
  eexists. eexists. split; [reflexivity|].
  assert (E : store_of (A := exact) [(1, 1%nat); (2, 2%nat); (3, 3%nat)] = [(1, 1%nat); (2, 2%nat); (3, 3%nat)]).
  { unfold store_of. cbn [fold_left fst snd st_insert]. rewrite (T 1 2) by lra. cbn [st_insert].
    rewrite (T 1 3) by lra. rewrite (T 2 3) by lra. auto. }
  rewrite E. split.
  - unfold st_remove_older_than. cbn [st_upper_bound]. rewrite (Fa 2 1), (Fa 2 2), (T 2 3) by lra. reflexivity.
  - split; [left; auto|]. split.
    + intros [H|[H|[]]]; inversion H; lra.
    + unfold store_of. cbn [fold_left fst snd st_insert]. unfold st_remove_older_than. cbn [st_upper_bound].
      rewrite (T 2 3) by lra. auto.
Qed.
Print Assumptions C35_remove_older_refuted.

(** What it does instead, for every store of finite double stamps: it is undefined when
    all stamps are later than t (and the store is not empty), otherwise it removes exactly
    the entries LATER than t. *)
Theorem C35_removes_newer_partial (acosf : b64 -> b64) (O : Type) (hist : list (b64 * O)) (t : b64) :
  Forall (fun p => is_finite (fst p) = true) hist -> is_finite t = true ->
  let m := store_of (A := ieee acosf) hist in
  (exists m', st_remove_older_than (A := ieee acosf) t m = Ok m' /\
     forall s o, In (s, o) m' <-> In (s, o) m /\ B2R (s : b64) <= B2R t) \/
  (st_remove_older_than (A := ieee acosf) t m = UB /\ hist <> [] /\
     forall p, In p hist -> B2R t < B2R (fst p)).
Proof.
  intros HF Ft m. set (A := ieee acosf). pose proof (dkey_ltb acosf) as Hkey.
  destruct (store_of_spec A O (dgood acosf) (dkey acosf) Hkey hist HF) as [H1 [H2 H3]].
  destruct (remove_spec A O (dgood acosf) (dkey acosf) Hkey t m H1 Ft) as [[m' [R1 [R2 [R3 R4]]]]|[R1 [R2 R3]]].
  - left. exists m'. split; auto. intros s o. apply (R3 (s, o)).
  - right. split; auto. split.
    + intros ->. apply R2. reflexivity.
    + intros p Hp. destruct (H3 p Hp) as [s [v [Hin E]]]. specialize (R3 _ Hin). unfold dkey in E, R3. cbn [fst] in R3. rewrite E in R3. exact R3.
Qed.
Print Assumptions C35_removes_newer_partial.
Example ex_C35 : (m <- st_remove_older_than (A := ieee id64) (of_Z64 2) (store_of (A := ieee id64) ex_hist) ;;
  Ok (map (fun p => trunc64 (fst p)) m)) = Ok [Some 1%Z].
Proof. vm_compute. reflexivity. Qed.

Section Node.
Variable acosf : b64 -> b64.
Variable P Scan : Type.
Variable localize : Scan -> P -> outcome P.
Notation run := (node_run (ieee acosf) P Scan localize).

(** ** C36 is refuted: a prior that is not later than the scans processed after it is
    never removed, in any history. *)
Theorem C36_priors_never_forgotten_refuted h1 s p h2 n :
  int64_stamps (h1 ++ EvPrior s p :: h2) ->
  run (h1 ++ EvPrior s p :: h2) = Ok n ->
  (forall t x, In (EvScan t x) h2 -> (s <= t)%Z) ->
  exists s' v, In (s', v) (priors n) /\ B2R (s' : b64) = B2R (of_Z64 s).
Proof.
  intros Hi Hr Hsc. pose proof (inv_run acosf P Scan localize _ n Hi Hr) as I.
  apply (inv_kept acosf P Scan _ _ I h1 h2 s p eq_refl). intros t x Ht.
  assert (Bs : (- 2 ^ 63 <= s < 2 ^ 63)%Z) by (apply (Hi (EvPrior s p)), in_or_app; right; left; auto).
  assert (Bt : (- 2 ^ 63 <= t < 2 ^ 63)%Z) by (apply (Hi (EvScan t x)), in_or_app; right; right; auto).
  eapply Rle_trans; [apply (stamp_mono s t); try lia; apply (Hsc t x Ht)|]. apply horizon_ok; auto.
Qed.

(** Ordinary operation, one prior and one scan every second: the k-th priors all stay. *)
Fixpoint drive (p : P) (x : Scan) (k : nat) : list (event P Scan) :=
  match k with
  | O => []
  | S j => drive p x j ++ [EvPrior (Z.of_nat j * 1000000000) p; EvScan (Z.of_nat j * 1000000000) x]
  end.
Theorem C36_memory_grows_refuted p x : (forall p, exists q, localize x p = Ok q) ->
  forall k, (Z.of_nat k <= 2000000000)%Z ->
  exists n, run (drive p x k) = Ok n /\ (k <= length (priors n))%nat.
Proof.
  intros Hl k Hk.
  assert (Hev : forall j e, In e (drive p x j) -> exists i, (i < j)%nat /\
     (e = EvPrior (Z.of_nat i * 1000000000) p \/ e = EvScan (Z.of_nat i * 1000000000) x)).
  { induction j as [|j IH]; simpl; [tauto|]. intros e He. apply in_app_or in He. destruct He as [He|[<-|[<-|[]]]].
    - destruct (IH e He) as [i [H1 H2]]. exists i. split; [lia|auto].
    - exists j. split; [lia|auto].
    - exists j. split; [lia|auto]. }
  assert (Hi : int64_stamps (drive p x k)).
  { intros e He. destruct (Hev k e He) as [i [H1 [-> | ->]]]; lia. }
  assert (Hpr : forall j i, (i < j)%nat -> exists h1 h2, drive p x j = h1 ++ EvPrior (Z.of_nat i * 1000000000) p :: h2 /\
     forall t y, In (EvScan t y) h2 -> (Z.of_nat i * 1000000000 <= t)%Z).
  { induction j as [|j IH]; intros i Hij; [lia|]. simpl. destruct (Nat.eq_dec i j) as [->|Hne].
    - exists (drive p x j), [EvScan (Z.of_nat j * 1000000000) x]. split; auto. intros t y [E|[]]. inversion E; subst. lia.
    - destruct (IH i ltac:(lia)) as [h1 [h2 [E H]]]. exists h1.
      exists (h2 ++ [EvPrior (Z.of_nat j * 1000000000) p; EvScan (Z.of_nat j * 1000000000) x]). split.
      + rewrite E, <- app_assoc. auto.
      + intros t y Ht. apply in_app_or in Ht. destruct Ht as [Ht|[E2|[E2|[]]]]; [eauto|discriminate|].
        inversion E2; subst. lia. }
  assert (Hd : exists n, run (drive p x k) = Ok n).
  { clear Hk Hpr. induction k as [|j IH]; [unfold node_run; simpl; eauto|].
    simpl in Hi. destruct IH as [n Hn].
    { apply int64_app in Hi. tauto. }
    cbn [drive]. change [EvPrior (Z.of_nat j * 1000000000) p; EvScan (Z.of_nat j * 1000000000) x] with
      ([EvPrior (Scan := Scan) (Z.of_nat j * 1000000000) p] ++ [EvScan (Z.of_nat j * 1000000000) x]) in *.
    rewrite app_assoc in *. rewrite run_snoc. rewrite run_snoc. rewrite Hn. cbn [bind node_step].
    pose proof (inv_run acosf P Scan localize _ n (proj1 (proj1 (int64_app P Scan _ _) (proj1 (proj1 (int64_app P Scan _ _) Hi)))) Hn) as I.
    pose proof (inv_prior acosf P Scan _ n _ p (proj1 (proj1 (int64_app P Scan _ _) Hi)) I) as I2.
    destruct (on_scan_cases acosf P Scan localize _ _ _ x Hi I2) as [[C1 C2]|[[C0 [C1 C]]|[C0 [_ [s [o [rest [C1 [C2 [C3 [C4 C5]]]]]]]]]]].
    - eauto.
    - exfalso. specialize (C1 (Z.of_nat j * 1000000000)%Z p). rewrite prior_app in C1.
      assert (Bj : (- 2 ^ 63 <= Z.of_nat j * 1000000000 < 2 ^ 63)%Z).
      { apply (Hi (EvPrior (Z.of_nat j * 1000000000) p)). apply in_or_app. left. apply in_or_app. right. left. auto. }
      pose proof (proj2 (horizon_ok _ Bj)).
      assert (In (Z.of_nat j * 1000000000, p)%Z (prior_history (drive p x j) ++ prior_history [EvPrior (Scan := Scan) (Z.of_nat j * 1000000000) p])).
      { apply in_or_app. right. left. auto. }
      specialize (C1 H0). lra.
    - rewrite C5. destruct (Hl o) as [q Hq]. rewrite Hq. cbn [bind]. eauto. }
  destruct Hd as [n Hn]. exists n. split; auto.
  set (ks := map (fun i => val (of_Z64 (Z.of_nat i * 1000000000))) (seq 0 k)).
  assert (HL : length ks = k) by (unfold ks; rewrite map_length, seq_length; auto).
  rewrite <- HL. rewrite <- (map_length (fun p : D (ieee acosf) * P => val (fst p)) (priors n)).
  apply NoDup_incl_length.
  - unfold ks. clear - Hk. assert (G : forall a, (Z.of_nat a + Z.of_nat k <= 2000000000)%Z -> NoDup (map (fun i => val (of_Z64 (Z.of_nat i * 1000000000))) (seq a k))).
    { clear Hk. induction k as [|k IH]; intros a Ha; simpl; constructor.
      - intros Hin. apply in_map_iff in Hin. destruct Hin as [i [E Hi]]. apply in_seq in Hi.
        pose proof (stamp_strict (Z.of_nat a * 1000000000) (Z.of_nat i * 1000000000)) as S.
        assert (val (of_Z64 (Z.of_nat a * 1000000000)) < val (of_Z64 (Z.of_nat i * 1000000000))) by (apply S; lia). lra.
      - apply IH. lia. }
    apply (G O). lia.
  - intros y Hy. unfold ks in Hy. apply in_map_iff in Hy. destruct Hy as [i [<- Hi']]. apply in_seq in Hi'.
    destruct (Hpr k i ltac:(lia)) as [h1 [h2 [E H]]]. rewrite E in Hi, Hn.
    destruct (C36_priors_never_forgotten_refuted h1 _ p h2 n Hi Hn H) as [s' [v [Hin Ek]]].
    apply in_map_iff. exists (s', v). split; auto.
Qed.

(** ** C37 Pose publication protocol. *)

(** As long as the node stays defined it publishes exactly one pose and one transform,
    equal and with the stamp of the scan, for each scan pair that follows a prior. *)
Theorem C37_publication_partial h n : int64_stamps h -> run h = Ok n ->
  map pub_stamp (outs n) = answered false h /\ map tf_stamp (outs n) = answered false h /\
  map tf_pose (outs n) = map pub_pose (outs n).
Proof. exact (outs_spec acosf P Scan localize h n). Qed.

(** It stays defined exactly when each scan that follows a prior has one of the priors
    received so far not later (in double nanoseconds) than its stamp plus one second;
    otherwise the behaviour is undefined. *)
Theorem C37_defined_iff_partial h : int64_stamps h -> (forall x p, exists q, localize x p = Ok q) ->
  ((exists n, run h = Ok n) <->
   forall h1 t x h2, h = h1 ++ EvScan t x :: h2 -> prior_history h1 <> [] ->
     exists s p, In (s, p) (prior_history h1) /\
       B2R (of_Z64 s) <= B2R (add64 (of_Z64 t) (of_Z64 1000000000))) /\
  ((exists n, run h = Ok n) \/ run h = UB).
Proof. exact (defined_iff acosf P Scan localize h). Qed.

(** In particular when every scan has a prior at or before its stamp. *)
Theorem C37_defined_partial h : int64_stamps h -> (forall x p, exists q, localize x p = Ok q) ->
  (forall h1 t x h2, h = h1 ++ EvScan t x :: h2 -> prior_history h1 <> [] ->
     exists s p, In (s, p) (prior_history h1) /\ (s <= t)%Z) ->
  exists n, run h = Ok n.
Proof.
  intros Hi Hl H. apply (proj1 (C37_defined_iff_partial h Hi Hl)). intros h1 t x h2 E Hne.
  destruct (H h1 t x h2 E Hne) as [s [p [H1 H2]]]. exists s, p. split; auto.
  assert (Bt : (- 2 ^ 63 <= t < 2 ^ 63)%Z) by (apply (Hi (EvScan t x)); rewrite E; apply in_or_app; right; left; auto).
  assert (Bs : (- 2 ^ 63 <= s < 2 ^ 63)%Z).
  { apply (Hi (EvPrior s p)). rewrite E. apply in_or_app. left. apply prior_in. auto. }
  eapply Rle_trans; [apply (stamp_mono s t); lia|]. apply horizon_ok; auto.
Qed.

(** The optimisation of a scan starts from the closest of all priors received (rounded
    distance in double nanoseconds; the pose last received under that stamp), provided no
    prior was ever more than a second ahead of a scan. *)
Theorem C37_starts_from_closest_partial h t x n' :
  int64_stamps (h ++ [EvScan t x]) -> prior_history h <> [] ->
  (forall h1 s p h2 t' x', h = h1 ++ EvPrior s p :: h2 -> In (EvScan t' x') h2 ->
     B2R (of_Z64 s) <= B2R (add64 (of_Z64 t') (of_Z64 1000000000))) ->
  run (h ++ [EvScan t x]) = Ok n' ->
  exists n s o pose, run h = Ok n /\
    last_inserted eq (map (fun p => (B2R (of_Z64 (fst p)), snd p)) (prior_history h)) s o /\
    (forall s' p', In (s', p') (prior_history h) ->
       rnd (Rabs (B2R (of_Z64 t) - s)) <= rnd (Rabs (B2R (of_Z64 t) - B2R (of_Z64 s')))) /\
    localize x o = Ok pose /\
    outs n' = outs n ++ [{| pub_stamp := t; pub_pose := pose; tf_stamp := t; tf_pose := pose |}].
Proof.
  intros Hi Hne Hah Hr. rewrite run_snoc in Hr. pose proof (proj1 (proj1 (int64_app P Scan _ _) Hi)) as Hi'.
  destruct (run h) as [n| | | | |] eqn:E; try discriminate. cbn [bind node_step] in Hr.
  pose proof (inv_run acosf P Scan localize _ n Hi' E) as I.
  destruct (on_scan_cases acosf P Scan localize h n t x Hi I) as [[C1 C2]|[[C0 [C1 C]]|[C0 [_ [s [o [rest [C1 [C2 [C3 [C4 C5]]]]]]]]]]]; try congruence.
  rewrite C5 in Hr. destruct (localize x o) as [pose| | | | |] eqn:EL; try discriminate. cbn [bind] in Hr. inversion Hr; subst n'.
  assert (Bt : (- 2 ^ 63 <= t < 2 ^ 63)%Z) by (apply (Hi (EvScan t x)), in_or_app; right; left; auto).
  destruct (of_Z64_rnd t Bt) as [_ [Ft Bt']].
  assert (Hstore : priors n <> []) by (intros H; apply (inv_nil acosf P Scan _ _ I) in H; auto).
  assert (Hb : forall s v, In (s, v) (priors n) -> fin s /\ Rabs (val s) <= bpow radix2 63).
  { intros s0 v Hin. split.
    - pose proof (inv_ord acosf P Scan _ _ I) as [_ G]. rewrite Forall_forall in G. apply (G _ Hin).
    - destruct (inv_sound acosf P Scan _ _ I s0 v Hin) as [a [s' [b [E1 [E2 _]]]]].
      assert (Hm : In (s', v) (map (fun p => (val (of_Z64 (fst p)), snd p)) (prior_history h))) by (rewrite E1; apply in_or_app; right; left; auto).
      apply in_map_iff in Hm. destruct Hm as [[z q] [Hz1 Hz2]]. injection Hz1 as Hz3 Hz4.
      change (val s0) with (dkey acosf s0). rewrite <- E2, <- Hz3. apply of_Z64_rnd.
      apply (Hi' (EvPrior z q)). apply prior_in. auto. }
  destruct (closest_min (ieee acosf) P (dgood acosf) (dkey acosf) (dkey_ltb acosf) rnd rnd_mono (of_Z64 t) (priors n) s o
    (inv_ord acosf P Scan _ _ I) Ft Hstore) as [K1 [K2 _]]; auto.
  { intros t0 o0 t1 o1 I0 I1 _. destruct (Hb _ _ I0) as [F0 B0]. destruct (Hb _ _ I1) as [F1 B1].
    assert (SUB : forall x y, fin x -> fin y -> Rabs (val x) <= bpow radix2 63 -> Rabs (val y) <= bpow radix2 63 ->
       val (sub64 x y) = rnd (val x - val y) /\ fin (sub64 x y)).
    { intros u y Fx Fy Bx By. apply (sub64_ok u y 64 Fx Fy); [lia|].
      replace (bpow radix2 64) with (2 * bpow radix2 63) by (simpl; lra).
      apply Rabs_le_inv in Bx, By. apply Rabs_le. lra. }
    destruct (SUB _ _ Ft F0 Bt' B0) as [V0 G0]. destruct (SUB _ _ F1 Ft B1 Bt') as [V1 G1].
    pose proof (dkey_ltb acosf (sub64 (of_Z64 t) t0) (sub64 t1 (of_Z64 t)) G0 G1) as K. unfold dkey in K. rewrite V0, V1 in K. exact K. }
  exists n, (dkey acosf s), o, pose. split; auto. split; [apply (inv_sound acosf P Scan _ _ I s o K1)|].
  split; [|split; auto].
  intros s' p' Hin. pose proof Hin as Hin2. apply prior_in in Hin. apply in_split in Hin. destruct Hin as [h1 [h2 Eh]].
  destruct (inv_kept acosf P Scan _ _ I h1 h2 s' p' Eh) as [s2 [v [J1 J2]]].
  { intros t' x' Ht'. apply (Hah h1 s' p' h2 t' x' Eh Ht'). }
  specialize (K2 _ J1). cbn [fst] in K2. rewrite J2 in K2. exact K2.
Qed.
End Node.
Print Assumptions C36_priors_never_forgotten_refuted.
Print Assumptions C36_memory_grows_refuted.
Print Assumptions C37_publication_partial.
Print Assumptions C37_defined_iff_partial.
Print Assumptions C37_defined_partial.
Print Assumptions C37_starts_from_closest_partial.

(** Two scans after a prior and one before it: two messages. *)
Definition ok_localize (x : unit) (p : nat) : outcome nat := Ok (p + 100)%nat.
Definition ex_drive : list (event nat unit) :=
  [EvScan 5 tt; EvPrior 10 1%nat; EvScan 12 tt; EvPrior 20 2%nat; EvScan 19 tt]%Z.
Example ex_C37 : (n <- node_run (ieee id64) nat unit ok_localize ex_drive ;;
  Ok (map (fun o => (pub_stamp o, pub_pose o)) (outs n))) = Ok [(12%Z, 101%nat); (19%Z, 102%nat)].
Proof. vm_compute. reflexivity. Qed.
Example ex_C36 : (n <- node_run (ieee id64) nat unit ok_localize (drive nat unit 7%nat tt 5) ;;
  Ok (length (priors n))) = Ok 5%nat.
Proof. vm_compute. reflexivity. Qed.

(** Refuted parts: one prior more than a second ahead of a scan leads to undefined
    behaviour; and a scan makes the node forget a prior that is closest to a later scan:
    priors at 0 s (pose 1) and 10 s (pose 2), scans at 1 s and 10 s: the second scan is
    optimised from the prior of 0 s. *)
Theorem C37_undefined_refuted :
  node_run (ieee id64) nat unit ok_localize [EvPrior 5000000000 1%nat; EvScan 1000000000 tt]%Z = UB.
Proof.
  destruct (node_run (ieee id64) nat unit ok_localize [EvPrior 5000000000 1%nat; EvScan 1000000000 tt]%Z) eqn:E; auto; exfalso.
  all: assert (G : match node_run (ieee id64) nat unit ok_localize [EvPrior 5000000000 1%nat; EvScan 1000000000 tt]%Z with
    UB => True | _ => False end) by (vm_compute; exact I); rewrite E in G; exact G.
Qed.
Print Assumptions C37_undefined_refuted.
Theorem C37_starts_from_closest_refuted :
  (n <- node_run (ieee id64) nat unit ok_localize
     [EvPrior 0 1%nat; EvPrior 10000000000 2%nat; EvScan 1000000000 tt; EvScan 10000000000 tt]%Z ;;
   Ok (map (fun o => (pub_stamp o, pub_pose o)) (outs n))) =
  Ok [(1000000000%Z, 101%nat); (10000000000%Z, 101%nat)].
Proof. vm_compute. reflexivity. Qed.
Print Assumptions C37_starts_from_closest_refuted.

(** ** C38 is refuted: two priors one nanosecond apart at a 2023 epoch are one entry. *)
Theorem C38_stamps_distinguished_refuted :
  ~ (forall s s' (p p' : nat) n, int64_stamps (Scan := unit) [EvPrior s p; EvPrior s' p'] -> s <> s' ->
       node_run (ieee id64) nat unit ok_localize [EvPrior s p; EvPrior s' p'] = Ok n -> length (priors n) = 2%nat).
Proof.
  intros H. specialize (H 1700000000000000000 1700000000000000001 1%nat 2%nat)%Z.
  destruct (node_run (ieee id64) nat unit ok_localize
     [EvPrior 1700000000000000000 1%nat; EvPrior 1700000000000000001 2%nat]%Z) as [n| | | | |] eqn:E.
  2-6: unfold node_run in E; simpl in E; discriminate.
  assert (G : match node_run (ieee id64) nat unit ok_localize
     [EvPrior 1700000000000000000 1%nat; EvPrior 1700000000000000001 2%nat]%Z with Ok n => length (priors n) = 1%nat | _ => False end)
    by (vm_compute; reflexivity).
  rewrite E in G. specialize (H n).
  assert (K : length (priors n) = 2%nat).
  { apply H; auto; [|lia]. intros e [<-|[<-|[]]]; lia. }
  congruence.
Qed.
Print Assumptions C38_stamps_distinguished_refuted.
(** Stamps more than 256 ns apart, below 2^61 ns (year 2043), stay distinct and ordered. *)
Theorem C38_stamps_far_apart_partial a b : (- 2 ^ 61 < a)%Z -> (a + 256 < b)%Z -> (b < 2 ^ 61)%Z ->
  Bltb (of_Z64 a) (of_Z64 b) = true.
Proof.
  intros Ha Hab Hb. destruct (of_Z64_rnd a) as [_ [Fa _]]; [lia|]. destruct (of_Z64_rnd b) as [_ [Fb _]]; [lia|].
  rewrite (ltb64_ok _ _ Fa Fb). apply Rlt_bool_true. apply stamp_strict; auto.
Qed.
Print Assumptions C38_stamps_far_apart_partial.
Example ex_C38 : (- 2 ^ 61 < 1700000000000000000)%Z /\ (1700000000000000000 + 256 < 1700000000000000300)%Z.
Proof. split; reflexivity. Qed.
