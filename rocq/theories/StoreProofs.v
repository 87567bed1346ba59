(** Proofs about the store of stamped objects. *)
From Coq Require Import List ZArith Bool Lia Lra Reals Sorting.Sorted.
From Verif Require Import Base Arith LibModel LocModel SpecLoc.
Import ListNotations.
Open Scope R_scope.

Section Keys.
Variable A : arith.
Variable O : Type.
(** keys on which operator< is the order of the reals [key] *)
Variable good : D A -> Prop.
Variable key : D A -> R.
Hypothesis Hkey : forall x y, good x -> good y -> (d_ltb A x y = true <-> key x < key y).

Lemma Hkeyf x y : good x -> good y -> (d_ltb A x y = false <-> key y <= key x).
Proof.
  intros Hx Hy. destruct (d_ltb A x y) eqn:E.
  - apply Hkey in E; auto. split; [discriminate|lra].
  - split; auto. intros _. apply Rnot_lt_le. intros H. apply Hkey in H; auto. congruence.
Qed.

Definition kgood (p : D A * O) : Prop := good (fst p).
Definition kle (p p' : D A * O) : Prop := key (fst p) < key (fst p').
Definition ordered (m : store A O) : Prop := StronglySorted kle m /\ Forall kgood m.

Lemma ordered_cons p m : ordered (p :: m) <-> kgood p /\ ordered m /\ forall p', In p' m -> kle p p'.
Proof.
  unfold ordered. split.
  - intros [H1 H2]. inversion H1; subst. inversion H2; subst. repeat split; auto. rewrite Forall_forall in *. auto.
  - intros [H1 [[H2 H3] H4]]. split; constructor; auto. apply Forall_forall. auto.
Qed.

Lemma ordered_nil : ordered [].
Proof. split; constructor. Qed.

(** lookup: the object stored under the stamp of key k *)
Definition holds (m : store A O) (k : R) (o : O) : Prop := exists s, In (s, o) m /\ key s = k.

Lemma insert_in t o m s v : ordered m -> good t ->
  In (s, v) (st_insert t o m) -> (key s = key t /\ v = o) \/ (In (s, v) m /\ key s <> key t).
Proof.
  intros Hm Ht. revert Hm. induction m as [|[k w] m IH]; intros Hm Hin; simpl in *.
  - destruct Hin as [E|[]]. inversion E; subst. auto.
  - apply ordered_cons in Hm. destruct Hm as [Hk [Hm Hlt]]. unfold kgood in Hk; simpl in Hk.
    destruct (d_ltb A k t) eqn:E1.
    + apply Hkey in E1; auto. destruct Hin as [E|Hin].
      * inversion E; subst. right. split; [left; auto|lra].
      * destruct (IH Hm Hin) as [H|[H1 H2]]; auto.
    + apply Hkeyf in E1; auto. destruct (d_ltb A t k) eqn:E2.
      * apply Hkey in E2; auto. destruct Hin as [E|Hin]; [inversion E; subst; auto|].
        right. split; auto. destruct Hin as [E|Hin]; [inversion E; subst; lra|].
        specialize (Hlt _ Hin). unfold kle in Hlt; simpl in Hlt. lra.
      * apply Hkeyf in E2; auto. destruct Hin as [E|Hin].
        -- inversion E; subst. left. split; auto. lra.
        -- right. split; auto. specialize (Hlt _ Hin). unfold kle in Hlt; simpl in Hlt. lra.
Qed.
Lemma insert_new t o m : ordered m -> good t -> holds (st_insert t o m) (key t) o.
Proof.
  intros Hm Ht. induction m as [|[k w] m IH]; simpl.
  - exists t. simpl; auto.
  - apply ordered_cons in Hm. destruct Hm as [Hk [Hm Hlt]]. unfold kgood in Hk; simpl in Hk.
    destruct (d_ltb A k t) eqn:E1.
    + destruct (IH Hm) as [s [H1 H2]]. exists s. simpl; auto.
    + destruct (d_ltb A t k) eqn:E2; [exists t; simpl; auto|].
      apply Hkeyf in E1, E2; auto. exists k. split; [left; auto|lra].
Qed.
Lemma insert_old t o m s v : ordered m -> good t -> In (s, v) m -> key s <> key t -> In (s, v) (st_insert t o m).
Proof.
  intros Hm Ht. induction m as [|[k w] m IH]; simpl; [tauto|]. intros Hin Hne.
  apply ordered_cons in Hm. destruct Hm as [Hk [Hm Hlt]]. unfold kgood in Hk; simpl in Hk.
  destruct (d_ltb A k t) eqn:E1.
  - destruct Hin as [E|Hin]; [left; auto|right; auto].
  - destruct (d_ltb A t k) eqn:E2; [right; simpl; auto|].
    apply Hkeyf in E1, E2; auto. destruct Hin as [E|Hin]; [inversion E; subst; lra|right; auto].
Qed.
Lemma insert_ordered t o m : ordered m -> good t -> ordered (st_insert t o m).
Proof.
  intros Hm Ht. induction m as [|[k w] m IH]; simpl.
  - apply ordered_cons. split; auto. split; [apply ordered_nil|intros ? []].
  - pose proof Hm as Hm0. apply ordered_cons in Hm. destruct Hm as [Hk [Hm Hlt]]. unfold kgood in Hk; simpl in Hk.
    destruct (d_ltb A k t) eqn:E1.
    + apply Hkey in E1; auto. apply ordered_cons. split; auto. split; auto.
      intros [s v] Hin. destruct (insert_in t o m s v Hm Ht Hin) as [[H _]|[H _]].
      * unfold kle; simpl. lra.
      * apply Hlt; auto.
    + destruct (d_ltb A t k) eqn:E2.
      * apply Hkey in E2; auto. apply ordered_cons. split; auto. split; auto.
        intros p' [<-|Hin]; unfold kle; simpl; auto. specialize (Hlt _ Hin). unfold kle in Hlt; simpl in Hlt. lra.
      * apply ordered_cons. split; auto.
Qed.

Lemma ordered_unique m s v s' v' : ordered m -> In (s, v) m -> In (s', v') m -> key s = key s' -> s = s' /\ v = v'.
Proof.
  intros Hm. induction m as [|p m IH]; simpl; [tauto|]. apply ordered_cons in Hm. destruct Hm as [Hk [Hm Hlt]].
  intros [->|H1] [E|H2] Hkk.
  - inversion E; auto.
  - specialize (Hlt _ H2). unfold kle in Hlt; simpl in Hlt. lra.
  - subst p. specialize (Hlt _ H1). unfold kle in Hlt; simpl in Hlt. lra.
  - auto.
Qed.

Definition samek (x y : D A) : Prop := key x = key y.

(** the store holds, for each inserted stamp, the object last inserted under it *)
Lemma store_of_spec hist : Forall kgood hist ->
  ordered (store_of hist) /\
  (forall s v, In (s, v) (store_of hist) -> last_inserted samek hist s v) /\
  (forall p, In p hist -> exists s v, In (s, v) (store_of hist) /\ key s = key (fst p)).
Proof.
  intros Hg. assert (Hrev : forall l : list (D A * O), l = rev (rev l)) by (intros; rewrite rev_involutive; auto).
  rewrite (Hrev hist) in *. generalize (rev hist) Hg. clear Hg hist. intros h.
  induction h as [|[t o] h IH]; intros Hg; simpl in *.
  - unfold store_of. simpl. split; [apply ordered_nil|]. split; [intros ? ? []|intros ? []].
  - apply Forall_app in Hg. destruct Hg as [Hg Ht]. inversion Ht as [|? ? Ht' _]; subst. unfold kgood in Ht'; simpl in Ht'.
    destruct (IH Hg) as [H1 [H2 H3]]. unfold store_of in *. rewrite fold_left_app. simpl.
    split; [apply insert_ordered; auto|]. split.
    + intros s v Hin. apply insert_in in Hin; auto. destruct Hin as [[E ->]|[Hin Hne]].
      * exists (rev h), t, []. split; auto. split; [unfold samek; auto|intros ? []].
      * destruct (H2 s v Hin) as [h1 [s' [h2 [E1 [E2 E3]]]]]. exists h1, s', (h2 ++ [(t, o)]).
        split; [rewrite E1, <- app_assoc; auto|]. split; auto.
        intros p Hp. apply in_app_or in Hp. destruct Hp as [Hp|[<-|[]]]; auto.
    + intros p Hp. apply in_app_or in Hp. destruct Hp as [Hp|[<-|[]]].
      * destruct (H3 p Hp) as [s [v [H4 H5]]].
        destruct (Req_dec (key s) (key t)) as [E|E].
        -- destruct (insert_new t o (fold_left (fun m p => st_insert (fst p) (snd p) m) (rev h) []) H1 Ht') as [s' [H6 H7]].
           exists s', o. split; auto. lra.
        -- exists s, v. split; auto. apply insert_old; auto.
      * destruct (insert_new t o (fold_left (fun m p => st_insert (fst p) (snd p) m) (rev h) []) H1 Ht') as [s' [H6 H7]].
        exists s', o. auto.
Qed.

(** searches *)
Lemma lower_bound_spec t m a b : ordered m -> good t -> st_lower_bound t m = (a, b) ->
  m = a ++ b /\ (forall p, In p a -> key (fst p) < key t) /\ (forall p, In p b -> key t <= key (fst p)).
Proof.
  intros Hm Ht. revert a b. induction m as [|[k v] m IH]; intros a b H; simpl in H.
  - inversion H; subst. split; auto. split; intros ? [].
  - apply ordered_cons in Hm. destruct Hm as [Hk [Hm Hlt]]. unfold kgood in Hk; simpl in Hk.
    destruct (d_ltb A k t) eqn:E.
    + destruct (st_lower_bound t m) as [a' b'] eqn:E'. inversion H; subst.
      destruct (IH Hm _ _ eq_refl) as [H1 [H2 H3]]. apply Hkey in E; auto. split; [simpl; congruence|]. split; auto.
      intros p [<-|Hp]; auto.
    + inversion H; subst. apply Hkeyf in E; auto. split; auto. split; [intros ? []|].
      intros p [<-|Hp]; auto. specialize (Hlt _ Hp). unfold kle in Hlt; simpl in Hlt. lra.
Qed.
Lemma upper_bound_spec t m a b : ordered m -> good t -> st_upper_bound t m = (a, b) ->
  m = a ++ b /\ (forall p, In p a -> key (fst p) <= key t) /\ (forall p, In p b -> key t < key (fst p)).
Proof.
  intros Hm Ht. revert a b. induction m as [|[k v] m IH]; intros a b H; simpl in H.
  - inversion H; subst. split; auto. split; intros ? [].
  - apply ordered_cons in Hm. destruct Hm as [Hk [Hm Hlt]]. unfold kgood in Hk; simpl in Hk.
    destruct (d_ltb A t k) eqn:E.
    + inversion H; subst. apply Hkey in E; auto. split; auto. split; [intros ? []|].
      intros p [<-|Hp]; auto. specialize (Hlt _ Hp). unfold kle in Hlt; simpl in Hlt. lra.
    + destruct (st_upper_bound t m) as [a' b'] eqn:E'. inversion H; subst.
      destruct (IH Hm _ _ eq_refl) as [H1 [H2 H3]]. apply Hkeyf in E; auto. split; [simpl; congruence|]. split; auto.
      intros p [<-|Hp]; auto.
Qed.

Lemma ordered_app_lt a b p p' : ordered (a ++ b) -> In p a -> In p' b -> kle p p'.
Proof.
  induction a as [|x a IH]; simpl; [tauto|]. intros H. apply ordered_cons in H. destruct H as [_ [H1 H2]].
  intros [<-|Ha] Hb; auto. apply H2. apply in_or_app; auto.
Qed.
Lemma ordered_app_l a b : ordered (a ++ b) -> ordered a.
Proof.
  induction a as [|x a IH]; simpl; [intros; apply ordered_nil|]. intros H. apply ordered_cons in H. destruct H as [H0 [H1 H2]].
  apply ordered_cons. split; auto. split; auto. intros. apply H2, in_or_app; auto.
Qed.

(** what GetClosest returns: a neighbour of t in the store, the later one unless the
    computed distance to the earlier one is smaller *)
Lemma get_closest_spec t m : ordered m -> good t -> m <> [] ->
  exists s o, st_get_closest t m = Ok (s, o) /\ In (s, o) m /\
    ((key s < key t /\ forall p, In p m -> key (fst p) <= key s) \/
     (key t <= key s /\ forall p, In p m -> key s <= key (fst p)) \/
     (exists t0 o0 t1 o1, In (t0, o0) m /\ In (t1, o1) m /\ key t0 < key t <= key t1 /\
        (forall p, In p m -> key (fst p) <= key t0 \/ key t1 <= key (fst p)) /\
        (if d_ltb A (d_sub A t t0) (d_sub A t1 t) then s = t0 /\ o = o0 else s = t1 /\ o = o1))).
Proof.
  intros Hm Ht Hne. unfold st_get_closest. destruct (st_lower_bound t m) as [a b] eqn:E.
  destruct (lower_bound_spec t m a b Hm Ht E) as [Hab [Ha Hb]].
  assert (Hlast : forall x l, rev a = x :: l -> In x a /\ forall p, In p a -> key (fst p) <= key (fst x)).
  { intros x l Hr. assert (Ea : a = rev l ++ [x]) by (rewrite <- (rev_involutive a), Hr; auto). split.
    - rewrite Ea. apply in_or_app. right. left. auto.
    - intros p Hp. rewrite Ea in Hp. apply in_app_or in Hp. destruct Hp as [Hp|[<-|[]]]; [|lra].
      assert (K : kle p x). { apply (ordered_app_lt (rev l) [x]); [|auto|left; auto]. rewrite <- Ea. apply (ordered_app_l a b). rewrite <- Hab. auto. }
      unfold kle in K. lra. }
  destruct b as [|[t1 o1] b].
  - rewrite app_nil_r in Hab. unfold st_prev. destruct (rev a) as [|[s o] l] eqn:R.
    + exfalso. apply Hne. rewrite Hab, <- (rev_involutive a), R. auto.
    + destruct (Hlast _ _ eq_refl) as [H1 H2]. exists s, o. split; [destruct a; [destruct H1|auto]|].
      split; [rewrite Hab; auto|]. left. split; [apply (Ha _ H1)|]. intros p Hp. rewrite Hab in Hp. apply (H2 p Hp).
  - destruct a as [|p0 a0].
    + exists t1, o1. split; auto. split; [rewrite Hab; left; auto|]. right. left.
      split; [apply (Hb (t1, o1)); left; auto|].
      intros p Hp. rewrite Hab in Hp, Hm. destruct Hp as [<-|Hp]; simpl; [lra|].
      simpl in Hm. apply ordered_cons in Hm. destruct Hm as [_ [_ Hm]]. specialize (Hm _ Hp). unfold kle in Hm. simpl in Hm. lra.
    + unfold st_prev. set (a := p0 :: a0) in *. destruct (rev a) as [|[t0 o0] l] eqn:R.
      { exfalso. assert (a = []) by (rewrite <- (rev_involutive a), R; auto). discriminate. }
      destruct (Hlast _ _ eq_refl) as [H1 H2]. cbn [bind].
      assert (Hn : In (t0, o0) m) by (rewrite Hab; apply in_or_app; auto).
      assert (Hn1 : In (t1, o1) m) by (rewrite Hab; apply in_or_app; right; left; auto).
      assert (Hbound : forall p, In p m -> key (fst p) <= key t0 \/ key t1 <= key (fst p)).
      { intros p Hp. rewrite Hab in Hp. apply in_app_or in Hp. destruct Hp as [Hp|[<-|Hp]].
        - left. apply (H2 p Hp).
        - right. simpl. lra.
        - right. assert (K : ordered ((t1, o1) :: b)).
          { clear - Hm Hab. rewrite Hab in Hm. clear Hab. clearbody a. induction a; simpl in Hm; auto. apply ordered_cons in Hm. tauto. }
          apply ordered_cons in K. destruct K as [_ [_ K]]. specialize (K _ Hp). unfold kle in K. simpl in K. lra. }
      assert (Hbr : key t0 < key t <= key t1) by (split; [apply (Ha _ H1)|apply (Hb (t1, o1)); left; auto]).
      destruct (d_ltb A (d_sub A t t0) (d_sub A t1 t)) eqn:EL.
      * exists t0, o0. split; auto. split; auto. right. right. exists t0, o0, t1, o1. rewrite EL. auto 8.
      * exists t1, o1. split; auto. split; auto. right. right. exists t0, o0, t1, o1. rewrite EL. auto 8.
Qed.

(** RemoveOlderThan: keeps the entries up to t, drops the later ones, undefined when every
    entry is later *)
Lemma remove_spec t m : ordered m -> good t ->
  (exists m', st_remove_older_than t m = Ok m' /\ ordered m' /\
     (forall p, In p m' <-> In p m /\ key (fst p) <= key t) /\ (m <> [] -> m' <> [])) \/
  (st_remove_older_than t m = UB /\ m <> [] /\ forall p, In p m -> key t < key (fst p)).
Proof.
  intros Hm Ht. unfold st_remove_older_than. destruct (st_upper_bound t m) as [a b] eqn:E.
  destruct (upper_bound_spec t m a b Hm Ht E) as [Hab [Ha Hb]].
  destruct b as [|p b].
  - left. exists m. assert (G : st_remove_older_than t m = Ok m) by (unfold st_remove_older_than; rewrite E; destruct a; auto).
    split; [destruct a; auto|]. split; auto. split; auto. intros q. rewrite app_nil_r in Hab. split; [|tauto].
    intros Hq. split; auto. apply Ha. rewrite <- Hab. auto.
  - destruct a as [|p' a].
    + right. simpl in Hab. split; auto. split; [rewrite Hab; discriminate|]. intros q Hq. rewrite Hab in Hq. auto.
    + left. exists (p' :: a). split; auto. split; [apply (ordered_app_l _ (p :: b)); rewrite <- Hab; auto|].
      split; [|discriminate]. intros q. split.
      * intros Hq. split; auto. rewrite Hab. apply in_or_app; auto.
      * intros [Hq Hle]. rewrite Hab in Hq. apply in_app_or in Hq. destruct Hq as [Hq|Hq]; auto.
        specialize (Hb _ Hq). lra.
Qed.

End Keys.

Section Closest.
Variable A : arith.
Variable O : Type.
Variable good : D A -> Prop.
Variable key : D A -> R.
Hypothesis Hkey : forall x y, good x -> good y -> (d_ltb A x y = true <-> key x < key y).
(** rounding of the two subtractions *)
Variable r : R -> R.
Hypothesis rmono : forall x y, x <= y -> r x <= r y.

Lemma closest_min t (m : store A O) s o : ordered A O good key m -> good t -> m <> [] ->
  (forall t0 o0 t1 o1, In (t0, o0) m -> In (t1, o1) m -> key t0 < key t <= key t1 ->
     (d_ltb A (d_sub A t t0) (d_sub A t1 t) = true <-> r (key t - key t0) < r (key t1 - key t))) ->
  st_get_closest t m = Ok (s, o) ->
  In (s, o) m /\
  (forall p, In p m -> r (Rabs (key t - key s)) <= r (Rabs (key t - key (fst p)))) /\
  ((forall x y, r x <= r y -> x <= y) ->
   forall p, In p m -> Rabs (key t - key (fst p)) = Rabs (key t - key s) -> key (fst p) <= key s).
Proof.
  intros Hm Ht Hne Hsub GC.
  destruct (get_closest_spec A O good key Hkey t m Hm Ht Hne) as [s' [o' [GC' [Hin Hc]]]].
  rewrite GC in GC'. inversion GC'; subst s' o'. split; auto.
  destruct Hc as [[H1 H2]|[[H1 H2]|[t0 [o0 [t1 [o1 [I0 [I1 [Hb [Hall Hs]]]]]]]]]].
  - split.
    + intros p Hp. apply rmono. specialize (H2 p Hp). rewrite !Rabs_pos_eq; lra.
    + intros _ p Hp _. auto.
  - split.
    + intros p Hp. apply rmono. specialize (H2 p Hp). rewrite !Rabs_left1; lra.
    + intros _ p Hp E. specialize (H2 p Hp). rewrite !Rabs_left1 in E; lra.
  - pose proof (Hsub _ _ _ _ I0 I1 Hb) as HS.
    destruct (d_ltb A (d_sub A t t0) (d_sub A t1 t)).
    + destruct Hs; subst. pose proof (proj1 HS eq_refl) as HL. split.
      * intros p Hp. destruct (Hall p Hp) as [H|H].
        -- apply rmono. rewrite !Rabs_pos_eq; lra.
        -- rewrite Rabs_pos_eq by lra. rewrite (Rabs_left1 (key t - key (fst p))) by lra.
           apply Rle_trans with (r (key t1 - key t)); [lra|]. apply rmono. lra.
      * intros Hr p Hp E. destruct (Hall p Hp) as [H|H]; auto. exfalso.
        rewrite (Rabs_pos_eq (key t - key t0)) in E by lra. rewrite (Rabs_left1 (key t - key (fst p))) in E by lra.
        assert (K : key t1 - key t <= key t - key t0) by lra. apply rmono in K. lra.
    + destruct Hs; subst. assert (HL : r (key t1 - key t) <= r (key t - key t0)).
      { apply Rnot_lt_le. intros H. apply HS in H. discriminate. }
      split.
      * intros p Hp. destruct (Hall p Hp) as [H|H].
        -- rewrite (Rabs_left1 (key t - key t1)) by lra. rewrite (Rabs_pos_eq (key t - key (fst p))) by lra.
           apply Rle_trans with (r (key t - key t0)); [replace (- (key t - key t1)) with (key t1 - key t) by lra; auto|].
           apply rmono. lra.
        -- apply rmono. rewrite !Rabs_left1; lra.
      * intros Hr p Hp E. destruct (Hall p Hp) as [H|H]; [lra|].
        rewrite !Rabs_left1 in E; lra.
Qed.
End Closest.
