(** Proofs about the synchroniser, for C138. *)
From Coq Require Import List ZArith Bool Sorted Lia Permutation PeanoNat.
From Verif Require Import SyncModel SpecSync.
Import ListNotations.
Open Scope Z_scope.

Section Proofs.
Variable A B : Type.
Implicit Type w : waiting_set A B.
Notation event := (arrival A B).

Lemma growing_cons {M} (p : Z * M) s : growing (p :: s) <-> growing s /\ forall u, In u s -> fst p < fst u.
Proof.
  unfold growing. cbn [map]. split.
  - intros H. apply StronglySorted_inv in H. destruct H as [H1 H2]. split; auto. intros u Hu. rewrite Forall_forall in H2. apply H2. now apply in_map.
  - intros [H1 H2]. constructor; auto. apply Forall_forall. intros x Hx. apply in_map_iff in Hx. destruct Hx as [u [<- Hu]]. auto.
Qed.
Lemma growing_snoc {M} (p : Z * M) s : growing (s ++ [p]) <-> growing s /\ forall u, In u s -> fst u < fst p.
Proof.
  induction s as [|x s IH]; cbn [app].
  - rewrite growing_cons. split; [intros _; split; [constructor|intros u []]|intros _; split; [constructor|intros u []]].
  - rewrite !growing_cons, IH. split.
    + intros [[H1 H2] H3]. repeat split; auto. { intros u Hu. apply H3. apply in_or_app. auto. }
      intros u [<-|Hu]; auto. apply H3. apply in_or_app. cbn. auto.
    + intros [[H1 H2] H3]. repeat split; auto. { intros u Hu. apply H3. cbn. auto. }
      intros u Hu. apply in_app_or in Hu. destruct Hu as [Hu|[<-|[]]]; auto. apply H3. cbn. auto.
Qed.
Lemma growing_app {M} (s r : list (Z * M)) : growing (s ++ r) -> growing s /\ growing r /\ forall u v, In u s -> In v r -> fst u < fst v.
Proof.
  induction s as [|x s IH]; cbn [app]; intros H.
  - repeat split; auto. constructor. intros u v [].
  - apply growing_cons in H. destruct H as [H1 H2]. destruct (IH H1) as [I1 [I2 I3]]. repeat split; auto.
    + apply growing_cons. split; auto. intros u Hu. apply H2. apply in_or_app. auto.
    + intros u v [<-|Hu] Hv; auto. apply H2. apply in_or_app. auto.
Qed.
Lemma growing_inj {M} (s : list (Z * M)) u v : growing s -> In u s -> In v s -> fst u = fst v -> u = v.
Proof.
  induction s as [|x s IH]; intros H Hu Hv E; [destruct Hu|]. apply growing_cons in H. destruct H as [H1 H2].
  destruct Hu as [<-|Hu], Hv as [<-|Hv]; auto.
  - specialize (H2 _ Hv). lia.
  - specialize (H2 _ Hu). lia.
Qed.
Lemma growing_nodup {M} (s : list (Z * M)) : growing s -> NoDup (map fst s).
Proof.
  induction s as [|x s IH]; intros H; cbn [map]; constructor; apply growing_cons in H; destruct H as [H1 H2]; auto.
  intros K. apply in_map_iff in K. destruct K as [u [E Hu]]. specialize (H2 _ Hu). lia.
Qed.

(** ** The ordered map *)
Lemma in_put f t w u x : growing w -> (In (u, x) (put f t w) <-> (u = t /\ x = f (get t w)) \/ (u <> t /\ In (u, x) w)).
Proof.
  induction w as [|[v y] w IH]; intros G; cbn [put get In].
  - split; [intros [E|[]]; injection E as <- <-; auto|intros [[-> ->]|[_ []]]; auto].
  - apply growing_cons in G. destruct G as [G1 G2]. cbn [fst] in G2. destruct (Z.ltb_spec t v) as [L|L].
    + assert (E : forall w', (forall p, In p w' -> v < fst p) -> get t w' = (None, None)).
      { induction w' as [|[k z] w' IH']; cbn [get]; auto. intros K. destruct (Z.eqb_spec t k) as [->|_]; [specialize (K _ (or_introl eq_refl)); cbn in K; lia|].
        apply IH'. intros p Hp. apply K. now right. }
      destruct (Z.eqb_spec t v) as [->|_]; [lia|]. rewrite (E w G2). cbn [In]. split.
      * intros [K|[K|K]]; [injection K as <- <-; auto| |].
        { injection K as <- <-. right. split; [lia|auto]. } { right. specialize (G2 _ K). cbn in G2. split; [lia|auto]. }
      * intros [[-> ->]|[_ [K|K]]]; auto.
    + destruct (Z.eqb_spec t v) as [->|N]; cbn [In].
      * split.
        { intros [K|K]; [injection K as <- <-; auto|]. right. specialize (G2 _ K). cbn in G2. split; [lia|auto]. }
        { intros [[-> ->]|[H [K|K]]]; auto. injection K as <- <-. contradiction. }
      * rewrite IH by auto. split.
        { intros [K|[K|[H K]]]; auto. injection K as <- <-. right. split; [lia|auto]. }
        { intros [K|[H [K|K]]]; auto. }
Qed.
Lemma put_growing f t w : growing w -> growing (put f t w).
Proof.
  induction w as [|[v y] w IH]; intros G; cbn [put].
  - constructor; constructor.
  - pose proof G as G0. apply growing_cons in G. destruct G as [G1 G2]. cbn [fst] in G2. destruct (Z.ltb_spec t v) as [L|L].
    + apply growing_cons. split; auto. intros [u x] [K|K]; cbn [fst]; [injection K as <- <-; auto|]. specialize (G2 _ K). cbn in G2. lia.
    + destruct (Z.eqb_spec t v) as [->|N].
      * apply growing_cons. split; auto.
      * apply growing_cons. split; auto. intros [u x] K. apply in_put in K; auto. cbn [fst]. destruct K as [[-> _]|[_ K]]; [lia|]. apply (G2 _ K).
Qed.
Lemma get_in t x w : growing w -> In (t, x) w -> get t w = x.
Proof.
  induction w as [|[v y] w IH]; intros G K; [destruct K|]. apply growing_cons in G. destruct G as [G1 G2]. cbn [get fst] in *.
  destruct K as [K|K]; [injection K as -> ->; now rewrite Z.eqb_refl|]. specialize (G2 _ K) as N. cbn in N.
  destruct (Z.eqb_spec t v); [lia|]. auto.
Qed.
Lemma get_none t w : (forall x, ~ In (t, x) w) -> get t w = (None, None).
Proof.
  induction w as [|[v y] w IH]; intros H; cbn [get]; auto. destruct (Z.eqb_spec t v) as [->|N]; [now destruct (H y); left|].
  apply IH. intros x K. apply (H x). now right.
Qed.
Lemma get_put f t w : growing w -> get t (put f t w) = f (get t w).
Proof. intros G. apply get_in; [now apply put_growing|]. apply in_put; auto. Qed.
Lemma in_clear t w u x : growing w -> (In (u, x) (clear_old t w) <-> t < u /\ In (u, x) w).
Proof.
  induction w as [|[v y] w IH]; intros G; cbn [clear_old In]; [tauto|]. pose proof G as G0. apply growing_cons in G. destruct G as [G1 G2]. cbn [fst] in G2.
  destruct (Z.leb_spec v t).
  - rewrite IH by auto. split; [tauto|]. intros [L [K|K]]; auto. injection K as <- <-. lia.
  - cbn [In]. split; [|tauto]. intros [K|K]; [injection K as <- <-; auto|]. specialize (G2 _ K). cbn in G2. split; [lia|auto].
Qed.
Lemma clear_growing t w : growing w -> growing (clear_old t w).
Proof.
  induction w as [|[v y] w IH]; intros G; cbn [clear_old]; auto. pose proof G as G0. apply growing_cons in G. destruct G as [G1 _]. destruct (v <=? t); auto.
Qed.
Lemma limit_small q w : (length w <= q)%nat -> limit q w = w.
Proof. intros H. unfold limit. replace (length w - q)%nat with 0%nat by lia. reflexivity. Qed.
Lemma limit_in q w p : In p (limit q w) -> In p w.
Proof. unfold limit. intros H. rewrite <- (firstn_skipn (length w - q) w). apply in_or_app. auto. Qed.
Lemma limit_growing q w : growing w -> growing (limit q w).
Proof. unfold limit. intros G. rewrite <- (firstn_skipn (length w - q) w) in G. apply growing_app in G. tauto. Qed.

Lemma run_app q (w : waiting_set A B) l r : sync_run q w (l ++ r) =
  (fst (sync_run q (fst (sync_run q w l)) r), snd (sync_run q w l) ++ snd (sync_run q (fst (sync_run q w l)) r)).
Proof.
  revert w. induction l as [|e l IH]; intros w; cbn [app sync_run fst snd].
  - now destruct (sync_run q w r).
  - destruct (sync_add q w e) as [w' o]. rewrite IH. destruct (sync_run q w' l) as [w'' o']. cbn [fst snd]. now rewrite app_assoc.
Qed.

(** ** The two streams *)
Definition lone {M N : Type} (x : list (Z * M)) (y : list (Z * N)) (t : Z) : Prop :=
  (forall n, In n y -> fst n <> t) /\ (forall m n, In m x -> In n y -> fst n = fst m -> fst m < t).
Lemma lonely_iff {M N} (x : list (Z * M)) (y : list (Z * N)) t : lonely x y t = true <-> lone x y t.
Proof.
  unfold lonely, lone. rewrite andb_true_iff, !forallb_forall. split; intros [H1 H2]; split.
  - intros n Hn E. specialize (H1 n Hn). apply negb_true_iff, Z.eqb_neq in H1. auto.
  - intros m n Hm Hn E. specialize (H2 m Hm). apply orb_true_iff in H2. destruct H2 as [H2|H2]; [now apply Z.ltb_lt|].
    rewrite forallb_forall in H2. specialize (H2 n Hn). apply negb_true_iff, Z.eqb_neq in H2. contradiction.
  - intros n Hn. apply negb_true_iff, Z.eqb_neq. auto.
  - intros m Hm. apply orb_true_iff. destruct (Z.ltb_spec (fst m) t); [auto|right]. apply forallb_forall. intros n Hn.
    apply negb_true_iff, Z.eqb_neq. intros E. specialize (H2 m n Hm Hn E). lia.
Qed.
Definition holds (x : list (Z * A)) (y : list (Z * B)) w : Prop :=
  growing w /\
  (forall t c, In (t, c) w <-> (exists a, In (t, a) x /\ c = (Some a, None) /\ lone x y t) \/ (exists b, In (t, b) y /\ c = (None, Some b) /\ lone y x t)).

Lemma holds_length x y w : growing x -> growing y -> holds x y w -> (length w <= waiting x y)%nat.
Proof.
  intros GX GY [G H]. unfold waiting. rewrite <- (map_length fst w), <- (map_length fst (filter _ x)), <- (map_length fst (filter _ y)), <- app_length.
  apply NoDup_incl_length; [now apply growing_nodup|]. intros t K. apply in_map_iff in K. destruct K as [[u c] [E K]]. cbn in E. subst u.
  apply H in K. apply in_or_app. destruct K as [[a [K [_ L]]]|[b [K [_ L]]]]; [left|right]; apply in_map_iff.
  - exists (t, a). split; auto. apply filter_In. split; auto. now apply lonely_iff.
  - exists (t, b). split; auto. apply filter_In. split; auto. now apply lonely_iff.
Qed.

Lemma filter_none {M} (f : M -> bool) (s : list M) : (forall m, In m s -> f m = false) -> filter f s = [].
Proof. induction s as [|m s IH]; cbn; intros H; auto. rewrite (H m) by auto. auto. Qed.
Lemma filter_one {M} (s : list (Z * M)) t m : growing s -> In (t, m) s -> filter (fun n => fst n =? t) s = [(t, m)].
Proof.
  induction s as [|x s IH]; intros G K; [destruct K|]. apply growing_cons in G. destruct G as [G1 G2]. cbn [filter].
  destruct K as [->|K].
  - cbn [fst]. rewrite Z.eqb_refl. rewrite filter_none; auto. intros n Hn. specialize (G2 _ Hn). cbn in G2. apply Z.eqb_neq. lia.
  - specialize (G2 _ K) as N. cbn in N. destruct (Z.eqb_spec (fst x) t); [lia|]. auto.
Qed.
Lemma pairs_none (x : list (Z * A)) (y : list (Z * B)) : (forall m n, In m x -> In n y -> fst n <> fst m) -> pairs x y = [].
Proof.
  unfold pairs. induction x as [|m x IH]; cbn [flat_map]; intros H; auto. rewrite filter_none, IH; auto.
  - intros m' n Hm Hn. apply H; auto. now right.
  - intros n Hn. apply Z.eqb_neq. apply H; auto. now left.
Qed.
Lemma pairs_first x y t (a : A) (b : B) : growing y -> In (t, b) y -> pairs (x ++ [(t, a)]) y = pairs x y ++ [(t, a, b)].
Proof.
  intros G K. unfold pairs. rewrite flat_map_app. cbn [flat_map app fst snd]. rewrite (filter_one _ _ _ G K). reflexivity.
Qed.
Lemma pairs_first_none x (y : list (Z * B)) t (a : A) : (forall n, In n y -> fst n <> t) -> pairs (x ++ [(t, a)]) y = pairs x y.
Proof.
  intros H. unfold pairs. rewrite flat_map_app. cbn [flat_map app fst]. rewrite filter_none; [cbn; now rewrite app_nil_r|].
  intros n Hn. apply Z.eqb_neq. auto.
Qed.
Lemma pairs_second_none (x : list (Z * A)) y t (b : B) : (forall m, In m x -> fst m <> t) -> pairs x (y ++ [(t, b)]) = pairs x y.
Proof.
  unfold pairs. induction x as [|m x IH]; cbn [flat_map]; intros H; auto. rewrite IH by (intros; apply H; now right). f_equal.
  rewrite filter_app. cbn [filter fst]. destruct (Z.eqb_spec t (fst m)) as [E|_]; [|now rewrite app_nil_r].
  exfalso. now apply (H m); [left|].
Qed.
Lemma pairs_second x y t (a : A) (b : B) : growing x -> In (t, a) x -> (forall n, In n y -> fst n < t) -> pairs x (y ++ [(t, b)]) = pairs x y ++ [(t, a, b)].
Proof.
  intros G K HY. apply in_split in K. destruct K as [x1 [x2 ->]]. apply growing_app in G. destruct G as [G1 [G2 G3]]. apply growing_cons in G2. destruct G2 as [G2 G4]. cbn in G4.
  assert (P1 : pairs x1 (y ++ [(t, b)]) = pairs x1 y).
  { apply pairs_second_none. intros m Hm E. specialize (G3 m (t, a) Hm (or_introl eq_refl)). cbn in G3. lia. }
  assert (P2 : forall z : list (Z * B), (forall n, In n z -> fst n <= t) -> pairs x2 z = []).
  { intros z Hz. apply pairs_none. intros m n Hm Hn E. specialize (G4 _ Hm). specialize (Hz _ Hn). lia. }
  unfold pairs in *. rewrite !flat_map_app. cbn [flat_map fst snd]. rewrite P1, !P2.
  - rewrite filter_app. cbn [filter fst]. rewrite Z.eqb_refl. rewrite (filter_none _ y).
    + cbn. rewrite app_nil_r. reflexivity.
    + intros n Hn. apply Z.eqb_neq. specialize (HY _ Hn). lia.
  - intros n Hn. specialize (HY _ Hn). lia.
  - intros n Hn. apply in_app_or in Hn. destruct Hn as [Hn|[<-|[]]]; [|cbn; lia]. specialize (HY _ Hn). lia.
Qed.

Lemma in_dec_stamp {M} (s : list (Z * M)) t : (exists m, In (t, m) s) \/ (forall n, In n s -> fst n <> t).
Proof.
  induction s as [|[u m] s IH]; [right; intros n []|]. destruct (Z.eq_dec u t) as [->|N]; [left; exists m; now left|].
  destruct IH as [[m' H]|H]; [left; exists m'; now right|right]. intros n [<-|Hn]; auto.
Qed.

Lemma step_first q x y w t a : growing (x ++ [(t, a)]) -> growing y -> holds x y w -> (waiting (x ++ [(t, a)]) y <= q)%nat ->
  exists w', sync_add q w (First t a) = (w', skipn (length (pairs x y)) (pairs (x ++ [(t, a)]) y)) /\
    pairs (x ++ [(t, a)]) y = pairs x y ++ skipn (length (pairs x y)) (pairs (x ++ [(t, a)]) y) /\ holds (x ++ [(t, a)]) y w'.
Proof.
  intros GX' GY [G H] HQ. pose proof GX' as GX0. apply growing_snoc in GX0. destruct GX0 as [GX LT]. cbn [fst] in LT.
  assert (NX : forall m, In m x -> fst m <> t) by (intros m Hm E; specialize (LT _ Hm); lia).
  destruct (in_dec_stamp y t) as [[b Hb]|Hn].
  - assert (Hw : In (t, (None, Some b)) w).
    { apply H. right. exists b. repeat split; auto. intros m n Hm Hn E. specialize (LT _ Hn). lia. }
    assert (HH : holds (x ++ [(t, a)]) y (clear_old t (put (fun p => (Some a, snd p)) t w))).
    { split; [apply clear_growing, put_growing; auto|]. intros u c. rewrite in_clear by now apply put_growing. rewrite in_put by auto. split.
      - intros [L [[-> _]|[N K]]]; [lia|]. apply H in K. destruct K as [[a' [K _]]|[b' [K [-> [L1 L2]]]]].
        + specialize (LT _ K). cbn in LT. lia.
        + right. exists b'. repeat split; auto.
          * intros n Hn. apply in_app_or in Hn. destruct Hn as [Hn|[<-|[]]]; auto.
          * intros m n Hm Hn E. apply in_app_or in Hn. destruct Hn as [Hn|[<-|[]]]; eauto. cbn in E. lia.
      - intros [[a' [K [-> [L1 L2]]]]|[b' [K [-> [L1 L2]]]]].
        + exfalso. specialize (L2 (t, a) (t, b)). cbn in L2. assert (t < u) by (apply L2; auto; apply in_or_app; cbn; auto).
          apply in_app_or in K. destruct K as [K|[K|[]]]; [specialize (LT _ K); cbn in LT; lia|]. injection K as <- _. lia.
        + assert (t < u) by (apply (L2 (t, b) (t, a)); auto; apply in_or_app; cbn; auto). split; auto. right. split; [lia|]. apply H. right.
          exists b'. repeat split; auto.
          * intros n Hn. apply L1. apply in_or_app. auto.
          * intros m n Hm Hn E. apply (L2 m n); auto. apply in_or_app. auto. }
    eexists. unfold sync_add. rewrite get_put, (get_in _ _ _ G Hw) by auto. cbn [snd].
    rewrite (limit_small q) by (etransitivity; [eapply holds_length; [exact GX'|exact GY|exact HH]|exact HQ]).
    rewrite (pairs_first _ _ _ _ _ GY Hb), skipn_app, skipn_all, Nat.sub_diag. cbn [app skipn]. split; [reflexivity|]. split; auto.
  - assert (Hw : get t w = (None, None)).
    { apply get_none. intros c K. apply H in K. destruct K as [[a' [K _]]|[b' [K _]]]; [apply (NX _ K eq_refl)|apply (Hn _ K eq_refl)]. }
    assert (HH : holds (x ++ [(t, a)]) y (put (fun p => (Some a, snd p)) t w)).
    { split; [apply put_growing; auto|]. intros u c. rewrite in_put by auto. rewrite Hw. cbn [snd]. split.
      - intros [[-> ->]|[N K]].
        + left. exists a. repeat split; auto. { apply in_or_app. cbn. auto. }
          intros m n Hm Hn' E. apply in_app_or in Hm. destruct Hm as [Hm|[<-|[]]]; auto. cbn in E. exfalso. apply (Hn _ Hn' E).
        + apply H in K. destruct K as [[a' [K [-> [L1 L2]]]]|[b' [K [-> [L1 L2]]]]].
          * left. exists a'. repeat split; auto. { apply in_or_app. auto. }
            intros m n Hm Hn' E. apply in_app_or in Hm. destruct Hm as [Hm|[<-|[]]]; eauto. cbn in E. exfalso. apply (Hn _ Hn' E).
          * right. exists b'. repeat split; auto.
            { intros n Hn'. apply in_app_or in Hn'. destruct Hn' as [Hn'|[<-|[]]]; auto. }
            intros m n Hm Hn' E. apply in_app_or in Hn'. destruct Hn' as [Hn'|[<-|[]]]; eauto. cbn in E. exfalso. apply (Hn _ Hm). auto.
      - intros [[a' [K [-> [L1 L2]]]]|[b' [K [-> [L1 L2]]]]].
        + apply in_app_or in K. destruct K as [K|[K|[]]]; [right|left; injection K as <- <-; auto]. specialize (NX _ K) as N. split; auto. apply H. left.
          exists a'. repeat split; auto. intros m n Hm Hn' E. apply (L2 m n); auto. apply in_or_app. auto.
        + right. split; [apply (Hn _ K)|]. apply H. right. exists b'. repeat split; auto.
          * intros n Hn'. apply L1. apply in_or_app. auto.
          * intros m n Hm Hn' E. apply (L2 m n); auto. apply in_or_app. auto. }
    eexists. unfold sync_add. rewrite get_put, Hw by auto. cbn [snd].
    rewrite (limit_small q) by (etransitivity; [eapply holds_length; [exact GX'|exact GY|exact HH]|exact HQ]).
    rewrite (pairs_first_none _ _ _ _ Hn), skipn_all, app_nil_r. split; [reflexivity|]. split; auto.
Qed.

Lemma step_second q x y w t b : growing x -> growing (y ++ [(t, b)]) -> holds x y w -> (waiting x (y ++ [(t, b)]) <= q)%nat ->
  exists w', sync_add q w (Second t b) = (w', skipn (length (pairs x y)) (pairs x (y ++ [(t, b)]))) /\
    pairs x (y ++ [(t, b)]) = pairs x y ++ skipn (length (pairs x y)) (pairs x (y ++ [(t, b)])) /\ holds x (y ++ [(t, b)]) w'.
Proof.
  intros GX GY' [G H] HQ. pose proof GY' as GY0. apply growing_snoc in GY0. destruct GY0 as [GY LT]. cbn [fst] in LT.
  assert (NY : forall m, In m y -> fst m <> t) by (intros m Hm E; specialize (LT _ Hm); lia).
  destruct (in_dec_stamp x t) as [[a Ha]|Hn].
  - assert (Hw : In (t, (Some a, None)) w).
    { apply H. left. exists a. repeat split; auto. intros m n Hm Hn E. specialize (LT _ Hn). lia. }
    assert (HH : holds x (y ++ [(t, b)]) (clear_old t (put (fun p => (fst p, Some b)) t w))).
    { split; [apply clear_growing, put_growing; auto|]. intros u c. rewrite in_clear by now apply put_growing. rewrite in_put by auto. split.
      - intros [L [[-> _]|[N K]]]; [lia|]. apply H in K. destruct K as [[a' [K [-> [L1 L2]]]]|[b' [K _]]].
        + left. exists a'. repeat split; auto.
          * intros n Hn. apply in_app_or in Hn. destruct Hn as [Hn|[<-|[]]]; auto.
          * intros m n Hm Hn E. apply in_app_or in Hn. destruct Hn as [Hn|[<-|[]]]; eauto. cbn in E. lia.
        + specialize (LT _ K). cbn in LT. lia.
      - intros [[a' [K [-> [L1 L2]]]]|[b' [K [-> [L1 L2]]]]].
        + assert (t < u) by (apply (L2 (t, a) (t, b)); auto; apply in_or_app; cbn; auto). split; auto. right. split; [lia|]. apply H. left.
          exists a'. repeat split; auto.
          * intros n Hn. apply L1. apply in_or_app. auto.
          * intros m n Hm Hn E. apply (L2 m n); auto. apply in_or_app. auto.
        + exfalso. specialize (L2 (t, b) (t, a)). cbn in L2. assert (t < u) by (apply L2; auto; apply in_or_app; cbn; auto).
          apply in_app_or in K. destruct K as [K|[K|[]]]; [specialize (LT _ K); cbn in LT; lia|]. injection K as <- _. lia. }
    eexists. unfold sync_add. rewrite get_put, (get_in _ _ _ G Hw) by auto. cbn [fst].
    rewrite (limit_small q) by (etransitivity; [eapply holds_length; [exact GX|exact GY'|exact HH]|exact HQ]).
    rewrite (pairs_second _ _ _ _ _ GX Ha LT), skipn_app, skipn_all, Nat.sub_diag. cbn [app skipn]. split; [reflexivity|]. split; auto.
  - assert (Hw : get t w = (None, None)).
    { apply get_none. intros c K. apply H in K. destruct K as [[a' [K _]]|[b' [K _]]]; [apply (Hn _ K eq_refl)|apply (NY _ K eq_refl)]. }
    assert (HH : holds x (y ++ [(t, b)]) (put (fun p => (fst p, Some b)) t w)).
    { split; [apply put_growing; auto|]. intros u c. rewrite in_put by auto. rewrite Hw. cbn [fst]. split.
      - intros [[-> ->]|[N K]].
        + right. exists b. repeat split; auto. { apply in_or_app. cbn. auto. }
          intros m n Hm Hn' E. apply in_app_or in Hm. destruct Hm as [Hm|[<-|[]]]; auto. cbn in E. exfalso. apply (Hn _ Hn' E).
        + apply H in K. destruct K as [[a' [K [-> [L1 L2]]]]|[b' [K [-> [L1 L2]]]]].
          * left. exists a'. repeat split; auto.
            { intros n Hn'. apply in_app_or in Hn'. destruct Hn' as [Hn'|[<-|[]]]; auto. }
            intros m n Hm Hn' E. apply in_app_or in Hn'. destruct Hn' as [Hn'|[<-|[]]]; eauto. cbn in E. exfalso. apply (Hn _ Hm). auto.
          * right. exists b'. repeat split; auto. { apply in_or_app. auto. }
            intros m n Hm Hn' E. apply in_app_or in Hm. destruct Hm as [Hm|[<-|[]]]; eauto. cbn in E. exfalso. apply (Hn _ Hn' E).
      - intros [[a' [K [-> [L1 L2]]]]|[b' [K [-> [L1 L2]]]]].
        + right. split; [apply (Hn _ K)|]. apply H. left. exists a'. repeat split; auto.
          * intros n Hn'. apply L1. apply in_or_app. auto.
          * intros m n Hm Hn' E. apply (L2 m n); auto. apply in_or_app. auto.
        + apply in_app_or in K. destruct K as [K|[K|[]]]; [right|left; injection K as <- <-; auto]. specialize (NY _ K) as N. split; auto. apply H. right.
          exists b'. repeat split; auto. intros m n Hm Hn' E. apply (L2 m n); auto. apply in_or_app. auto. }
    eexists. unfold sync_add. rewrite get_put, Hw by auto. cbn [fst].
    rewrite (limit_small q) by (etransitivity; [eapply holds_length; [exact GX|exact GY'|exact HH]|exact HQ]).
    rewrite (pairs_second_none _ _ _ _ Hn), skipn_all, app_nil_r. split; [reflexivity|]. split; auto.
Qed.

Lemma firsts_app (l r : list event) : firsts (l ++ r) = firsts l ++ firsts r.
Proof. apply flat_map_app. Qed.
Lemma seconds_app (l r : list event) : seconds (l ++ r) = seconds l ++ seconds r.
Proof. apply flat_map_app. Qed.

Theorem run_pairs q (l : list event) : growing (firsts l) -> growing (seconds l) -> never_more_than q l ->
  holds (firsts l) (seconds l) (fst (sync_run q [] l)) /\ snd (sync_run q [] l) = pairs (firsts l) (seconds l).
Proof.
  induction l as [|e l IH] using rev_ind; intros G1 G2 HQ.
  - split; [|reflexivity]. split; [constructor|]. intros t c. split; [intros []|intros [[a [[] _]]|[b [[] _]]]].
  - rewrite firsts_app, seconds_app in *.
    assert (H1 : growing (firsts l)) by (apply growing_app in G1; tauto). assert (H2 : growing (seconds l)) by (apply growing_app in G2; tauto).
    destruct (IH H1 H2) as [I1 I2]. { intros p r E. apply (HQ p (r ++ [e])). rewrite E. now rewrite app_assoc. }
    specialize (HQ (l ++ [e]) [] (eq_sym (app_nil_r _))). rewrite firsts_app, seconds_app in HQ. rewrite run_app, I2. cbn [fst snd sync_run].
    destruct e as [t a|t b]; cbn [firsts seconds flat_map app] in *; rewrite ?app_nil_r in *.
    + destruct (step_first q _ _ _ t a G1 H2 I1 HQ) as [w' [E [P K]]]. rewrite E. cbn [fst snd]. rewrite app_nil_r. auto.
    + destruct (step_second q _ _ _ t b H1 G2 I1 HQ) as [w' [E [P K]]]. rewrite E. cbn [fst snd]. rewrite app_nil_r. auto.
Qed.
End Proofs.
