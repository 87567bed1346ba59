(** Property C138: the messages of one scan reach the lidar localizer and the map builder
    together. *)
From Coq Require Import String List ZArith Bool Sorted Lia PeanoNat.
From Verif Require Import SyncModel SpecSync SyncProofs.
Import ListNotations.
Notation length := List.length.
Open Scope Z_scope.

Section Sync.
Variable A B : Type.
Notation event := (arrival A B).

(** Two streams with growing stamps, arriving in any interleaving, with any messages missing on
    either side: as long as never more messages wait than the queue holds, the callbacks are
    made for the pairs with equal stamps, each once and in order. *)
Theorem C138_pairs q (l : list event) : growing (firsts l) -> growing (seconds l) -> never_more_than q l ->
  callbacks q l = pairs (firsts l) (seconds l).
Proof. intros H1 H2 H3. apply (run_pairs A B q l H1 H2 H3). Qed.

Lemma filter_length_le {M} (f : M -> bool) s : (length (filter f s) <= length s)%nat.
Proof. induction s as [|m s IH]; cbn; auto. destruct (f m); cbn; lia. Qed.
Lemma partners {M N} (x : list (Z * M)) (y : list (Z * N)) r k : map fst x ++ r = map fst y ++ k -> (length x <= length y)%nat ->
  filter (fun m => lonely x y (fst m)) x = [] /\ (length (filter (fun n => lonely y x (fst n)) y) <= length y - length x)%nat.
Proof.
  intros E L.
  assert (P : map fst x = firstn (length x) (map fst y)).
  { apply (f_equal (firstn (length x))) in E. rewrite !firstn_app, !map_length in E. replace (length x - length y)%nat with 0%nat in E by lia. cbn [firstn] in E.
    rewrite app_nil_r, Nat.sub_diag in E. cbn [firstn] in E. rewrite app_nil_r in E. rewrite firstn_all2 in E by (rewrite map_length; lia). exact E. }
  assert (P1 : forall m, In m x -> exists n, In n y /\ fst n = fst m).
  { intros m Hm. apply (in_map fst) in Hm. rewrite P in Hm. rewrite firstn_map in Hm. apply in_map_iff in Hm. destruct Hm as [n [En Hn]]. exists n. split; auto.
    rewrite <- (firstn_skipn (length x) y). apply in_or_app. auto. }
  assert (P2 : forall n, In n (firstn (length x) y) -> exists m, In m x /\ fst m = fst n).
  { intros n Hn. apply (in_map fst) in Hn. rewrite <- firstn_map, <- P in Hn. apply in_map_iff in Hn. destruct Hn as [m [Em Hm]]. eauto. }
  split.
  - apply filter_none. intros m Hm. apply not_true_iff_false. intros K. apply lonely_iff in K. destruct (P1 m Hm) as [n [Hn En]]. now apply (proj1 K n Hn).
  - set (f := fun n => lonely y x (fst n)). rewrite <- (firstn_skipn (length x) y) at 1. rewrite filter_app, filter_none.
    + cbn [app]. rewrite filter_length_le, skipn_length. lia.
    + intros n Hn. apply not_true_iff_false. intros K. apply lonely_iff in K. destruct (P2 n Hn) as [m [Hm Em]]. now apply (proj1 K m Hm).
Qed.
Lemma pairs_combine (x : list (Z * A)) (y : list (Z * B)) : growing x -> map fst x = map fst y ->
  pairs x y = map (fun p => (fst (fst p), snd (fst p), snd (snd p))) (combine x y).
Proof.
  revert y. induction x as [|[t a] x IH]; intros [|[u b] y] G E; cbn [map] in E; try discriminate; auto.
  injection E as <- E. apply growing_cons in G. destruct G as [G1 G2]. cbn [fst] in G2.
  cbn [combine map fst snd]. rewrite <- IH by auto. unfold pairs. cbn [flat_map fst snd filter]. rewrite Z.eqb_refl. cbn [map snd app].
  assert (N : filter (fun n : Z * B => fst n =? t) y = []).
  { apply filter_none. intros n Hn. apply Z.eqb_neq. intros K. apply (in_map fst) in Hn. rewrite <- E in Hn. apply in_map_iff in Hn. destruct Hn as [m [Em Hm]].
    specialize (G2 _ Hm). lia. }
  rewrite N. cbn [map app]. f_equal.
  clear - G2. induction x as [|m x IH]; cbn [flat_map]; auto. rewrite IH by (intros u Hu; apply G2; now right). f_equal.
  cbn [filter fst]. destruct (Z.eqb_spec t (fst m)) as [K|_]; auto. specialize (G2 _ (or_introl eq_refl)). lia.
Qed.

(** If every scan has both messages, all scans are handed over, each once and in order, as long
    as neither stream runs ahead of the other by more than the queue holds. *)
Theorem C138_every_scan q (l : list event) : growing (firsts l) -> map fst (firsts l) = map fst (seconds l) ->
  (forall p r, l = p ++ r -> (length (firsts p) <= length (seconds p) + q /\ length (seconds p) <= length (firsts p) + q)%nat) ->
  callbacks q l = map (fun p => (fst (fst p), snd (fst p), snd (snd p))) (combine (firsts l) (seconds l)).
Proof.
  intros G E HQ. rewrite C138_pairs; auto.
  - now apply pairs_combine.
  - unfold growing. rewrite <- E. exact G.
  - intros p r El. destruct (HQ p r El) as [Q1 Q2]. subst l. rewrite firsts_app, seconds_app, !map_app in E. unfold waiting.
    destruct (Nat.le_ge_cases (length (firsts p)) (length (seconds p))) as [L|L].
    + destruct (partners _ _ _ _ E L) as [-> H]. cbn [length]. lia.
    + destruct (partners _ _ _ _ (eq_sym E) L) as [-> H]. cbn [length]. lia.
Qed.

(** With the queues of the repository: ten messages in the lidar localizer, a thousand in the map
    builder. *)
Theorem C138_localizer (l : list event) : growing (firsts l) -> map fst (firsts l) = map fst (seconds l) ->
  (forall p r, l = p ++ r -> (length (firsts p) <= length (seconds p) + 10 /\ length (seconds p) <= length (firsts p) + 10)%nat) ->
  callbacks localizer_queue l = map (fun p => (fst (fst p), snd (fst p), snd (snd p))) (combine (firsts l) (seconds l)).
Proof. exact (C138_every_scan localizer_queue l). Qed.
Theorem C138_mapping (l : list event) : growing (firsts l) -> map fst (firsts l) = map fst (seconds l) ->
  (forall p r, l = p ++ r -> (length (firsts p) <= length (seconds p) + 1000 /\ length (seconds p) <= length (firsts p) + 1000)%nat) ->
  callbacks mapping_queue l = map (fun p => (fst (fst p), snd (fst p), snd (snd p))) (combine (firsts l) (seconds l)).
Proof. exact (C138_every_scan mapping_queue l). Qed.

(** Whatever arrives: a callback is only made with two messages with the stamp, both received. *)
Lemma run_sound q (l : list event) : growing (fst (sync_run q [] l)) /\
  (forall t c, In (t, c) (fst (sync_run q [] l)) ->
     (forall a, fst c = Some a -> In (First t a) l) /\ (forall b, snd c = Some b -> In (Second t b) l)) /\
  (forall t a b, In (t, a, b) (snd (sync_run q [] l)) -> In (First t a) l /\ In (Second t b) l).
Proof.
  induction l as [|e l IH] using rev_ind; [split; [constructor|split; [intros t c []|intros t a b []]]|].
  destruct IH as [G [I1 I2]]. rewrite run_app. cbn [fst snd sync_run]. remember (fst (sync_run q [] l)) as w eqn:Ew. clear Ew.
  set (tf := match e with First t a => (t, fun x : option A * option B => (Some a, snd x)) | Second t b => (t, fun x => (fst x, Some b)) end).
  assert (P : forall t c, In (t, c) (put (snd tf) (fst tf) w) ->
     (forall a, fst c = Some a -> In (First t a) (l ++ [e])) /\ (forall b, snd c = Some b -> In (Second t b) (l ++ [e]))).
  { assert (GG : forall t, (forall a, fst (get t w) = Some a -> In (First t a) l) /\ (forall b, snd (get t w) = Some b -> In (Second t b) l)).
    { intros t. assert (D : (exists c, In (t, c) w) \/ get t w = (None, None)).
      { clear. induction w as [|[u c] w IH]; [now right|]. cbn [get]. destruct (Z.eqb_spec t u) as [->|_]; [left; exists c; now left|].
        destruct IH as [[c' H]|H]; [left; exists c'; now right|now right]. }
      destruct D as [[c Hc]| ->]; [|split; discriminate]. rewrite (get_in _ _ _ _ _ G Hc). apply I1. exact Hc. }
    intros t c K. apply in_put in K; auto. destruct K as [[-> ->]|[_ K]].
    - destruct (GG (fst tf)) as [H1 H2]. subst tf. destruct e as [t a|t b]; cbn [fst snd] in *; split; intros z Hz; apply in_or_app; auto.
      + injection Hz as <-. right. now left.
      + injection Hz as <-. right. now left.
    - destruct (I1 _ _ K) as [H1 H2]. split; intros z Hz; apply in_or_app; auto. }
  assert (AE : sync_add q w e = (match get (fst tf) (put (snd tf) (fst tf) w) with
     | (Some a, Some b) => (limit q (clear_old (fst tf) (put (snd tf) (fst tf) w)), [(fst tf, a, b)]) | _ => (limit q (put (snd tf) (fst tf) w), []) end)).
  { unfold sync_add. fold tf. destruct tf as [t f]. reflexivity. }
  assert (GP : growing (put (snd tf) (fst tf) w)) by now apply put_growing.
  assert (GT : In (fst tf, get (fst tf) (put (snd tf) (fst tf) w)) (put (snd tf) (fst tf) w)).
  { rewrite get_put by auto. apply in_put; auto. }
  destruct (get (fst tf) (put (snd tf) (fst tf) w)) as [[a|] [b|]] eqn:EG; rewrite AE; cbn [fst snd]; rewrite ?app_nil_r.
  1: split; [apply limit_growing, clear_growing; auto|]; split.
  1: intros t c K; apply limit_in in K; apply in_clear in K; auto; apply P; tauto.
  1: { intros t x y K. apply in_app_or in K. destruct K as [K|[K|[]]].
       - destruct (I2 _ _ _ K). split; apply in_or_app; auto.
       - injection K as <- <- <-. destruct (P _ _ GT) as [P1 P2]. split; [apply P1|apply P2]; reflexivity. }
  all: split; [apply limit_growing; auto|]; split; [intros t c K; apply limit_in in K; now apply P|].
  all: intros t x y K; destruct (I2 _ _ _ K); split; apply in_or_app; auto.
Qed.
Theorem C138_same_scan q (l : list event) t a b : In (t, a, b) (callbacks q l) -> In (First t a) l /\ In (Second t b) l.
Proof. apply (run_sound q l). Qed.

(** Whatever arrives: no message is handed over twice. *)
Lemma get_sub (w w' : waiting_set A B) t : growing w -> (forall p, In p w' -> In p w) -> get t w' = get t w \/ get t w' = (None, None).
Proof.
  intros G H. assert (D : (exists c, In (t, c) w' /\ get t w' = c) \/ get t w' = (None, None)).
  { clear. induction w' as [|[u c] w' IH]; [now right|]. cbn [get]. destruct (Z.eqb_spec t u) as [->|_]; [left; exists c; split; [now left|reflexivity]|].
    destruct IH as [[c' [H E]]|H]; [left; exists c'; split; [now right|auto]|now right]. }
  destruct D as [[c [Hc E]]|D]; auto. left. rewrite E. symmetry. apply get_in; auto.
Qed.
Lemma get_put_other f t u (w : waiting_set A B) : growing w -> u <> t -> get u (put f t w) = get u w.
Proof.
  intros G N. destruct (in_dec_stamp w u) as [[c Hc]|H].
  - rewrite (get_in _ _ _ _ _ G Hc). apply get_in; [now apply put_growing|]. apply in_put; auto.
  - rewrite (get_none _ _ u w); [|intros x Hx; now apply (H _ Hx)]. apply get_none. intros x Hx. apply in_put in Hx; auto.
    destruct Hx as [[-> _]|[_ Hx]]; [contradiction|]. now apply (H _ Hx).
Qed.
Definition count {M} (t : Z) (stamp : M -> Z) (s : list M) : nat := length (filter (fun m => stamp m =? t) s).
Lemma count_app {M} t (stamp : M -> Z) s r : count t stamp (s ++ r) = (count t stamp s + count t stamp r)%nat.
Proof. unfold count. rewrite filter_app, app_length. reflexivity. Qed.
Definition has {M} (o : option M) : nat := match o with Some _ => 1 | None => 0 end.
Lemma run_once q (l : list event) t :
  (count t (fun c => fst (fst c)) (snd (sync_run q [] l)) + has (fst (get t (fst (sync_run q [] l)))) <= count t fst (firsts l))%nat /\
  (count t (fun c => fst (fst c)) (snd (sync_run q [] l)) + has (snd (get t (fst (sync_run q [] l)))) <= count t fst (seconds l))%nat.
Proof.
  induction l as [|e l IH] using rev_ind; [cbn; split; lia|].
  pose proof (proj1 (run_sound q l)) as G. rewrite run_app, firsts_app, seconds_app. cbn [fst snd sync_run]. rewrite !count_app.
  destruct (sync_run q [] l) as [w out]. cbn [fst snd] in *. rewrite ?count_app.
  assert (S1 : forall f u, (get t (limit q (put f u w)) = get t (put f u w) \/ get t (limit q (put f u w)) = (None, None))).
  { intros f u. apply get_sub; [now apply put_growing|apply limit_in]. }
  assert (S2 : forall f u, (get t (limit q (clear_old u (put f u w))) = get t (put f u w) /\ t <> u \/ get t (limit q (clear_old u (put f u w))) = (None, None))).
  { intros f u. destruct (Z.eq_dec t u) as [->|N].
    - right. apply get_none. intros x Hx. apply limit_in in Hx. apply in_clear in Hx; [lia|]. now apply put_growing.
    - destruct (get_sub (put f u w) (limit q (clear_old u (put f u w))) t) as [K|K]; auto; [now apply put_growing|].
      intros [v y] Hp. apply limit_in in Hp. apply in_clear in Hp; [tauto|]. now apply put_growing. }
  assert (C1 : forall {M} (k : Z * M), count t fst [k] = if fst k =? t then 1%nat else 0%nat) by (intros M k; unfold count; cbn; now destruct (fst k =? t)).
  assert (C2 : forall u (a : A) (b : B), count t (fun c : Z * A * B => fst (fst c)) [(u, a, b)] = if u =? t then 1%nat else 0%nat) by (intros; unfold count; cbn; now destruct (u =? t)).
  assert (C0 : count t (fun c : Z * A * B => fst (fst c)) [] = 0%nat) by reflexivity.
  assert (C3 : count t (@fst Z A) [] = 0%nat) by reflexivity.
  assert (C4 : count t (@fst Z B) [] = 0%nat) by reflexivity.
  destruct e as [u a|u b]; cbn [firsts seconds flat_map app sync_add]; rewrite get_put by auto; cbn [fst snd].
  - specialize (S1 (fun x => (Some a, snd x)) u). specialize (S2 (fun x => (Some a, snd x)) u).
    destruct (Z.eqb_spec u t) as [->|N].
    + rewrite get_put in S1, S2 by auto.
      destruct (snd (get t w)) as [b|] eqn:EB; cbn [fst snd]; rewrite ?app_nil_r, ?C1, ?C2, ?C0, ?C3, ?C4; cbn [fst]; rewrite ?Z.eqb_refl; cbn [has] in *.
      * destruct S2 as [[_ N]| ->]; [contradiction|]. cbn. lia.
      * destruct S1 as [-> | ->]; cbn; rewrite ?EB; cbn; lia.
    + rewrite get_put_other in S1, S2 by auto. apply Z.eqb_neq in N.
      destruct (snd (get u w)) as [b|] eqn:EB; cbn [fst snd]; rewrite ?app_nil_r, ?C1, ?C2, ?C0, ?C3, ?C4; cbn [fst]; rewrite ?N.
      * destruct S2 as [[-> _]| ->]; cbn; lia.
      * destruct S1 as [-> | ->]; cbn; lia.
  - specialize (S1 (fun x => (fst x, Some b)) u). specialize (S2 (fun x => (fst x, Some b)) u).
    destruct (Z.eqb_spec u t) as [->|N].
    + rewrite get_put in S1, S2 by auto.
      destruct (fst (get t w)) as [a|] eqn:EB; cbn [fst snd]; rewrite ?app_nil_r, ?C1, ?C2, ?C0, ?C3, ?C4; cbn [fst]; rewrite ?Z.eqb_refl; cbn [has] in *.
      * destruct S2 as [[_ N]| ->]; [contradiction|]. cbn. lia.
      * destruct S1 as [-> | ->]; cbn; rewrite ?EB; cbn; lia.
    + rewrite get_put_other in S1, S2 by auto. apply Z.eqb_neq in N.
      destruct (fst (get u w)) as [a|] eqn:EB; cbn [fst snd]; rewrite ?app_nil_r, ?C1, ?C2, ?C0, ?C3, ?C4; cbn [fst]; rewrite ?N.
      * destruct S2 as [[-> _]| ->]; cbn; lia.
      * destruct S1 as [-> | ->]; cbn; lia.
Qed.
Theorem C138_at_most_once q (l : list event) (t : Z) :
  (length (filter (fun c => (fst (fst c) =? t)%Z) (callbacks q l)) <= length (filter (fun m => (fst m =? t)%Z) (firsts l)))%nat /\
  (length (filter (fun c => (fst (fst c) =? t)%Z) (callbacks q l)) <= length (filter (fun m => (fst m =? t)%Z) (seconds l)))%nat.
Proof. destruct (run_once q l t) as [H1 H2]. unfold count in *. unfold callbacks. lia. Qed.

(** Two streams with growing stamps, whatever is lost and however far one runs ahead of the
    other: the callbacks are made in the order of the stamps. *)
Lemma add_stamp q (w : waiting_set A B) (e : event) c : In c (snd (sync_add q w e)) ->
  fst (fst c) = match e with First t _ => t | Second t _ => t end /\ snd (sync_add q w e) = [c].
Proof.
  unfold sync_add. destruct e as [t x|t x]; cbn iota beta; destruct (get t (put _ t w)) as [[a|] [b|]]; cbn [snd In]; intros K; try contradiction;
    destruct K as [<-|[]]; auto.
Qed.
Theorem C138_in_order q (l : list event) : growing (firsts l) -> growing (seconds l) ->
  growing (map (fun c => (fst (fst c), c)) (callbacks q l)).
Proof.
  induction l as [|e l IH] using rev_ind; intros G1 G2; [constructor|].
  rewrite firsts_app in G1. rewrite seconds_app in G2. pose proof (growing_app _ _ G1) as [H1 [_ H1']]. pose proof (growing_app _ _ G2) as [H2 [_ H2']].
  specialize (IH H1 H2). unfold callbacks in *. rewrite run_app. cbn [snd fst sync_run]. destruct (sync_add q (fst (sync_run q [] l)) e) as [w' o] eqn:EA.
  cbn [snd fst]. rewrite app_nil_r. destruct o as [|c o]; [now rewrite app_nil_r|].
  destruct (add_stamp q (fst (sync_run q [] l)) e c) as [S1 S2]; [rewrite EA; now left|]. rewrite EA in S2. cbn [snd] in S2. rewrite S2, map_app. cbn [map].
  apply growing_snoc. split; auto. intros u Hu. apply in_map_iff in Hu. destruct Hu as [[[t a] b] [<- Hu]]. cbn [fst]. rewrite S1.
  destruct (C138_same_scan q l t a b Hu) as [K1 K2]. destruct e as [t' a'|t' b'].
  - apply (H1' (t, a) (t', a')); [|now left]. apply in_flat_map. exists (First t a). split; auto. now left.
  - apply (H2' (t, b) (t', b')); [|now left]. apply in_flat_map. exists (Second t b). split; auto. now left.
Qed.

(** However stamps come, also out of order: two messages of a scan that arrive next to each other
    are handed over, all of them in the order of their arrival. *)
Theorem C138_adjacent q (scans : list (Z * A * B)) (order : list bool) : (1 <= q)%nat -> length order = length scans ->
  callbacks q (flat_map (fun s => let '((t, a, b), o) := s in if (o : bool) then [First t a; Second t b] else [Second t b; First t a]) (combine scans order)) = scans.
Proof.
  intros HQ. unfold callbacks.
  enough (E : forall o, length o = length scans -> sync_run q [] (flat_map (fun s => let '((t, a, b), o) := s in if (o : bool) then [First t a; Second t b] else [Second t b; First t a]) (combine scans o)) = ([], scans)).
  { intros Ho. now rewrite (E order Ho). }
  clear order. induction scans as [|[[t a] b] scans IH]; intros [|o order] E; try discriminate; [reflexivity|].
  cbn [combine flat_map]. rewrite run_app. injection E as E.
  assert (S1 : sync_run q [] (if o then [First t a; Second t b] else [Second t b; First t a]) = ([], [(t, a, b)])).
  { destruct q as [|q]; [lia|]. destruct o; repeat (cbn; rewrite ?Z.eqb_refl, ?Z.ltb_irrefl, ?Z.leb_refl); reflexivity. }
  rewrite S1. cbn [fst snd]. rewrite (IH order E). reflexivity.
Qed.

(** If one stream runs ahead by more than the queue holds, the oldest scans are lost: exactly the
    newest ones, as many as the queue holds, are handed over. *)
Definition half (m : Z * A) : Z * (option A * option B) := (fst m, (Some (snd m), None)).
Lemma put_end (f : option A * option B -> option A * option B) t w : (forall u, In u w -> fst u < t) -> put f t w = w ++ [(t, f (None, None))].
Proof.
  induction w as [|[u c] w IH]; intros H; cbn [put app]; auto. pose proof (H _ (or_introl eq_refl)) as L. cbn in L.
  destruct (Z.ltb_spec t u); [lia|]. destruct (Z.eqb_spec t u); [lia|]. rewrite IH; auto. intros v Hv. apply H. now right.
Qed.
Lemma skipn_once {M} k (l : list M) : skipn 1 (skipn k l) = skipn (S k) l.
Proof. revert k. induction l as [|m l IH]; intros [|k]; auto. apply (IH k). Qed.
Lemma limit_snoc q (w : waiting_set A B) p : limit q (limit q w ++ [p]) = limit q (w ++ [p]).
Proof.
  unfold limit. rewrite !app_length, skipn_length. cbn [length].
  destruct (Nat.le_gt_cases (length w) q) as [L|L].
  - replace (length w - q)%nat with 0%nat by lia. cbn [skipn]. f_equal. lia.
  - replace (length w - (length w - q) + 1 - q)%nat with 1%nat by lia. replace (length w + 1 - q)%nat with (S (length w - q))%nat by lia.
    assert (E : skipn (length w - q) w ++ [p] = skipn (length w - q) (w ++ [p])).
    { rewrite skipn_app. replace (length w - q - length w)%nat with 0%nat by lia. reflexivity. }
    rewrite E. apply skipn_once.
Qed.
Lemma run_ahead q (x : list (Z * A)) : growing x -> sync_run q [] (map (fun m => First (fst m) (snd m)) x) = (limit q (map half x), @nil (Z * A * B)).
Proof.
  induction x as [|m x IH] using rev_ind; intros G; [reflexivity|]. apply growing_snoc in G. destruct G as [G1 G2].
  rewrite map_app, run_app, (IH G1). cbn [fst snd map sync_run sync_add]. rewrite put_end.
  - assert (N : get (fst m) (limit q (map half x) ++ [(fst m, (Some (snd m), None))]) = (Some (snd m), None)).
    { apply get_in; [|apply in_or_app; right; now left]. apply growing_snoc. split.
      - apply limit_growing. unfold growing. rewrite map_map. exact G1.
      - intros u Hu. apply limit_in in Hu. apply in_map_iff in Hu. destruct Hu as [v [<- Hv]]. cbn. auto. }
    cbn [snd] in *. rewrite N. rewrite limit_snoc, map_app. reflexivity.
  - intros u Hu. apply limit_in in Hu. apply in_map_iff in Hu. destruct Hu as [v [<- Hv]]. cbn. auto.
Qed.
Lemma late_dropped q (y : list (Z * B)) (w : waiting_set A B) : length w = q -> (forall n u, In n y -> In u w -> fst n < fst u) ->
  sync_run q w (map (fun n => Second (fst n) (snd n)) y) = (w, []).
Proof.
  intros Hq. induction y as [|n y IH]; intros H; cbn [map sync_run]; auto.
  assert (E : sync_add q w (Second (fst n) (snd n)) = (w, [])).
  { cbn [sync_add].
    assert (P : put (fun x : option A * option B => (fst x, Some (snd n))) (fst n) w = (fst n, (None, Some (snd n))) :: w).
    { destruct w as [|[u c] w]; cbn [put fst]; auto. specialize (H n (u, c) (or_introl eq_refl) (or_introl eq_refl)). cbn in H.
      destruct (Z.ltb_spec (fst n) u); [reflexivity|lia]. }
    rewrite P. cbn [get]. rewrite Z.eqb_refl. unfold limit. cbn [length]. replace (S (length w) - q)%nat with 1%nat by lia. reflexivity. }
  rewrite E, IH; auto. intros m u Hm Hu. apply H; auto. now right.
Qed.
Lemma caught_up q (x : list (Z * A)) (y : list (Z * B)) : (length x <= q)%nat -> growing x -> map fst x = map fst y ->
  sync_run q (map half x) (map (fun n => Second (fst n) (snd n)) y) = ([], map (fun p => (fst (fst p), snd (fst p), snd (snd p))) (combine x y)).
Proof.
  revert y. induction x as [|m x IH]; intros [|n y] L G E; cbn [map] in E; try discriminate; auto. injection E as E1 E2.
  apply growing_cons in G. destruct G as [G1 G2]. cbn [map sync_run combine length] in *.
  assert (S1 : sync_add q (half m :: map half x) (Second (fst n) (snd n)) = (map half x, [(fst m, snd m, snd n)])).
  { cbn [sync_add half put]. rewrite <- E1, Z.ltb_irrefl, Z.eqb_refl. cbn [get fst]. rewrite Z.eqb_refl. f_equal.
    cbn [clear_old]. rewrite Z.leb_refl.
    assert (C : clear_old (fst m) (map half x) = map half x).
    { destruct x as [|k x]; cbn [map clear_old half]; auto. specialize (G2 _ (or_introl eq_refl)). destruct (Z.leb_spec (fst k) (fst m)); [lia|reflexivity]. }
    rewrite C. apply limit_small. rewrite map_length. lia. }
  rewrite S1, IH by (auto; lia). reflexivity.
Qed.
Theorem C138_running_ahead q (x : list (Z * A)) (y : list (Z * B)) : growing x -> map fst x = map fst y -> (q < length x)%nat ->
  callbacks q (map (fun m => First (fst m) (snd m)) x ++ map (fun n => Second (fst n) (snd n)) y) =
    skipn (length x - q) (map (fun p => (fst (fst p), snd (fst p), snd (snd p))) (combine x y)).
Proof.
  intros G E L. set (k := (length x - q)%nat). unfold callbacks. rewrite run_app, run_ahead by auto. cbn [fst snd app].
  assert (LY : length y = length x) by (apply (f_equal (@length Z)) in E; rewrite !map_length in E; auto).
  assert (EX : limit q (map half x) = map half (skipn k x)) by (unfold limit; rewrite map_length, <- skipn_map; reflexivity).
  rewrite EX. clear EX. assert (E' : map fst (skipn k x) = map fst (skipn k y)) by (rewrite <- !skipn_map, E; reflexivity).
  rewrite <- (firstn_skipn k y) at 1. rewrite map_app, run_app.
  assert (GS : growing (firstn k x ++ skipn k x)) by (rewrite firstn_skipn; exact G). apply growing_app in GS. destruct GS as [_ [G2 G3]].
  rewrite (late_dropped q (firstn k y) (map half (skipn k x))).
  - cbn [fst snd app]. rewrite caught_up; auto.
    + cbn [snd]. rewrite skipn_map. f_equal. clearbody k. clear. revert y k. induction x as [|m x IH]; intros y k; [now rewrite !skipn_nil|]. destruct y as [|n y]; [destruct k; cbn [skipn combine]; auto; now destruct (skipn k x)|].
      destruct k; cbn [skipn combine]; auto.
    + rewrite skipn_length. lia.
  - rewrite map_length, skipn_length. lia.
  - intros n u Hn Hu. apply in_map_iff in Hu. destruct Hu as [v [<- Hv]]. cbn [half fst].
    apply (in_map fst) in Hn. rewrite <- firstn_map, <- E, firstn_map in Hn. apply in_map_iff in Hn. destruct Hn as [m [<- Hm]]. auto.
Qed.
End Sync.
Print Assumptions C138_pairs.
Print Assumptions C138_every_scan.
Print Assumptions C138_localizer.
Print Assumptions C138_mapping.
Print Assumptions C138_same_scan.
Print Assumptions C138_at_most_once.
Print Assumptions C138_in_order.
Print Assumptions C138_adjacent.
Print Assumptions C138_running_ahead.

Lemma prefixes {A B} q (l : list (arrival A B)) :
  forallb (fun k => Nat.leb (waiting (firsts (firstn k l)) (seconds (firstn k l))) q) (seq 0 (S (length l))) = true -> never_more_than q l.
Proof.
  intros H p r E. rewrite forallb_forall in H. specialize (H (length p)). rewrite Nat.leb_le in H. subst l.
  rewrite firstn_app, Nat.sub_diag, firstn_all, firstn_O, app_nil_r in H. apply H. apply in_seq. rewrite app_length. lia.
Qed.
(** Scans at 100, 200 and 300 whose surface clouds come late, and one at 150 that has none. *)
Example C138_pairs_case :
  let l := [First 100 "a"; First 150 "b"; Second 100 "A"; First 200 "c"; First 300 "d"; Second 200 "C"; Second 300 "D"]%string in
  growing (firsts l) /\ growing (seconds l) /\ never_more_than localizer_queue l /\
  callbacks localizer_queue l = [(100, "a", "A"); (200, "c", "C"); (300, "d", "D")]%string.
Proof.
  cbv zeta. split; [|split; [|split]].
  - repeat constructor.
  - repeat constructor.
  - apply prefixes. vm_compute. reflexivity.
  - vm_compute. reflexivity.
Qed.
(** Eleven edge clouds before their surface clouds: the first scan is lost. *)
Example C138_running_ahead_case :
  let x := map (fun k => (Z.of_nat k, k)) (seq 0 11) in
  growing x /\ (localizer_queue < length x)%nat /\
  map (fun p => fst (fst p)) (callbacks localizer_queue (map (fun m => First (fst m) (snd m)) x ++ map (fun n => Second (fst n) (snd n)) x)) = [1; 2; 3; 4; 5; 6; 7; 8; 9; 10].
Proof.
  cbv zeta. split; [|split].
  - cbn. repeat constructor.
  - vm_compute. lia.
  - vm_compute. reflexivity.
Qed.
(** A queue of one: the scan at 100 is dropped when 200 arrives. *)
Example C138_in_order_case :
  callbacks 1 [First 100 "a"; First 200 "b"; Second 100 "A"; First 300 "c"; Second 300 "C"; Second 400 "D"; First 400 "d"]%string = [(300, "c", "C"); (400, "d", "D")]%string.
Proof. reflexivity. Qed.
(** A recording played a second time: the stamps go back. *)
Example C138_adjacent_case :
  callbacks 1 [First 5 "a"; Second 5 "A"; Second 7 "B"; First 7 "b"; First 5 "a"; Second 5 "A"]%string = [(5, "a", "A"); (7, "b", "B"); (5, "a", "A")]%string.
Proof. reflexivity. Qed.
