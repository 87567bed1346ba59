(** Lemmas on the aged queue and the update loops. *)
From Coq Require Import List ZArith Bool Lia Permutation.
From Verif Require Import Base EkfModel SpecEkf.
Import ListNotations.
Open Scope Z_scope.

Section Queue.
Context {Msg : Type}.
Implicit Type q : queue Msg.

Definition items q : list (Msg * Z) := combine (msgs q) (ages q).
Definition wf q : Prop := length (msgs q) = length (ages q).

Lemma combine_app {A B} (a1 a2 : list A) (b1 b2 : list B) : length a1 = length b1 -> combine (a1 ++ a2) (b1 ++ b2) = combine a1 b1 ++ combine a2 b2.
Proof. revert b1. induction a1 as [|x a1 IH]; intros [|y b1] H; cbn in *; try discriminate; auto. f_equal. apply IH. lia. Qed.

Lemma push_items q m : wf q -> items (q_push q m) = items q ++ [(m, 0)] /\ wf (q_push q m).
Proof. intros H. unfold items, wf, q_push in *. cbn [msgs ages]. rewrite combine_app by auto. rewrite !app_length, H. auto. Qed.
Lemma wf_eta q q' : wf q -> wf q' -> items q = items q' -> q = q'.
Proof.
  destruct q as [m a], q' as [m' a']. unfold wf, items. cbn. intros H1 H2 E.
  assert (E1 : split (combine m a) = split (combine m' a')) by (rewrite E; auto). rewrite !combine_split in E1 by auto. congruence.
Qed.
Lemma pop_items max_age q : wf q ->
  match items q with
  | [] => q_pop max_age q = UB
  | (m, a) :: r => exists q', q_pop max_age q = Ok (m, q') /\ wf q' /\ items q' = if a + 1 <? max_age then r ++ [(m, a + 1)] else r
  end.
Proof.
  destruct q as [ms az]. unfold wf, items, q_pop. cbn [msgs ages]. destruct ms as [|m ms], az as [|a az]; cbn [combine length]; intros H; try discriminate; auto.
  destruct (a + 1 <? max_age).
  - eexists. split; [reflexivity|]. cbn [msgs ages]. rewrite combine_app by lia. rewrite !app_length. cbn. split; auto; lia.
  - eexists. split; [reflexivity|]. cbn [msgs ages]. split; auto; lia.
Qed.
Lemma items_msgs q : wf q -> map fst (items q) = msgs q.
Proof. destruct q as [m a]. unfold wf, items. cbn. revert a. induction m as [|x m IH]; intros [|y a] H; cbn in *; try discriminate; auto. f_equal. apply IH. lia. Qed.
Lemma items_ages q : wf q -> map snd (items q) = ages q.
Proof. destruct q as [m a]. unfold wf, items. cbn. revert a. induction m as [|x m IH]; intros [|y a] H; cbn in *; try discriminate; auto. f_equal. apply IH. lia. Qed.
Lemma items_size q : wf q -> q_size q = zlen (items q).
Proof. intros H. unfold q_size. rewrite <- (items_msgs q H). unfold zlen. rewrite map_length. auto. Qed.
Lemma items_waits q m a : wf q -> (waits q m a <-> In (m, a) (items q)).
Proof.
  intros H. unfold waits. rewrite <- (items_msgs q H), <- (items_ages q H). split.
  - intros [i [H1 H2]]. apply nth_error_In with i. revert H1 H2. rewrite !nth_error_map. destruct (nth_error (items q) i) as [[m' a']|]; cbn; congruence.
  - intros I. apply In_nth_error in I. destruct I as [i E]. exists i. rewrite !nth_error_map, E. auto.
Qed.

(** ** Bookkeeping *)
Variable eq_dec : forall a b : Msg, {a = b} + {a <> b}.
Definition bookkeeping (max_age : Z) (pushed : list Msg) q (log : list Msg) : Prop :=
  wf q /\ Forall (fun ma => 0 <= snd ma < max_age) (items q) /\ NoDup (msgs q) /\ incl (msgs q) pushed /\
  (forall m a, In (m, a) (items q) -> Z.of_nat (count_occ eq_dec log m) = a) /\
  (forall m, In m pushed -> ~ In m (msgs q) -> Z.of_nat (count_occ eq_dec log m) = max_age) /\
  (forall m, In m log -> In m pushed).

Lemma book_push max_age ps q log m : 1 <= max_age -> ~ In m ps -> bookkeeping max_age ps q log -> bookkeeping max_age (ps ++ [m]) (q_push q m) log.
Proof.
  intros HA N (W & F & ND & I & B1 & B2 & B3). destruct (push_items q m W) as [E W']. unfold bookkeeping. rewrite E. cbn [q_push msgs].
  split; auto. split. { apply Forall_app. split; auto. constructor; cbn; auto; lia. }
  split. { apply NoDup_Add with (a := m) (l := msgs q); [rewrite <- (app_nil_r (msgs q)) at 1; apply Add_app|]. split; auto. }
  split. { apply incl_app; [apply incl_appl; auto|apply incl_appr, incl_refl]. }
  split. { intros m' a H. apply in_app_or in H. destruct H as [H|[H|[]]]; auto. injection H as <- <-.
    rewrite (proj1 (count_occ_not_In eq_dec log m)); auto. }
  split. { intros m' H1 H2. apply in_app_or in H1. destruct H1 as [H1|[<-|[]]]; [|exfalso; apply H2, in_or_app; right; left; auto].
    apply B2; auto. intros H3. apply H2, in_or_app. auto. }
  intros m' H. apply in_or_app. auto.
Qed.

Lemma book_pop max_age ps q log m q' : bookkeeping max_age ps q log -> q_pop max_age q = Ok (m, q') -> bookkeeping max_age ps q' (log ++ [m]).
Proof.
  intros (W & F & ND & I & B1 & B2 & B3) E. pose proof (pop_items max_age q W) as P. rewrite <- (items_msgs q W) in ND, I, B2.
  destruct (items q) as [|[m0 a] r] eqn:EI; [congruence|]. destruct P as [q0 [P1 [W' P2]]]. rewrite P1 in E. injection E as -> ->.
  inversion F as [|? ? Fa Fr]; subst. cbn [map fst snd] in *. inversion ND as [|? ? NI ND']; subst.
  assert (CE : forall x, count_occ eq_dec (log ++ [m]) x = (count_occ eq_dec log x + if eq_dec m x then 1 else 0)%nat).
  { intros x. rewrite count_occ_app. cbn. destruct (eq_dec m x); auto. }
  assert (NR : forall x a0, In (x, a0) r -> m <> x).
  { intros x a0 H <-. apply NI. apply in_map with (f := fst) in H. exact H. }
  assert (MQ : msgs q' = map fst (items q')) by (rewrite items_msgs; auto).
  assert (B1m : Z.of_nat (count_occ eq_dec log m) = a) by (apply B1; left; auto).
  unfold bookkeeping. rewrite MQ, P2. destruct (Z.ltb_spec (a + 1) max_age) as [L|L].
  - rewrite map_app. cbn [map fst].
    assert (PM : Permutation (map fst r ++ [m]) (m :: map fst r)) by (rewrite Permutation_app_comm; reflexivity).
    split; auto. split. { apply Forall_app. split; auto. constructor; cbn; auto; lia. }
    split. { eapply Permutation_NoDup; [apply Permutation_sym, PM|]. constructor; auto. }
    split. { intros x Hx. apply I. eapply Permutation_in; [exact PM|auto]. }
    split. { intros x a0 Hx. rewrite CE. apply in_app_or in Hx. destruct Hx as [Hx|[Hx|[]]].
      - destruct (eq_dec m x) as [->|N]; [exfalso; eapply NR; eauto|]. rewrite Nat.add_0_r. apply B1. right; auto.
      - injection Hx as <- <-. destruct (eq_dec m m); [lia|congruence]. }
    split. { intros x Hx Nx. rewrite CE. destruct (eq_dec m x) as [->|N]; [exfalso; apply Nx, in_or_app; right; left; auto|]. rewrite Nat.add_0_r. apply B2; auto.
      intros H. apply Nx. eapply Permutation_in; [apply Permutation_sym, PM|auto]. }
    intros x Hx. apply in_app_or in Hx. destruct Hx as [Hx|[<-|[]]]; auto. apply I. left; auto.
  - split; auto. split; auto. split; auto. split. { intros x Hx. apply I. right; auto. }
    split. { intros x a0 Hx. rewrite CE. destruct (eq_dec m x) as [->|N]; [exfalso; eapply NR; eauto|]. rewrite Nat.add_0_r. apply B1. right; auto. }
    split. { intros x Hx Nx. rewrite CE. destruct (eq_dec m x) as [->|N]; [lia|]. rewrite Nat.add_0_r. apply B2; auto. intros [E|H]; auto. }
    intros x Hx. apply in_app_or in Hx. destruct Hx as [Hx|[<-|[]]]; auto. apply I. left; auto.
Qed.
Lemma book_empty max_age : bookkeeping max_age [] q_empty [].
Proof. unfold bookkeeping, wf, items. cbn. repeat split; auto; try constructor; try contradiction. intros x []. Qed.

(** ** Histories of pushes and pops *)
Lemma pushed_snoc (h : list (qop Msg)) o : pushed (h ++ [o]) = pushed h ++ match o with QPush m => [m] | QPop => [] end.
Proof. unfold pushed. rewrite flat_map_app. cbn. rewrite app_nil_r. auto. Qed.
Lemma foldM_app {S A} (f : S -> A -> outcome S) l1 l2 s : foldM f s (l1 ++ l2) = (s' <- foldM f s l1 ;; foldM f s' l2).
Proof. revert s. induction l1 as [|a l1 IH]; intros s; cbn; auto. destruct (f s a); cbn; auto. Qed.

Lemma run_book max_age h : 1 <= max_age -> NoDup (pushed h) -> forall q log, q_run max_age q_empty h = Ok (q, log) -> bookkeeping max_age (pushed h) q log.
Proof.
  intros HA. induction h as [|o h IH] using rev_ind; intros ND q log E.
  - injection E as <- <-. apply book_empty.
  - unfold q_run in E. rewrite foldM_app in E. rewrite pushed_snoc in *.
    destruct (foldM (q_step max_age) (q_empty, []) h) as [[q0 log0]| | | | |] eqn:E0; try discriminate E. cbn [bind foldM] in E.
    assert (ND0 : NoDup (pushed h)).
    { destruct o; [apply NoDup_remove_1 in ND|]; rewrite app_nil_r in ND; auto. }
    specialize (IH ND0 q0 log0 E0). destruct o as [m|]; cbn [q_step fst snd] in E.
    + injection E as <- <-. apply book_push; auto. apply NoDup_remove_2 in ND. rewrite app_nil_r in ND. auto.
    + destruct (q_pop max_age q0) as [[m q1]| | | | |] eqn:P; try discriminate E. cbn in E. injection E as <- <-.
      rewrite app_nil_r. eapply book_pop; eauto.
Qed.

(** Round robin: the first [length] pops deliver the queue in order. *)
Lemma run_prefix max_age h : forall q l q' log, wf q -> foldM (q_step max_age) (q, l) h = Ok (q', log) -> (pops h <= length (msgs q))%nat ->
  log = l ++ firstn (pops h) (msgs q).
Proof.
  assert (G : forall h q l q' log, wf q -> foldM (q_step max_age) (q, l) h = Ok (q', log) -> forall pre, (pops h <= length pre)%nat ->
     (exists post, msgs q = pre ++ post) -> log = l ++ firstn (pops h) pre).
  { clear. induction h as [|o h IH]; intros q l q' log W E pre L [post EP]; cbn [foldM] in E.
    - injection E as <- <-. cbn. rewrite app_nil_r. auto.
    - destruct o as [m|]; cbn [q_step fst snd] in E.
      + cbn [bind] in E. change (pops (QPush m :: h)) with (pops h) in *. eapply (IH (q_push q m)); [apply push_items; auto|exact E|auto|].
        exists (post ++ [m]). cbn. rewrite EP, app_assoc. auto.
      + change (pops (QPop :: h)) with (S (pops h)) in *. destruct pre as [|m pre]; cbn [length] in L; [lia|].
        pose proof (pop_items max_age q W) as P. pose proof (items_msgs q W) as IM. rewrite EP in IM. cbn [app] in IM.
        destruct (items q) as [|[m0 a] r] eqn:EI; [discriminate IM|]. cbn [map fst] in IM. injection IM as -> IM.
        destruct P as [q0 [P1 [W' P2]]]. rewrite P1 in E. cbn [bind] in E. cbn [firstn].
        rewrite (IH q0 (l ++ [m]) q' log W' E pre); [rewrite <- app_assoc; auto|lia|].
        rewrite <- (items_msgs q0 W'), P2. destruct (a + 1 <? max_age).
        * exists (post ++ [m]). rewrite map_app, IM. cbn. rewrite app_assoc. auto.
        * exists post. auto. }
  intros q l q' log W E L. eapply G; eauto. exists []. rewrite app_nil_r. auto.
Qed.
Lemma run_wf max_age h : forall q l q' log, wf q -> foldM (q_step max_age) (q, l) h = Ok (q', log) -> wf q'.
Proof.
  induction h as [|o h IH]; intros q l q' log W E; cbn [foldM] in E; [injection E as <- <-; auto|].
  destruct o as [m|]; cbn [q_step fst snd] in E.
  - cbn [bind] in E. eapply IH; [|exact E]. apply push_items; auto.
  - pose proof (pop_items max_age q W) as P. destruct (items q) as [|[m a] r]; [rewrite P in E; discriminate|].
    destruct P as [q0 [P1 [W' _]]]. rewrite P1 in E. cbn [bind] in E. eapply IH; eauto.
Qed.

(** The queue empties after the pops that are due. *)
Lemma due_items max_age q : wf q -> due max_age q = fold_right Z.add 0 (map (fun ma => max_age - snd ma) (items q)).
Proof. intros W. unfold due. rewrite <- (items_ages q W), map_map. auto. Qed.
Lemma sum_app l1 l2 : fold_right Z.add 0 (l1 ++ l2) = fold_right Z.add 0 l1 + fold_right Z.add 0 l2.
Proof. induction l1; cbn; lia. Qed.
Lemma drain max_age n : forall q l, wf q -> Forall (fun ma => 0 <= snd ma < max_age) (items q) -> due max_age q = Z.of_nat n ->
  exists log, foldM (q_step max_age) (q, l) (repeat QPop n) = Ok (q_empty, log).
Proof.
  induction n as [|n IH]; intros q l W F D; rewrite due_items in D by auto.
  - cbn. exists l. f_equal. f_equal. apply wf_eta; auto; [reflexivity|]. destruct (items q) as [|[m a] r] eqn:EI; [reflexivity|exfalso].
    assert (G : 0 <= fold_right Z.add 0 (map (fun ma => max_age - snd ma) r)).
    { inversion F; subst. clear - H2. induction H2; cbn; lia. }
    inversion F; subst. cbn in *. lia.
  - cbn [repeat foldM q_step fst snd]. pose proof (pop_items max_age q W) as P. destruct (items q) as [|[m a] r] eqn:EI; [cbn in D; lia|].
    destruct P as [q0 [P1 [W' P2]]]. rewrite P1. cbn [bind]. inversion F as [|? ? Fa Fr]; subst. cbn [map fold_right snd] in *.
    apply IH; auto.
    + rewrite P2. destruct (Z.ltb_spec (a + 1) max_age); auto. apply Forall_app. split; auto. constructor; cbn; auto; lia.
    + rewrite due_items, P2 by auto. destruct (Z.ltb_spec (a + 1) max_age); [rewrite map_app, sum_app; cbn|]; lia.
Qed.

(** ** The update loops *)
(** The messages one run of the loop takes out, and the queue after it. *)
Fixpoint cycle (max_age : Z) (fuel : nat) (i : Z) q : list Msg * queue Msg :=
  if i <? q_size q then
    match fuel with
    | O => ([], q)
    | S k => match q_pop max_age q with Ok (m, q1) => let '(l, q2) := cycle max_age k (i + 1) q1 in (m :: l, q2) | _ => ([], q) end
    end
  else ([], q).
Lemma pop_ok max_age q : wf q -> 0 < q_size q -> exists m q1, q_pop max_age q = Ok (m, q1) /\ wf q1 /\ q_size q1 <= q_size q.
Proof.
  intros W L. pose proof (pop_items max_age q W) as P. rewrite (items_size q W) in *. destruct (items q) as [|[m a] r]; [cbn in L; lia|].
  destruct P as [q' [P1 [W' P2]]]. exists m, q'. split; auto. split; auto. rewrite (items_size q' W'), P2. unfold zlen.
  destruct (_ <? _); [rewrite app_length|]; cbn [length]; lia.
Qed.
(** The loop handles the messages of the cycle in order; the fuel suffices. *)
Lemma loop_runs {S} (body : S -> Msg -> outcome S) max_age fuel : forall i q s, wf q -> 0 <= i -> q_size q <= i + Z.of_nat fuel ->
  update_loop body max_age fuel i q s =
  (s' <- foldM body s (fst (cycle max_age fuel i q)) ;; Ok (snd (cycle max_age fuel i q), s')).
Proof.
  induction fuel as [|k IH]; intros i q s W Hi L; cbn [update_loop cycle]; destruct (Z.ltb_spec i (q_size q)) as [LT|GE]; try reflexivity; try lia.
  destruct (pop_ok max_age q W ltac:(lia)) as [m [q1 [P [W1 S1]]]]. rewrite P. cbn [bind].
  destruct (cycle max_age k (i + 1) q1) as [l q2] eqn:C. cbn [fst snd foldM]. destruct (body s m) as [s1| | | | |]; cbn [bind]; try reflexivity.
  rewrite (IH (i + 1) q1 s1) by (auto; lia). rewrite C. reflexivity.
Qed.
(** A cycle is a run of pops. *)
Lemma cycle_pops max_age fuel : forall i q l, wf q -> 0 <= i -> q_size q <= i + Z.of_nat fuel ->
  foldM (q_step max_age) (q, l) (repeat QPop (length (fst (cycle max_age fuel i q)))) = Ok (snd (cycle max_age fuel i q), l ++ fst (cycle max_age fuel i q)).
Proof.
  induction fuel as [|k IH]; intros i q l W Hi L; cbn [cycle]; destruct (Z.ltb_spec i (q_size q)) as [LT|GE]; try (cbn; rewrite app_nil_r; reflexivity); try lia.
  destruct (pop_ok max_age q W ltac:(lia)) as [m [q1 [P [W1 S1]]]]. rewrite P. specialize (IH (i + 1) q1 (l ++ [m]) W1 ltac:(lia) ltac:(lia)).
  destruct (cycle max_age k (i + 1) q1) as [r q2]. cbn [fst snd length repeat foldM q_step] in *. rewrite P. cbn [bind]. rewrite IH, <- app_assoc. reflexivity.
Qed.
(** How many: at least half of the queue, at most the whole queue. *)
Lemma cycle_count max_age fuel : forall i q, wf q -> 0 <= i -> q_size q <= i + Z.of_nat fuel ->
  let n := zlen (fst (cycle max_age fuel i q)) in i + n <= Z.max i (q_size q) /\ q_size q <= i + 2 * n.
Proof.
  induction fuel as [|k IH]; intros i q W Hi L; cbn [cycle]; destruct (Z.ltb_spec i (q_size q)) as [LT|GE]; try (cbn; lia); try lia.
  pose proof (pop_items max_age q W) as PI. pose proof (items_size q W) as SZ. destruct (items q) as [|[m a] r]; [cbn in SZ; lia|].
  destruct PI as [q1 [P [W1 P2]]]. rewrite P. pose proof (items_size q1 W1) as SZ1. rewrite P2 in SZ1.
  assert (S1 : q_size q - 1 <= q_size q1 <= q_size q).
  { rewrite SZ, SZ1. unfold zlen. destruct (_ <? _); [rewrite app_length|]; cbn [length]; lia. }
  specialize (IH (i + 1) q1 W1 ltac:(lia) ltac:(lia)). destruct (cycle max_age k (i + 1) q1) as [l q2]. cbn [fst] in *. unfold zlen in *. cbn [length]. cbv zeta in *. lia.
Qed.
(** Nothing is dropped if no message is in its last turn: everything is handled. *)
Lemma cycle_all max_age fuel : forall i q, wf q -> 0 <= i -> q_size q <= i + Z.of_nat fuel ->
  Forall (fun ma => snd ma + 1 < max_age) (firstn (Z.to_nat (q_size q - i)) (items q)) -> i <= q_size q ->
  zlen (fst (cycle max_age fuel i q)) = q_size q - i.
Proof.
  induction fuel as [|k IH]; intros i q W Hi L F Hq; cbn [cycle]; destruct (Z.ltb_spec i (q_size q)) as [LT|GE]; try (cbn; lia); try lia.
  pose proof (pop_items max_age q W) as PI. pose proof (items_size q W) as SZ. destruct (items q) as [|[m a] r] eqn:EI; [cbn in SZ; lia|].
  destruct PI as [q1 [P [W1 P2]]]. rewrite P. replace (Z.to_nat (q_size q - i)) with (S (Z.to_nat (q_size q - (i + 1)))) in F by lia.
  cbn [firstn] in F. inversion F as [|? ? Fa Fr]; subst. cbn [snd] in Fa.
  replace (a + 1 <? max_age) with true in P2 by (symmetry; apply Z.ltb_lt; auto).
  assert (S1 : q_size q1 = q_size q). { rewrite (items_size q1 W1), P2, SZ. unfold zlen. rewrite app_length. cbn [length]. lia. }
  specialize (IH (i + 1) q1 W1 ltac:(lia) ltac:(lia)). rewrite S1 in IH.
  assert (E : zlen (fst (cycle max_age k (i + 1) q1)) = q_size q - (i + 1)).
  { apply IH; [|lia]. rewrite P2, firstn_app. unfold zlen in SZ. cbn [length] in SZ.
    replace (Z.to_nat (q_size q - (i + 1)) - length r)%nat with O by lia. cbn [firstn]. rewrite app_nil_r. auto. }
  destruct (cycle max_age k (i + 1) q1) as [l q2]. cbn [fst] in *. unfold zlen in *. cbn [length]. lia.
Qed.
(** The handled messages are the front of the queue. *)
Lemma cycle_prefix max_age q : wf q ->
  let c := cycle max_age (length (msgs q)) 0 q in fst c = firstn (length (fst c)) (msgs q) /\ wf (snd c) /\
  q_size q <= 2 * zlen (fst c) /\ zlen (fst c) <= q_size q.
Proof.
  intros W. cbv zeta. assert (L : q_size q <= 0 + Z.of_nat (length (msgs q))) by (unfold q_size, zlen; lia).
  pose proof (cycle_pops max_age (length (msgs q)) 0 q [] W ltac:(lia) L) as E. cbn [app] in E.
  pose proof (cycle_count max_age (length (msgs q)) 0 q W ltac:(lia) L) as C. cbv zeta in C.
  set (c := cycle max_age (length (msgs q)) 0 q) in *. assert (PR : pops (repeat (@QPop Msg) (length (fst c))) = length (fst c)).
  { unfold pops. generalize (length (fst c)). induction n; cbn; auto. }
  split; [|split; [eapply run_wf; eauto|unfold q_size, zlen in *; lia]].
  rewrite (run_prefix max_age _ q [] _ _ W E) at 1; [rewrite PR; reflexivity|]. rewrite PR. unfold q_size, zlen in C. lia.
Qed.

Lemma book_cycle max_age ps fuel : forall i q log, bookkeeping max_age ps q log ->
  bookkeeping max_age ps (snd (cycle max_age fuel i q)) (log ++ fst (cycle max_age fuel i q)).
Proof.
  induction fuel as [|k IH]; intros i q log B; cbn [cycle]; destruct (i <? q_size q); try (cbn; rewrite app_nil_r; auto).
  destruct (q_pop max_age q) as [[m q1]| | | | |] eqn:P; try (cbn; rewrite app_nil_r; auto).
  pose proof (book_pop _ _ _ _ _ _ B P) as B1. specialize (IH (i + 1) q1 _ B1). destruct (cycle max_age k (i + 1) q1) as [l q2]. cbn [fst snd] in *.
  rewrite <- app_assoc in IH. exact IH.
Qed.
End Queue.

(** ** Measurement objects *)
Section Measurement.
Context {Msg S Arg : Type}.
Variable body : Arg -> S -> Msg -> outcome S.
Variable steps : Z.
(** One operation on queue, filter and record of handled messages. *)
Definition m_step (s : queue Msg * (S * list Msg)) (o : mop Msg Arg) : outcome (queue Msg * (S * list Msg)) :=
  match o with
  | MArrive m => Ok (q_push (fst s) m, snd s)
  | MCycle a => update_loop (recording (body a)) steps (length (msgs (fst s))) 0 (fst s) (snd s)
  end.

Lemma recording_fold a l : forall s log, foldM (recording (body a)) (s, log) l = (s' <- foldM (body a) s l ;; Ok (s', log ++ l)).
Proof.
  induction l as [|m l IH]; intros s log; cbn [foldM]; [rewrite app_nil_r; auto|]. unfold recording at 1. cbn [fst snd].
  destruct (body a s m) as [s1| | | | |]; cbn [bind]; auto. rewrite IH. rewrite <- app_assoc. reflexivity.
Qed.
Lemma size_fuel (q : queue Msg) : q_size q <= 0 + Z.of_nat (length (msgs q)).
Proof. unfold q_size, zlen. lia. Qed.
Lemma cycle_step a (q : queue Msg) s log : wf q ->
  m_step (q, (s, log)) (MCycle a) =
  (s' <- foldM (body a) s (fst (cycle steps (length (msgs q)) 0 q)) ;;
   Ok (snd (cycle steps (length (msgs q)) 0 q), (s', log ++ fst (cycle steps (length (msgs q)) 0 q)))).
Proof.
  intros W. cbn [m_step fst snd]. rewrite loop_runs by (auto using size_fuel; lia). rewrite recording_fold.
  destruct (foldM (body a) s _); reflexivity.
Qed.
(** The record does not influence the run. *)
Lemma recording_faithful a (q : queue Msg) s log : wf q ->
  (' (q', (s', _)) <- m_step (q, (s, log)) (MCycle a) ;; Ok (q', s')) = update_loop (body a) steps (length (msgs q)) 0 q s.
Proof.
  intros W. rewrite cycle_step, loop_runs by (auto using size_fuel; lia). destruct (foldM (body a) s _); reflexivity.
Qed.

Lemma arrived_snoc (h : list (mop Msg Arg)) o : arrived (h ++ [o]) = arrived h ++ match o with MArrive m => [m] | MCycle _ => [] end.
Proof. unfold arrived. rewrite flat_map_app. cbn. rewrite app_nil_r. auto. Qed.

Lemma m_book eq_dec h : 1 <= steps -> NoDup (arrived h) -> forall s0 q s log, foldM m_step (q_empty, (s0, [])) h = Ok (q, (s, log)) ->
  bookkeeping eq_dec steps (arrived h) q log.
Proof.
  intros HS. induction h as [|o h IH] using rev_ind; intros ND s0 q s log E.
  - injection E as <- <- <-. apply book_empty.
  - rewrite foldM_app in E. rewrite arrived_snoc in *.
    destruct (foldM m_step (q_empty, (s0, [])) h) as [[q0 [s1 log0]]| | | | |] eqn:E0; try discriminate E. cbn [bind foldM] in E.
    assert (ND0 : NoDup (arrived h)).
    { destruct o; [apply NoDup_remove_1 in ND|]; rewrite app_nil_r in ND; auto. }
    specialize (IH ND0 s0 q0 s1 log0 E0). destruct o as [m|a].
    + cbn [m_step fst snd bind] in E. injection E as <- <- <-. apply book_push; auto. apply NoDup_remove_2 in ND. rewrite app_nil_r in ND. auto.
    + rewrite cycle_step in E by apply IH. destruct (foldM (body a) s1 _) as [s2| | | | |]; cbn [bind] in E; try discriminate E.
      injection E as <- <- <-. rewrite app_nil_r. apply book_cycle. auto.
Qed.
Lemma m_wf h : forall s q s' q', wf q -> foldM m_step (q, s) h = Ok (q', s') -> wf q'.
Proof.
  induction h as [|o h IH]; intros s q s' q' W E; cbn [foldM] in E; [injection E as <- <-; auto|].
  destruct o as [m|a].
  - cbn [m_step bind fst snd] in E. eapply IH; [|exact E]. apply push_items; auto.
  - destruct s as [s log]. rewrite cycle_step in E by auto. destruct (foldM (body a) s _) as [s2| | | | |]; cbn [bind] in E; try discriminate E.
    eapply IH; [|exact E]. apply cycle_prefix; auto.
Qed.

Lemma due_nonneg (q : queue Msg) : wf q -> Forall (fun ma => 0 <= snd ma < steps) (items q) -> 0 <= due steps q.
Proof. intros W F. rewrite due_items by auto. induction F; cbn; lia. Qed.
Lemma pop_due (q : queue Msg) m q' : wf q -> Forall (fun ma => 0 <= snd ma < steps) (items q) -> q_pop steps q = Ok (m, q') ->
  wf q' /\ Forall (fun ma => 0 <= snd ma < steps) (items q') /\ due steps q' = due steps q - 1.
Proof.
  intros W F E. pose proof (pop_items steps q W) as P. destruct (items q) as [|[m0 a] r] eqn:EI; [congruence|].
  destruct P as [q0 [P1 [W' P2]]]. rewrite P1 in E. injection E as -> ->. inversion F as [|? ? Fa Fr]; subst. cbn [snd] in Fa.
  split; auto. rewrite due_items, due_items, P2, EI by auto. cbn [map fold_right snd]. destruct (Z.ltb_spec (a + 1) steps).
  - split; [apply Forall_app; split; auto; constructor; cbn; auto; lia|]. rewrite map_app, sum_app. cbn. lia.
  - split; auto. lia.
Qed.
Lemma cycle_due fuel : forall i (q : queue Msg), wf q -> Forall (fun ma => 0 <= snd ma < steps) (items q) ->
  let c := cycle steps fuel i q in wf (snd c) /\ Forall (fun ma => 0 <= snd ma < steps) (items (snd c)) /\ due steps (snd c) = due steps q - zlen (fst c).
Proof.
  induction fuel as [|k IH]; intros i q W F; cbn [cycle]; destruct (i <? q_size q); try (cbn; split; auto; split; auto; unfold zlen; cbn; lia).
  destruct (q_pop steps q) as [[m q1]| | | | |] eqn:P; try (cbn; split; auto; split; auto; unfold zlen; cbn; lia).
  destruct (pop_due q m q1 W F P) as [W1 [F1 D1]]. specialize (IH (i + 1) q1 W1 F1). destruct (cycle steps k (i + 1) q1) as [l q2]. cbv zeta in *. cbn [fst snd] in *.
  destruct IH as [I1 [I2 I3]]. split; auto. split; auto. rewrite I3, D1. unfold zlen. cbn [length]. lia.
Qed.
(** Without arrivals the queue empties. *)
Lemma m_drains l : forall q s q' s', wf q -> Forall (fun ma => 0 <= snd ma < steps) (items q) -> due steps q <= Z.of_nat (length l) ->
  foldM m_step (q, s) (map MCycle l) = Ok (q', s') -> q' = q_empty.
Proof.
  induction l as [|a l IH]; intros q s q' s' W F D E; cbn [map foldM] in E.
  - injection E as <- <-. cbn in D. rewrite due_items in D by auto. apply wf_eta; auto; [reflexivity|].
    destruct (items q) as [|[m a] r] eqn:EI; [reflexivity|exfalso]. inversion F as [|? ? Fa Fr]; subst. cbn [map fold_right snd] in *.
    assert (0 <= fold_right Z.add 0 (map (fun ma => steps - snd ma) r)) by (clear - Fr; induction Fr; cbn; lia). lia.
  - destruct s as [s log]. rewrite cycle_step in E by auto. destruct (foldM (body a) s _) as [s2| | | | |]; cbn [bind] in E; try discriminate E.
    destruct (cycle_due (length (msgs q)) 0 q W F) as [W1 [F1 D1]]. destruct (cycle_prefix steps q W) as [_ [_ [C _]]]. cbv zeta in *.
    eapply IH; [exact W1|exact F1| |exact E]. rewrite D1. cbn [length] in D. unfold zlen in *.
    assert (items q <> [] \/ items q = []) as [NE|EE] by (destruct (items q); [right; auto|left; discriminate]).
    + assert (0 < q_size q) by (rewrite items_size by auto; unfold zlen; destruct (items q); [congruence|cbn; lia]). lia.
    + assert (DQ : due steps q = 0) by (rewrite due_items, EE by auto; reflexivity). lia.
Qed.

(** A waiting message moves to the front. *)
Lemma cycle_moves fuel : forall i (q : queue Msg), wf q -> exists again,
  msgs (snd (cycle steps fuel i q)) = skipn (length (fst (cycle steps fuel i q))) (msgs q) ++ again \/ (length (msgs q) < length (fst (cycle steps fuel i q)))%nat.
Proof.
  induction fuel as [|k IH]; intros i q W; cbn [cycle]; destruct (i <? q_size q); try (exists []; left; cbn; rewrite app_nil_r; reflexivity).
  pose proof (pop_items steps q W) as P. pose proof (items_msgs q W) as IM. destruct (items q) as [|[m a] r] eqn:EI.
  { rewrite P. exists []. left. cbn. rewrite app_nil_r. reflexivity. }
  destruct P as [q1 [P1 [W1 P2]]]. rewrite P1. specialize (IH (i + 1) q1 W1). pose proof (items_msgs q1 W1) as IM1. rewrite P2 in IM1.
  destruct (cycle steps k (i + 1) q1) as [l q2]. cbn [fst snd length] in *. rewrite <- IM. cbn [map fst skipn length]. destruct IH as [again [IH|IH]].
  - rewrite IH, <- IM1. destruct (a + 1 <? steps).
    + rewrite map_app, skipn_app. eexists. left. rewrite <- app_assoc. reflexivity.
    + eexists. left. reflexivity.
  - destruct (Nat.ltb_spec (Datatypes.S (length (map fst r))) (Datatypes.S (length l))) as [G|G]; [exists []; right; auto|].
    rewrite <- IM1 in IH. destruct (a + 1 <? steps); [rewrite map_app, app_length in IH; cbn in IH|]; try lia.
Qed.
End Measurement.
