(** Properties C60, C61, C62 and C72: the measurement queues and the frame names. *)
From Coq Require Import String Ascii List ZArith Bool Lia.
From Verif Require Import Base Arith EkfModel SpecEkf QueueProofs.
Import ListNotations.
Open Scope Z_scope.

(** ** C60 *)
Section C60.

Variable Msg : Type.
Variable eq_dec : forall a b : Msg, {a = b} + {a <> b}.

(** At any time, a pushed message either waits in the queue and has been delivered as often
    as its age says, fewer than max_age times, or it is gone and has been delivered exactly
    max_age times. *)
Theorem C60_deliveries max_age (h : list (qop Msg)) q log : 1 <= max_age -> NoDup (pushed h) -> q_run max_age q_empty h = Ok (q, log) ->
  (forall m, In m (pushed h) ->
    (exists a, waits q m a /\ 0 <= a < max_age /\ Z.of_nat (count_occ eq_dec log m) = a) \/
    (~ In m (msgs q) /\ Z.of_nat (count_occ eq_dec log m) = max_age)) /\
  (forall m, In m log \/ In m (msgs q) -> In m (pushed h)).
Proof.
  intros HA ND E. destruct (run_book eq_dec max_age h HA ND q log E) as (W & F & NDq & I & B1 & B2 & B3). split.
  - intros m Hm. destruct (in_dec eq_dec m (msgs q)) as [Y|N]; [left|right; auto].
    rewrite <- (items_msgs q W) in Y. apply in_map_iff in Y. destruct Y as [[m' a] [E1 IN]]. cbn in E1. subst m'.
    exists a. rewrite items_waits by auto. split; auto. rewrite Forall_forall in F. split; [apply (F _ IN)|apply B1; auto].
  - intros m [H|H]; auto.
Qed.
(** Once the queue is empty every message has been delivered exactly max_age times. *)
Theorem C60_exactly_max_age max_age (h : list (qop Msg)) q log : 1 <= max_age -> NoDup (pushed h) -> q_run max_age q_empty h = Ok (q, log) ->
  q_size q = 0 -> forall m, In m (pushed h) -> Z.of_nat (count_occ eq_dec log m) = max_age.
Proof.
  intros HA ND E S m Hm. destruct (C60_deliveries max_age h q log HA ND E) as [H _]. destruct (H m Hm) as [[a [[i [W _]] _]]|[_ H']]; auto.
  unfold q_size, zlen in S. destruct (msgs q); [destruct i; discriminate W|cbn in S; lia].
Qed.
(** And popping does empty it: after as many pops as are due. *)
Theorem C60_drains max_age (h : list (qop Msg)) q log : 1 <= max_age -> NoDup (pushed h) -> q_run max_age q_empty h = Ok (q, log) ->
  0 <= due max_age q /\ exists log', q_run max_age q (repeat QPop (Z.to_nat (due max_age q))) = Ok (q_empty, log').
Proof.
  intros HA ND E. destruct (run_book eq_dec max_age h HA ND q log E) as (W & F & _). pose proof (due_nonneg max_age q W F) as N. split; auto.
  apply drain; auto. lia.
Qed.
(** The queue never holds a message of age max_age or more. *)
Theorem C60_ages max_age (h : list (qop Msg)) q log : 1 <= max_age -> NoDup (pushed h) -> q_run max_age q_empty h = Ok (q, log) ->
  Forall (fun a => 0 <= a < max_age) (ages q).
Proof.
  intros HA ND E. destruct (run_book eq_dec max_age h HA ND q log E) as (W & F & _). rewrite <- (items_ages q W). apply Forall_forall.
  intros a Ha. apply in_map_iff in Ha. destruct Ha as [x [<- Hx]]. rewrite Forall_forall in F. auto.
Qed.
(** Round robin: whatever is pushed in between, the next pops deliver the messages of the
    queue in order, each once, before any of them is delivered again. *)
Theorem C60_round_robin max_age (h0 : list (qop Msg)) q log0 h q' log : q_run max_age q_empty h0 = Ok (q, log0) -> q_run max_age q h = Ok (q', log) ->
  (pops h <= length (msgs q))%nat -> log = firstn (pops h) (msgs q).
Proof.
  intros E0 E L. assert (W : wf q) by (eapply (run_wf max_age h0 q_empty []); [reflexivity|exact E0]).
  exact (run_prefix max_age h q [] q' log W E L).
Qed.
(** Only popping an empty queue is undefined. *)
Theorem C60_pop_empty max_age (h : list (qop Msg)) q log : q_run max_age q_empty h = Ok (q, log) ->
  (q_size q = 0 -> q_pop max_age q = UB) /\ (0 < q_size q -> exists m q', q_pop max_age q = Ok (m, q')).
Proof.
  intros E. assert (W : wf q) by (eapply (run_wf max_age h q_empty []); [reflexivity|exact E]). split.
  - intros S. pose proof (pop_items max_age q W) as P. rewrite items_size in S by auto. destruct (items q); auto. unfold zlen in S. cbn in S. lia.
  - intros S. destruct (pop_ok max_age q W S) as [m [q1 [P _]]]. eauto.
Qed.
End C60.
Example ex_C60 : q_run 2 q_empty [QPush 1%nat; QPush 2%nat; QPop; QPop; QPush 3%nat; QPop; QPop] = Ok (Queue [3%nat] [0], [1; 2; 1; 2]%nat).
Proof. vm_compute. reflexivity. Qed.
Example ex_C60_all : exists q, q_run 2 q_empty [QPush 1%nat; QPush 2%nat; QPop; QPop; QPush 3%nat; QPop; QPop; QPop; QPop] = Ok (q, [1; 2; 1; 2; 3; 3]%nat) /\ q_size q = 0.
Proof. eexists. split; vm_compute; reflexivity. Qed.

(** ** C61, C62: one handler of messages, arbitrary state; the pose and twist measurements
    are instances below. *)
Section Measurement.
Variable Msg S : Type.
Variable handle : S -> Msg -> outcome S.
Variable steps : Z.
Definition one_update (q : queue Msg) (s : S) : outcome (queue Msg * S) := update_loop handle steps (length (msgs q)) 0 q s.

(** A queue reached by arrivals and pops. *)
Definition reachable_queue (q : queue Msg) : Prop := exists h log, q_run steps q_empty h = Ok (q, log).
Lemma reachable_wf q : reachable_queue q -> wf q.
Proof. intros [h [log E]]. eapply (run_wf steps h q_empty []); [reflexivity|exact E]. Qed.

(** One Update handles, in order, the first k messages of the queue, where k is at least
    half of the queue; these are all if none of them is in its last turn. *)
Theorem C61_front_half_partial q s : reachable_queue q ->
  exists k q', q_size q <= 2 * Z.of_nat k /\ Z.of_nat k <= q_size q /\
    one_update q s = (s' <- foldM handle s (firstn k (msgs q)) ;; Ok (q', s')).
Proof.
  intros R. pose proof (reachable_wf q R) as W. destruct (cycle_prefix steps q W) as [P1 [P2 [P3 P4]]]. cbv zeta in *.
  exists (length (fst (cycle steps (length (msgs q)) 0 q))), (snd (cycle steps (length (msgs q)) 0 q)).
  unfold zlen in P3, P4. split; auto. split; auto. rewrite <- P1. apply loop_runs; auto using size_fuel; lia.
Qed.
Theorem C61_all_partial q s : reachable_queue q -> Forall (fun a => a + 1 < steps) (ages q) ->
  exists q', one_update q s = (s' <- foldM handle s (msgs q) ;; Ok (q', s')).
Proof.
  intros R F. pose proof (reachable_wf q R) as W. destruct (cycle_prefix steps q W) as [P1 _]. cbv zeta in *.
  assert (L : zlen (fst (cycle steps (length (msgs q)) 0 q)) = q_size q - 0).
  { apply cycle_all; auto using size_fuel; try lia; [|unfold q_size, zlen; lia]. apply Forall_forall. intros ma H.
    assert (I : In ma (items q)) by (rewrite <- (firstn_skipn (Z.to_nat (q_size q - 0)) (items q)); apply in_or_app; auto).
    rewrite <- (items_ages q W), Forall_forall in F. apply F. apply in_map. auto. }
  exists (snd (cycle steps (length (msgs q)) 0 q)). unfold one_update. rewrite loop_runs by (auto using size_fuel; lia). rewrite P1.
  replace (length (fst (cycle steps (length (msgs q)) 0 q))) with (length (msgs q)) by (unfold q_size, zlen in L; lia). rewrite firstn_all. reflexivity.
Qed.
(** With smoothing_steps = 1 and two waiting messages only the first is handled. *)
Theorem C61_skipped_refuted m1 m2 s : steps = 1 ->
  reachable_queue (Queue [m1; m2] [0; 0]) /\
  one_update (Queue [m1; m2] [0; 0]) s = (s' <- handle s m1 ;; Ok (Queue [m2] [0], s')).
Proof.
  intros H. split. { exists [QPush m1; QPush m2], []. reflexivity. }
  unfold one_update. rewrite H. cbn. destruct (handle s m1); reflexivity.
Qed.
(** The same happens for every smoothing_steps when the waiting messages are in their last
    turn. *)
Theorem C61_last_turn_refuted m1 m2 s : 1 <= steps ->
  one_update (Queue [m1; m2] [steps - 1; steps - 1]) s = (s' <- handle s m1 ;; Ok (Queue [m2] [steps - 1], s')).
Proof.
  intros H. unfold one_update. cbn [length msgs update_loop q_size zlen q_pop ages]. cbn [Z.of_nat Z.ltb Z.compare Pos.of_succ_nat Pos.succ Pos.compare Pos.compare_cont].
  replace (steps - 1 + 1 <? steps) with false by (symmetry; apply Z.ltb_ge; lia). cbn. destruct (handle s m1); reflexivity.
Qed.
End Measurement.

Section History.
Variable Msg S Arg : Type.
Variable handle : Arg -> S -> Msg -> outcome S.
Variable steps : Z.
Variable eq_dec : forall a b : Msg, {a = b} + {a <> b}.
(** Arrivals and update cycles; the second component of the state is what the filter has
    become and the list of all messages handed to it so far. *)
Definition measure (s : queue Msg * (S * list Msg)) (o : mop Msg Arg) : outcome (queue Msg * (S * list Msg)) :=
  match o with
  | MArrive m => Ok (q_push (fst s) m, snd s)
  | MCycle a => one_update Msg (S * list Msg) (recording (handle a)) steps (fst s) (snd s)
  end.
(** Recording the messages changes nothing else. *)
Theorem C62_recording h a s0 q s log : foldM measure (q_empty, (s0, [])) h = Ok (q, (s, log)) ->
  (' (q', (s', _)) <- measure (q, (s, log)) (MCycle a) ;; Ok (q', s')) = one_update Msg S (handle a) steps q s.
Proof.
  intros E. assert (W : wf q) by (eapply (m_wf handle steps h (s0, []) q_empty); [reflexivity|exact E]).
  exact (recording_faithful handle steps a q s log W).
Qed.
(** Whatever arrives: a message still waiting has been handed over as often as its age
    says; one that has left the queue exactly smoothing_steps times. *)
Theorem C62_total h s0 q s log : 1 <= steps -> NoDup (arrived h) -> foldM measure (q_empty, (s0, [])) h = Ok (q, (s, log)) ->
  forall m, In m (arrived h) ->
    (exists a, waits q m a /\ 0 <= a < steps /\ Z.of_nat (count_occ eq_dec log m) = a) \/
    (~ In m (msgs q) /\ Z.of_nat (count_occ eq_dec log m) = steps).
Proof.
  intros HS ND E. destruct (m_book handle steps eq_dec h HS ND s0 q s log E) as (W & F & NDq & I & B1 & B2 & B3).
  intros m Hm. destruct (in_dec eq_dec m (msgs q)) as [Y|N]; [left|right; auto].
  rewrite <- (items_msgs q W) in Y. apply in_map_iff in Y. destruct Y as [[m' a] [E1 IN]]. cbn in E1. subst m'.
  exists a. rewrite items_waits by auto. split; auto. rewrite Forall_forall in F. split; [apply (F _ IN)|apply B1; auto].
Qed.
(** When arrivals stop, the queue is empty after as many cycles as deliveries are due, and
    then every message has been handed over exactly smoothing_steps times. *)
Theorem C62_drains h s0 q s log later q' s' log' : 1 <= steps -> NoDup (arrived h) ->
  foldM measure (q_empty, (s0, [])) h = Ok (q, (s, log)) ->
  due steps q <= Z.of_nat (length later) -> foldM measure (q, (s, log)) (map MCycle later) = Ok (q', (s', log')) ->
  q' = q_empty /\ forall m, In m (arrived h) -> Z.of_nat (count_occ eq_dec log' m) = steps.
Proof.
  intros HS ND E D E'. destruct (m_book handle steps eq_dec h HS ND s0 q s log E) as (W & F & _).
  pose proof (m_drains handle steps later q (s, log) q' (s', log') W F D E') as Q. split; auto. intros m Hm.
  assert (AL : arrived (h ++ map MCycle later) = arrived h).
  { unfold arrived. rewrite flat_map_app. replace (flat_map _ (map MCycle later)) with (@nil Msg); [apply app_nil_r|].
    clear. induction later; cbn; auto. }
  assert (EE : foldM measure (q_empty, (s0, [])) (h ++ map MCycle later) = Ok (q', (s', log'))) by (rewrite foldM_app, E; exact E').
  destruct (C62_total (h ++ map MCycle later) s0 q' s' log' HS ltac:(rewrite AL; auto) EE m ltac:(rewrite AL; auto)) as [[a [[i [X _]] _]]|[_ X]]; auto.
  subst q'. destruct i; discriminate X.
Qed.
(** A waiting message is not starved: the one at position p is handled within the next
    p + 1 cycles, whatever arrives. *)
Theorem C62_no_starvation h s0 q s log p m : foldM measure (q_empty, (s0, [])) h = Ok (q, (s, log)) -> nth_error (msgs q) p = Some m ->
  forall h' q' s' log', foldM measure (q, (s, log)) h' = Ok (q', (s', log')) -> (p < cycles h')%nat ->
  exists new, log' = log ++ new /\ In m new.
Proof.
  intros E N. assert (W : wf q) by (eapply (m_wf handle steps h (s0, []) q_empty); [reflexivity|exact E]). clear E. intros h'.
  revert q s log p W N. induction h' as [|o h' IH]; intros q s log p W N q' s' log' E L; [cbn in L; lia|]. cbn [foldM] in E.
  assert (MONO : forall h1 q1 s1 l1 q2 s2 l2, wf q1 -> foldM measure (q1, (s1, l1)) h1 = Ok (q2, (s2, l2)) -> exists new, l2 = l1 ++ new).
  { clear. induction h1 as [|o h1 IH]; intros q1 s1 l1 q2 s2 l2 W E; cbn [foldM] in E; [injection E as _ _ <-; exists []; rewrite app_nil_r; auto|].
    destruct o as [m0|a].
    - cbn [measure bind fst snd] in E. eapply IH; [|exact E]. apply push_items; auto.
    - change (measure (q1, (s1, l1)) (MCycle a)) with (m_step handle steps (q1, (s1, l1)) (MCycle a)) in E.
      rewrite cycle_step in E by auto. destruct (foldM (handle a) s1 _) as [s3| | | | |]; cbn [bind] in E; try discriminate E.
      destruct (IH _ _ _ _ _ _ (proj1 (proj2 (cycle_prefix steps q1 W))) E) as [new ->]. eexists. rewrite <- app_assoc. reflexivity. }
  destruct o as [m0|a].
  - cbn [measure bind fst snd] in E. eapply (IH (q_push q m0) s log p); [apply push_items; auto| |exact E|exact L].
    cbn [q_push msgs]. rewrite nth_error_app1; auto. apply nth_error_Some. congruence.
  - change (measure (q, (s, log)) (MCycle a)) with (m_step handle steps (q, (s, log)) (MCycle a)) in E.
    rewrite cycle_step in E by auto. destruct (foldM (handle a) s _) as [s3| | | | |]; cbn [bind] in E; try discriminate E.
    destruct (cycle_prefix steps q W) as [P1 [P2 [P3 P4]]]. destruct (cycle_moves steps (length (msgs q)) 0 q W) as [again PM]. cbv zeta in *.
    set (c := cycle steps (length (msgs q)) 0 q) in *. unfold q_size, zlen in P3, P4.
    assert (LP : (p < length (msgs q))%nat) by (apply nth_error_Some; congruence).
    destruct (MONO _ _ _ _ _ _ _ P2 E) as [rest EL].
    destruct (Nat.ltb_spec p (length (fst c))) as [LT|GE].
    + exists (fst c ++ rest). split; [rewrite EL, app_assoc; auto|]. apply in_or_app. left. rewrite P1.
      apply nth_error_In with p. rewrite <- N. rewrite <- (firstn_skipn (length (fst c)) (msgs q)) at 2. rewrite nth_error_app1; auto. rewrite firstn_length. lia.
    + destruct PM as [PM|PM]; [|lia].
      destruct (IH (snd c) s3 (log ++ fst c) (p - length (fst c))%nat P2) with (q' := q') (s' := s') (log' := log') as [new [E1 E2]]; auto.
      * rewrite PM, nth_error_app1 by (rewrite skipn_length; lia). rewrite <- N. rewrite <- (firstn_skipn (length (fst c)) (msgs q)) at 2.
        rewrite nth_error_app2 by (rewrite firstn_length; lia). rewrite firstn_length, Nat.min_l by lia. reflexivity.
      * change (cycles (MCycle a :: h')) with (Datatypes.S (cycles h')) in L. lia.
      * exists (fst c ++ new). split; [rewrite E1, app_assoc; auto|]. apply in_or_app. auto.
Qed.
End History.

(** The pose and twist measurements are such handlers. *)
Section Instances.
Variable A : arith.
Variable roundf : D A -> option Z.
Variable sin cos : D A -> D A.
Variable atan2 : D A -> D A -> D A.
Variable Orient : Type.
Variable get_yaw : Orient -> D A.
Variable K : kalman A.
Theorem C62_pose_instance p q f now dt :
  pose_update A roundf sin cos atan2 Orient get_yaw K p q f now dt =
  one_update _ _ (pose_body A roundf sin cos atan2 Orient get_yaw K p now dt) (m_steps A p) q f.
Proof. reflexivity. Qed.
Theorem C62_twist_instance p q f now dt :
  twist_update A roundf K p q f now dt = one_update _ _ (twist_body A roundf K p now dt) (m_steps A p) q f.
Proof. reflexivity. Qed.
End Instances.
Example ex_C61 : one_update nat (list nat) (fun s m => Ok (s ++ [m])) 1 (Queue [1; 2; 3; 4; 5]%nat [0; 0; 0; 0; 0]) [] = Ok (Queue [4; 5]%nat [0; 0], [1; 2; 3]%nat).
Proof. vm_compute. reflexivity. Qed.
Example ex_C62 : foldM (measure nat unit unit (fun _ s m => Ok s) 2) (q_empty, (tt, []))
    [MArrive 1%nat; MCycle tt; MArrive 2%nat; MArrive 3%nat; MCycle tt; MCycle tt; MCycle tt; MCycle tt]
  = Ok (q_empty, (tt, [1; 1; 2; 3; 2; 3]%nat)).
Proof. vm_compute. reflexivity. Qed.

(** ** C72 *)
(** Undefined on the empty string (the frame id may be empty: it is the default). *)
Theorem C72_empty_refuted : erase_begin_slash "" = UB.
Proof. reflexivity. Qed.
(** On every other string: one leading slash is removed, otherwise nothing changes. *)
Theorem C72_nonempty_partial c s :
  (c = "/"%char -> erase_begin_slash (String c s) = Ok s) /\ (c <> "/"%char -> erase_begin_slash (String c s) = Ok (String c s)).
Proof.
  cbn. split; intros H; [subst; reflexivity|]. destruct (Ascii.eqb_spec c "/"%char); congruence.
Qed.
(** Idempotent on results that are non-empty and had at most one leading slash. *)
Theorem C72_idempotent_partial s r : erase_begin_slash s = Ok r -> r <> ""%string -> (forall r', s <> ("//" ++ r')%string) -> erase_begin_slash r = Ok r.
Proof.
  destruct s as [|c s]; [discriminate|]. cbn. destruct (Ascii.eqb_spec c "/"%char) as [->|N].
  - intros H NE S. injection H as ->. destruct r as [|d r]; [congruence|]. cbn. destruct (Ascii.eqb_spec d "/"%char) as [->|]; auto. exfalso. apply (S r). reflexivity.
  - intros H _ _. injection H as <-. cbn. destruct (Ascii.eqb_spec c "/"%char); congruence.
Qed.
Example ex_C72 : erase_begin_slash "/map" = Ok "map"%string /\ erase_begin_slash "map" = Ok "map"%string.
Proof. split; reflexivity. Qed.

Print Assumptions C60_deliveries.
Print Assumptions C60_exactly_max_age.
Print Assumptions C60_drains.
Print Assumptions C60_ages.
Print Assumptions C60_round_robin.
Print Assumptions C60_pop_empty.
Print Assumptions C61_front_half_partial.
Print Assumptions C61_all_partial.
Print Assumptions C61_skipped_refuted.
Print Assumptions C61_last_turn_refuted.
Print Assumptions C62_recording.
Print Assumptions C62_total.
Print Assumptions C62_drains.
Print Assumptions C62_no_starvation.
Print Assumptions C72_empty_refuted.
Print Assumptions C72_nonempty_partial.
Print Assumptions C72_idempotent_partial.
