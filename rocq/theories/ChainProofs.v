(** Proofs about the way from scans to published poses, for C139. *)
From Coq Require Import String List ZArith Bool Sorted Lia.
From Verif Require Import Base Arith ExtractModel NodeModel SyncModel LocModel SpecLoc SpecSync SyncProofs ChainModel SpecChain.
Import ListNotations.
Notation length := List.length.
Open Scope Z_scope.

(** ** Messages left out *)
Lemma left_out_in {M} (x y : list M) m : left_out x y -> In m x -> In m y.
Proof. intros H. induction H; cbn [In]; intros K; auto. destruct K as [->|K]; auto. Qed.
Lemma left_out_refl {M} (x : list M) : left_out x x.
Proof. induction x; constructor; auto. Qed.
Lemma left_out_none {M} (y : list M) : left_out [] y.
Proof. induction y; constructor; auto. Qed.
Lemma left_out_app {M} (x y x' y' : list M) : left_out x y -> left_out x' y' -> left_out (x ++ x') (y ++ y').
Proof. intros H H'. induction H; cbn [app]; auto; constructor; auto. Qed.
Lemma left_out_map {M N} (f : M -> N) x y : left_out x y -> left_out (map f x) (map f y).
Proof. intros H. induction H; cbn [map]; constructor; auto. Qed.
Lemma left_out_trans {M} (x y z : list M) : left_out x y -> left_out y z -> left_out x z.
Proof.
  intros H K. revert x H. induction K; intros u H; auto; [|constructor; auto].
  inversion H; subst; constructor; auto.
Qed.
Lemma left_out_sorted (x y : list Z) : left_out x y -> StronglySorted Z.lt y -> StronglySorted Z.lt x.
Proof.
  intros H. induction H; intros S1; auto.
  - apply StronglySorted_inv in S1. destruct S1 as [S1 S2]. constructor; auto. rewrite Forall_forall in *. intros k Hk. apply S2. now apply (left_out_in x y).
  - apply StronglySorted_inv in S1. tauto.
Qed.
Lemma left_out_growing {M} (x y : list (Z * M)) : left_out x y -> growing y -> growing x.
Proof. intros H. apply left_out_sorted. now apply left_out_map. Qed.

(** ** The store of priors *)
Section Store.
Variable A : arith.
Variable O : Type.
Implicit Type m : store A O.
Lemma insert_values t o m p : In p (st_insert t o m) -> snd p = o \/ In p m \/ exists k v, In (k, v) m /\ p = (k, o).
Proof.
  induction m as [|[k v] m IH]; cbn [st_insert In].
  - intros [<-|[]]; auto.
  - destruct (d_ltb A k t); [|destruct (d_ltb A t k)]; cbn [In].
    + intros [<-|K]; auto. destruct (IH K) as [E|[E|[k' [v' [E1 E2]]]]]; auto. right. right. exists k', v'. auto.
    + intros [<-|K]; auto.
    + intros [<-|K]; auto.
Qed.
Lemma insert_snd t o m p : In p (st_insert t o m) -> snd p = o \/ In p m.
Proof. intros H. apply insert_values in H. destruct H as [H|[H|[k [v [_ ->]]]]]; auto. Qed.
Lemma insert_nonempty t o m : st_insert t o m <> [].
Proof. destruct m as [|[k v] m]; cbn [st_insert]; try discriminate. destruct (d_ltb A k t); [|destruct (d_ltb A t k)]; discriminate. Qed.
Lemma lower_split t m : fst (st_lower_bound t m) ++ snd (st_lower_bound t m) = m.
Proof.
  induction m as [|[k v] m IH]; cbn [st_lower_bound]; auto. destruct (d_ltb A k t); cbn [fst snd app]; auto.
  destruct (st_lower_bound t m) as [a b]. cbn [fst snd app] in *. now rewrite IH.
Qed.
Lemma upper_split t m : fst (st_upper_bound t m) ++ snd (st_upper_bound t m) = m.
Proof.
  induction m as [|[k v] m IH]; cbn [st_upper_bound]; auto. destruct (d_ltb A t k); cbn [fst snd app]; auto.
  destruct (st_upper_bound t m) as [a b]. cbn [fst snd app] in *. now rewrite IH.
Qed.
Lemma prev_in m p : st_prev m = Ok p -> In p m.
Proof.
  unfold st_prev. destruct (rev m) as [|q r] eqn:E; intros H; try discriminate. injection H as ->. apply in_rev. rewrite E. now left.
Qed.
Lemma closest_in t m p : st_get_closest t m = Ok p -> In p m.
Proof.
  unfold st_get_closest. pose proof (lower_split t m) as E. destruct (st_lower_bound t m) as [[|b0 b] [|a0 a]]; cbn [fst snd] in E; intros H.
  - discriminate.
  - injection H as ->. rewrite <- E. now left.
  - apply prev_in in H. rewrite <- E. now rewrite app_nil_r.
  - destruct a0 as [t1 o1]. destruct (st_prev (b0 :: b)) as [[t0 o0]| | | | |] eqn:EP; try discriminate. cbn [bind] in H. apply prev_in in EP.
    rewrite <- E. apply in_or_app. destruct (d_ltb A _ _); injection H as <-; [now left|right; now left].
Qed.
Lemma remove_in t m m' p : st_remove_older_than t m = Ok m' -> In p m' -> In p m.
Proof.
  unfold st_remove_older_than. pose proof (upper_split t m) as E. destruct (st_upper_bound t m) as [[|b0 b] [|a0 a]]; cbn [fst snd] in E; intros H K; try discriminate; injection H as <-; auto.
  rewrite <- E. apply in_or_app. now left.
Qed.
End Store.

(** ** The node on the events of a history *)
Lemma foldM_app2 {X S} (f : S -> X -> outcome S) l1 l2 s : foldM f s (l1 ++ l2) = (s' <- foldM f s l1 ;; foldM f s' l2).
Proof. revert s. induction l1 as [|x l1 IH]; intros s; cbn; auto. destruct (f s x); cbn; auto. Qed.

Section Node.
Variable L : arith.
Variable Pose Scan : Type.
Variable localize : Scan -> Pose -> outcome Pose.
Notation ev := (event Pose Scan).
Notation step := (node_step L Pose Scan localize).
Definition scans_of (h : list ev) : list (Z * Scan) := flat_map (fun e => match e with EvPrior _ _ => [] | EvScan t x => [(t, x)] end) h.

Definition publishes (h : list ev) (n : node L Pose) : Prop :=
  (forall p, In p (priors n) -> exists s, In (EvPrior s (snd p)) h) /\
  left_out (map pub_stamp (outs n)) (map fst (scans_of h)) /\
  forall o, In o (outs n) -> tf_stamp o = pub_stamp o /\ tf_pose o = pub_pose o /\
    exists x s p, In (EvScan (pub_stamp o) x) h /\ In (EvPrior s p) h /\ localize x p = Ok (pub_pose o).
Lemma publishes_run h n : node_run L Pose Scan localize h = Ok n -> publishes h n.
Proof.
  revert n. induction h as [|e h IH] using rev_ind; intros n E.
  - injection E as <-. split; [intros p []|]. split; [constructor|intros o []].
  - unfold node_run in E. rewrite foldM_app2 in E. destruct (foldM step _ h) as [n0| | | | |] eqn:E0; try discriminate. cbn [bind foldM] in E.
    destruct (IH n0 E0) as [I1 [I2 I3]].
    assert (I1' : forall p, In p (priors n0) -> exists s, In (EvPrior s (snd p)) (h ++ [e])).
    { intros p Hp. destruct (I1 p Hp) as [s Hs]. exists s. apply in_or_app. now left. }
    assert (I3' : forall o, In o (outs n0) -> tf_stamp o = pub_stamp o /\ tf_pose o = pub_pose o /\
      exists x s p, In (EvScan (pub_stamp o) x) (h ++ [e]) /\ In (EvPrior s p) (h ++ [e]) /\ localize x p = Ok (pub_pose o)).
    { intros o Ho. destruct (I3 o Ho) as [J1 [J2 [x [s [p [J3 [J4 J5]]]]]]]. repeat split; auto. exists x, s, p. repeat split; auto; apply in_or_app; now left. }
    destruct (step n0 e) as [n1| | | | |] eqn:E1; try discriminate. injection E as <-. unfold publishes, scans_of. rewrite flat_map_app, map_app. fold (scans_of h).
    destruct e as [s p|t x]; cbn [node_step flat_map map app] in *.
    + injection E1 as <-. unfold on_prior. split; [|split]; cbn [priors outs]; auto.
      * intros q Hq. apply insert_snd in Hq. destruct Hq as [->|Hq]; auto. exists s. apply in_or_app. right. now left.
      * now rewrite app_nil_r.
    + unfold LocModel.on_scan in E1. destruct (priors n0) as [|p0 m] eqn:EP.
      * injection E1 as <-. rewrite <- EP in *. split; [|split]; auto. rewrite <- (app_nil_r (map pub_stamp (outs n0))). apply left_out_app; auto. apply left_out_none.
      * rewrite <- EP in *. destruct (st_get_closest _ _) as [q| | | | |] eqn:EQ; try discriminate. cbn [bind] in E1.
        destruct (st_remove_older_than _ _) as [rest| | | | |] eqn:ER; try discriminate. cbn [bind] in E1.
        destruct (localize x (snd q)) as [pose| | | | |] eqn:EL; try discriminate. cbn [bind] in E1. injection E1 as <-.
        split; [|split]; cbn [priors outs].
        { intros p Hp. apply I1'. now apply (remove_in _ _ _ _ _ _ ER). }
        { rewrite map_app. cbn [map pub_stamp fst]. apply left_out_app; auto. apply left_out_refl. }
        { intros o Ho. apply in_app_or in Ho. destruct Ho as [Ho|[<-|[]]]; auto. cbn. repeat split; auto.
          apply closest_in in EQ. destruct (I1' _ EQ) as [s Hs]. exists x, s, (snd q). repeat split; auto. apply in_or_app. right. now left. }
Qed.
End Node.
Arguments scans_of {Pose Scan} h.

(** ** The localization process *)
Section Chain.
Variable A L : arith.
Variable srt : sorter.
Variable ord : list (Z * list Z) -> list (Z * list Z).
Variable prm : params A.
Variable Pose : Type.
Variable localize : cloud A * cloud A -> Pose -> outcome Pose.
Notation input := (input A Pose).
Notation step := (localizer_step A L Pose localize).
Notation nstep := (node_step L Pose (cloud A * cloud A) localize).
Notation extractor := (extractor A srt ord prm).
Notation extract := (extract A srt ord prm).
Notation q := localizer_queue.

(** The callbacks of the node over the arrivals. *)
Fixpoint calls (w : waiting_set (cloud A) (cloud A)) (h : list input) : list (event Pose (cloud A * cloud A)) :=
  match h with
  | [] => []
  | Feature e :: r => map (fun c => EvScan (fst (fst c)) (snd (fst c), snd c)) (snd (sync_add q w e)) ++ calls (fst (sync_add q w e)) r
  | Prior t p :: r => EvPrior t p :: calls w r
  end.
Lemma run_calls h w n : foldM step (w, n) h = (n' <- foldM nstep n (calls w h) ;; Ok (fst (sync_run q w (features h)), n')).
Proof.
  revert w n. induction h as [|[e|t p] h IH]; intros w n; cbn [foldM calls features flat_map app].
  - reflexivity.
  - cbn [localizer_step sync_run]. destruct (sync_add q w e) as [w' o] eqn:E. cbn [fst snd].
    assert (EF : foldM (fun n c => let '(t, edge, surface) := c in LocModel.on_scan L Pose (cloud A * cloud A) localize n t (edge, surface)) n o
       = foldM nstep n (map (fun c : Z * cloud A * cloud A => EvScan (fst (fst c)) (snd (fst c), snd c)) o)).
    { clear. revert n. induction o as [|[[t a] b] o IH]; intros n; cbn [foldM map]; auto. cbn [node_step fst snd].
      destruct (LocModel.on_scan _ _ _ _ _ _ _); cbn [bind]; auto. }
    rewrite EF, foldM_app2. destruct (foldM nstep n _) as [n1| | | | |]; cbn [bind]; auto. rewrite IH.
    fold (features h). destruct (sync_run q w' (features h)) as [w2 o2]. reflexivity.
  - cbn [localizer_step bind node_step]. apply IH.
Qed.
Lemma calls_scans h w : scans_of (calls w h) = map (fun c => (fst (fst c), (snd (fst c), snd c))) (snd (sync_run q w (features h))).
Proof.
  revert w. induction h as [|[e|t p] h IH]; intros w; cbn [calls features flat_map app]; auto.
  - unfold scans_of. rewrite flat_map_app. fold (scans_of (calls (fst (sync_add q w e)) h)). rewrite IH. fold (features h). cbn [sync_run].
    destruct (sync_add q w e) as [w' o]. cbn [fst snd]. destruct (sync_run q w' (features h)) as [w2 o2]. cbn [snd]. rewrite map_app. f_equal.
    clear. induction o as [|c o IH]; cbn; auto. now rewrite IH.
  - apply IH.
Qed.
Lemma calls_priors h w : prior_history (calls w h) = received h.
Proof.
  revert w. induction h as [|[e|t p] h IH]; intros w; cbn [calls received flat_map app prior_history]; auto; fold (received h).
  - rewrite <- (IH (fst (sync_add q w e))). generalize (snd (sync_add q w e)). intros o. induction o as [|c o IHo]; cbn; auto.
  - f_equal. apply IH.
Qed.

(** ** The messages of the extraction *)
Lemma extractor_stamps scans : exists r, map (fun s => s_stamp s) scans = map (fun m => fst (fst m)) (extractor scans) ++ r.
Proof.
  induction scans as [|s scans IH]; cbn [ChainModel.extractor map]; [exists []; auto|].
  destruct (extract s) as [out| | | | |]; cbn [map app]; [|exists (s_stamp s :: map (fun s => s_stamp s) scans); reflexivity..].
  destruct (o_shutdown A out); cbn [map app fst].
  - exists (map (fun s => s_stamp s) scans). reflexivity.
  - destruct IH as [r ->]. exists r. reflexivity.
Qed.
Lemma extractor_in scans t e f : In (t, e, f) (extractor scans) -> exists s out, In s scans /\ s_stamp s = t /\ extract s = Ok out /\ e = o_edge A out /\ f = o_surface A out.
Proof.
  induction scans as [|s scans IH]; cbn [ChainModel.extractor]; [intros []|].
  destruct (extract s) as [out| | | | |] eqn:E; [|intros []..].
  intros [K|K].
  { injection K as <- <- <-. exists s, out. repeat split; auto. now left. }
  destruct (o_shutdown A out); [destruct K|]. destruct (IH K) as [s' [out' [H1 H2]]]. exists s', out'. split; auto. now right.
Qed.
End Chain.
