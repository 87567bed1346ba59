(** Property C149: line markers. *)
From Coq Require Import List ZArith Bool Lia Reals String Lra.
From Flocq Require Import Core BinarySingleNaN.
From Verif Require Import Base Arith MarkerModel FiniteProofs.
Import ListNotations.
Notation length := List.length.
Open Scope Z_scope.

(** ** Specification *)
(** A number from 0 to 1. *)
Definition unit_number (x : b32) : Prop := is_finite x = true /\ (0 <= B2R x <= 1)%R.
(** Widths and colours have to be numbers from 0 to 1. *)
Definition allowed (c : call) : Prop :=
  match c with
  | Width w => unit_number w
  | Color r g b a => unit_number r /\ unit_number g /\ unit_number b /\ unit_number a
  | Line _ _ => True
  end.
(** The lines among the calls. *)
Definition lines_of (calls : list call) : list ((b64 * b64 * b64) * (b64 * b64 * b64)) :=
  flat_map (fun c => match c with Line s e => [(s, e)] | _ => [] end) calls.
(** A call that sets the width, or the colour. *)
Definition is_width (c : call) : bool := match c with Width _ => true | _ => false end.
Definition is_color (c : call) : bool := match c with Color _ _ _ _ => true | _ => false end.
(** A point of a message has the three coordinates. *)
Definition has_coordinates (p : gpoint) (v : b64 * b64 * b64) : Prop := v = (gx p, gy p, gz p).

(** ** Proofs *)
Lemma one64 : B2R (of_Z64 1) = 1%R /\ is_finite (of_Z64 1) = true.
Proof.
  split; [|reflexivity]. pose proof (binary_normalize_correct 53 1024 prec64 emax64 mode_NE 1 0 false) as H. cbv zeta in H.
  replace (F2R {| Fnum := 1; Fexp := 0 |}) with 1%R in H by (unfold F2R; cbn; lra).
  rewrite round_generic in H; [|apply valid_rnd_round_mode|].
  - rewrite Rlt_bool_true in H; [apply H|]. rewrite Rabs_R1. change 1%R with (bpow radix2 0). now apply bpow_lt.
  - change 1%R with (bpow radix2 0). apply generic_format_bpow. vm_compute. discriminate.
Qed.
Lemma in_unit_spec x : in_unit x = true <-> unit_number x.
Proof.
  unfold in_unit, unit_number. destruct (is_finite x) eqn:Fx.
  - destruct (conv64_ok x Fx) as [E F]. destruct one64 as [O1 O2]. rewrite andb_true_iff.
    rewrite (Bleb_correct 53 1024 (of_Z64 0) (conv64 x) eq_refl F), (Bleb_correct 53 1024 (conv64 x) (of_Z64 1) F O2), O1.
    change (B2R (of_Z64 0)) with 0%R. change (B2R (conv64 x) = B2R x) in E. rewrite E.
    split.
    + intros [H1 H2]. split; auto. destruct (Rle_bool_spec 0 (B2R x)); [|discriminate]. destruct (Rle_bool_spec (B2R x) 1); [|discriminate]. lra.
    + intros [_ H]. split; apply Rle_bool_true; apply H.
  - split; [|intros [H _]; discriminate]. destruct x as [s|[|]| |]; try discriminate; vm_compute; discriminate.
Qed.
Lemma in_unit_not x : ~ unit_number x -> in_unit x = false.
Proof. intros H. destruct (in_unit x) eqn:E; auto. exfalso. apply H. now apply in_unit_spec. Qed.
Lemma unit_dec x : unit_number x \/ ~ unit_number x.
Proof. destruct (in_unit x) eqn:E; [left; now apply in_unit_spec|right]. intros H. apply in_unit_spec in H. congruence. Qed.
Lemma allowed_dec c : allowed c \/ ~ allowed c.
Proof.
  destruct c as [w|r g b a|s e]; cbn [allowed]; [apply unit_dec| |auto].
  destruct (unit_dec r), (unit_dec g), (unit_dec b), (unit_dec a); tauto.
Qed.
(** What a call does. *)
Lemma call_allowed m c : allowed c -> exists m', do_call m c = Ok m' /\ mtype m' = mtype m /\ mstamp m' = mstamp m /\ mframe m' = mframe m /\
  mpoints m' = mpoints m ++ flat_map (fun l => [make_point (fst l); make_point (snd l)]) (lines_of [c]) /\
  (is_width c = false -> scale_x m' = scale_x m) /\ (forall w, c = Width w -> scale_x m' = conv64 w) /\
  (is_color c = false -> (red m', green m', blue m', alpha m') = (red m, green m, blue m, alpha m)) /\
  (forall r g b a, c = Color r g b a -> (red m', green m', blue m', alpha m') = (r, g, b, a)).
Proof.
  destruct c as [w|r g b a|s e]; cbn [allowed do_call].
  - intros H. apply in_unit_spec in H. unfold set_width, assert_. rewrite H. eexists. split; [reflexivity|]. cbn. rewrite app_nil_r.
    repeat split; auto; try discriminate. intros ? [= <-]. reflexivity.
  - intros [H1 [H2 [H3 H4]]]. apply in_unit_spec in H1, H2, H3, H4. unfold set_color, assert_. rewrite H1, H2, H3, H4. eexists. split; [reflexivity|]. cbn. rewrite app_nil_r.
    repeat split; auto; try discriminate. intros ? ? ? ? [= <- <- <- <-]. reflexivity.
  - intros _. eexists. split; [reflexivity|]. cbn. repeat split; auto; discriminate.
Qed.
Lemma call_rejected m c : ~ allowed c -> do_call m c = AssertFail.
Proof.
  destruct c as [w|r g b a|s e]; cbn [allowed do_call]; intros H; [| |tauto].
  - unfold set_width, assert_. now rewrite in_unit_not.
  - unfold set_color, assert_. destruct (in_unit r) eqn:Er; auto. destruct (in_unit g) eqn:Eg; auto. destruct (in_unit b) eqn:Eb; auto. destruct (in_unit a) eqn:Ea; auto.
    exfalso. apply H. now rewrite <- !in_unit_spec.
Qed.
Lemma calls_allowed calls m : Forall allowed calls -> exists m', foldM do_call m calls = Ok m' /\ mtype m' = mtype m /\ mstamp m' = mstamp m /\ mframe m' = mframe m /\
  mpoints m' = mpoints m ++ flat_map (fun l => [make_point (fst l); make_point (snd l)]) (lines_of calls) /\
  (existsb is_width calls = false -> scale_x m' = scale_x m) /\
  (existsb is_color calls = false -> (red m', green m', blue m', alpha m') = (red m, green m, blue m, alpha m)).
Proof.
  revert m. induction calls as [|c calls IH]; intros m H.
  - exists m. cbn. rewrite app_nil_r. auto 8.
  - destruct (call_allowed m c (Forall_inv H)) as [m1 [E1 [E2 [E3 [E4 [E5 [E6 [_ [E7 _]]]]]]]]].
    destruct (IH m1 (Forall_inv_tail H)) as [m2 [F1 [F2 [F3 [F4 [F5 [F6 F7]]]]]]].
    exists m2. cbn [foldM]. rewrite E1. cbn [bind]. split; [exact F1|]. repeat (split; [congruence|]). split; [|split].
    + rewrite F5, E5, <- app_assoc. f_equal. unfold lines_of. cbn [flat_map]. now rewrite app_nil_r, flat_map_app.
    + cbn [existsb]. intros HW. apply orb_false_elim in HW. destruct HW. rewrite F6 by auto. auto.
    + cbn [existsb]. intros HW. apply orb_false_elim in HW. destruct HW. rewrite F7 by auto. auto.
Qed.
Lemma foldM_app {X S} (f : S -> X -> outcome S) s l1 l2 : foldM f s (l1 ++ l2) = (s' <- foldM f s l1 ;; foldM f s' l2).
Proof. revert s. induction l1 as [|x l1 IH]; intros s; [reflexivity|]. cbn [app foldM]. destruct (f s x); cbn [bind]; auto. Qed.
Lemma pair_at l k s e : nth_error l k = Some (s, e) ->
  let q := flat_map (fun l => [make_point (fst l); make_point (snd l)]) l in
  nth_error q (2 * k) = Some (make_point s) /\ nth_error q (2 * k + 1) = Some (make_point e).
Proof.
  revert k. induction l as [|x l IH]; intros k H; [destruct k; discriminate|]. destruct k as [|k]; cbn [nth_error] in H.
  - injection H as ->. split; reflexivity.
  - replace (2 * S k)%nat with (S (S (2 * k))) by lia. cbn [flat_map app Nat.add nth_error]. apply (IH k H).
Qed.
Lemma coordinates v : has_coordinates (make_point v) v.
Proof. destruct v as [[x y] z]. reflexivity. Qed.

(** Numbers from 0 to 1 only: the marker is a line list with the stamp and the frame, and its
    points are the ends of the added lines, two for each line, in their order. *)
Theorem C149_lines stamp frame calls : Forall allowed calls ->
  exists m, draw stamp frame calls = Ok m /\ mtype m = 5 /\ mstamp m = stamp /\ mframe m = frame /\
    length (mpoints m) = (2 * length (lines_of calls))%nat /\
    forall k s e, nth_error (lines_of calls) k = Some (s, e) ->
      exists p q, nth_error (mpoints m) (2 * k) = Some p /\ nth_error (mpoints m) (2 * k + 1) = Some q /\ has_coordinates p s /\ has_coordinates q e.
Proof.
  intros H. destruct (calls_allowed calls (init_lines stamp frame) H) as [m [E1 [E2 [E3 [E4 [E5 _]]]]]]. cbn in E2, E3, E4. cbn [mpoints init_lines app] in E5.
  exists m. split; [exact E1|]. repeat (split; [assumption|]). rewrite E5. split.
  - generalize (lines_of calls). intros l. induction l as [|x l IH]; [reflexivity|]. cbn [flat_map length app]. rewrite IH. lia.
  - intros k s e Hk. destruct (pair_at _ _ _ _ Hk) as [P1 P2]. exists (make_point s), (make_point e). repeat split; auto using coordinates.
Qed.
Print Assumptions C149_lines.

(** The width is the last one set, the colour the last one set. *)
Theorem C149_last_width stamp frame pre w post m : draw stamp frame (pre ++ Width w :: post) = Ok m ->
  Forall allowed (pre ++ Width w :: post) -> existsb is_width post = false -> B2R (scale_x m) = B2R w.
Proof.
  unfold draw. intros E H HW. apply Forall_app in H. destruct H as [H1 H2]. rewrite foldM_app in E.
  destruct (calls_allowed pre (init_lines stamp frame) H1) as [m1 [E1 _]]. rewrite E1 in E. cbn [bind foldM] in E.
  destruct (call_allowed m1 (Width w) (Forall_inv H2)) as [m2 [E2 [_ [_ [_ [_ [_ [E3 _]]]]]]]]. rewrite E2 in E. cbn [bind] in E.
  destruct (calls_allowed post m2 (Forall_inv_tail H2)) as [m3 [E4 [_ [_ [_ [_ [E5 _]]]]]]]. rewrite E4 in E. injection E as <-.
  rewrite E5, (E3 w eq_refl) by assumption. apply conv64_ok. apply (Forall_inv H2).
Qed.
Print Assumptions C149_last_width.
Theorem C149_last_color stamp frame pre r g b a post m : draw stamp frame (pre ++ Color r g b a :: post) = Ok m ->
  Forall allowed (pre ++ Color r g b a :: post) -> existsb is_color post = false ->
  red m = r /\ green m = g /\ blue m = b /\ alpha m = a.
Proof.
  unfold draw. intros E H HW. apply Forall_app in H. destruct H as [H1 H2]. rewrite foldM_app in E.
  destruct (calls_allowed pre (init_lines stamp frame) H1) as [m1 [E1 _]]. rewrite E1 in E. cbn [bind foldM] in E.
  destruct (call_allowed m1 (Color r g b a) (Forall_inv H2)) as [m2 [E2 [_ [_ [_ [_ [_ [_ [_ E3]]]]]]]]]. rewrite E2 in E. cbn [bind] in E.
  destruct (calls_allowed post m2 (Forall_inv_tail H2)) as [m3 [E4 [_ [_ [_ [_ [_ E5]]]]]]]. rewrite E4 in E. injection E as <-.
  specialize (E5 HW). rewrite (E3 r g b a eq_refl) in E5. injection E5 as -> -> -> ->. auto.
Qed.
Print Assumptions C149_last_color.

(** Any other width or colour, NaN and infinities too, fails an assertion. *)
Theorem C149_rejected stamp frame calls : ~ Forall allowed calls -> draw stamp frame calls = AssertFail.
Proof.
  unfold draw. generalize (init_lines stamp frame). induction calls as [|c calls IH]; intros m H; [exfalso; apply H; constructor|].
  cbn [foldM]. destruct (allowed_dec c) as [A|A].
  - destruct (call_allowed m c A) as [m1 [E1 _]]. rewrite E1. cbn [bind]. apply IH. intros F. apply H. now constructor.
  - now rewrite call_rejected.
Qed.
Print Assumptions C149_rejected.

(** Before a width and a colour are set, the lines have no width and are transparent. *)
Theorem C149_unset stamp frame calls m : Forall allowed calls -> draw stamp frame calls = Ok m ->
  (existsb is_width calls = false -> B2R (scale_x m) = 0%R) /\ (existsb is_color calls = false -> B2R (alpha m) = 0%R).
Proof.
  intros H E. destruct (calls_allowed calls (init_lines stamp frame) H) as [m1 [E1 [_ [_ [_ [_ [E6 E7]]]]]]]. unfold draw in E. rewrite E1 in E. injection E as <-.
  split; intros HW; [now rewrite E6|]. specialize (E7 HW). injection E7 as _ _ _ ->. reflexivity.
Qed.
Print Assumptions C149_unset.

Example C149_case : let v z := (of_Z64 z, of_Z64 (z + 1), of_Z64 (z + 2)) in
  let calls := [Line (v 1) (v 2); Width (of_Z32 1); Line (v 5) (v 9); Color (of_Z32 1) (of_Z32 0) (B754_zero true) (of_Z32 1)] in
  Forall allowed calls /\ lines_of calls = [(v 1, v 2); (v 5, v 9)] /\ ~ allowed (Width (of_Z32 2)) /\ ~ allowed (Color (of_Z32 1) B754_nan (of_Z32 1) (of_Z32 1)).
Proof.
  assert (U : forall x, in_unit x = true -> unit_number x) by (intros; now apply in_unit_spec).
  assert (N : forall x, in_unit x = false -> ~ unit_number x) by (intros x E Hx; apply in_unit_spec in Hx; congruence).
  intros v calls. split; [|split; [reflexivity|split]].
  - apply Forall_cons; [exact I|]. apply Forall_cons; [apply U; reflexivity|]. apply Forall_cons; [exact I|].
    apply Forall_cons; [|apply Forall_nil]. split; [|split; [|split]]; apply U; reflexivity.
  - apply N. reflexivity.
  - intros [_ [[H _] _]]. discriminate.
Qed.
