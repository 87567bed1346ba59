(** C123: left and right in the feature extraction. *)
From Coq Require Import List ZArith Reals Bool Lia Lra Permutation Sorting.Sorted.
From Flocq Require Import Core.Zaux Core.Raux IEEE754.BinarySingleNaN.
From Verif Require Import Base Arith ExtractModel Spec SpecReal SpecMount SpecFlip RefSort LabelProofs RingMapProofs AngleProofs
  OrderProofs TieProofs RelatedProofs MountProofs FlipCallback Prop_Pipeline.
Import ListNotations.
Open Scope Z_scope.

(** * C123 The features of a scan seen in a mirror are the mirrored features *)

(** ** Refuted, whatever conforming sort is used: a ring is cut into blocks from the right, and
    when the points do not divide evenly the mirrored scan is cut elsewhere.  Two neighbouring
    returns that fall into different blocks are both published as edges; mirrored, they fall
    into one block and only one of them is. *)
Definition wall : list (point XA) :=
  [ex_pt 0 9888 (-1494); ex_pt 0 13930 (-1398); ex_pt 0 18976 (-950); ex_pt 0 20000 0;
   ex_pt 0 15980 800; ex_pt 0 10945 1098; ex_pt 0 7910 1196].
Definition looked (mirrored : bool) : list (point XA) := if mirrored then map (mirrored_float ex_acos) wall else wall.
Definition wall_params : params XA := {|
  p_padding := 1; p_rad := of_me64 1 (-2) : D XA; p_distance := of_Z64 50000 : D XA; p_ratio := of_Z64 5;
  p_edge := of_Z64 9000000; p_surface := of_Z64 10; p_min := of_Z64 1; p_max := of_Z64 1000000;
  p_blocks := 2 |}.
Lemma wall_valid : valid_params XA wall_params.
Proof.
  split; [reflexivity|]. split; [reflexivity|].
  repeat (apply Forall_cons; [vm_compute; reflexivity|]). apply Forall_nil.
Qed.

Definition wall_order (mirrored : bool) : list Z := if mirrored then [6; 5; 4; 3; 2; 1; 0] else zrange 7.
Lemma looked_rings srt b : valid_sort srt -> extract_rings XA srt (looked b) = Ok [(0, wall_order b)].
Proof.
  intros Hv. unfold extract_rings.
  assert (E : make_point_indices XA (looked b) = [(0, zrange 7)]) by (destruct b; vm_compute; reflexivity).
  rewrite E. unfold sort_each_ring. cbn [mapM fst snd]. unfold sort_by_atan2, std_sort.
  assert (W : swo_on (polar_less_ix XA (looked b)) (zrange 7) = true) by (destruct b; vm_compute; reflexivity).
  rewrite W. cbn [bind].
  assert (H : In (srt (polar_less_ix XA (looked b)) (zrange 7)) (sorted_perms 7 (polar_less_ix XA (looked b)) (zrange 7))).
  { apply (valid_sort_perms srt (polar_less_ix XA (looked b)) (zrange 7)); auto; [apply zrange_NoDup|]. apply swo_on_spec. auto. }
  assert (EP : sorted_perms 7 (polar_less_ix XA (looked b)) (zrange 7) = [wall_order b]) by (destruct b; vm_compute; reflexivity).
  rewrite EP in H. destruct H as [H|[]]. rewrite <- H. auto.
Qed.

Definition wall_published (b : bool) : outcome (clouds XA) :=
  ring_step XA isort wall_params (looked b) {| c_edge := []; c_surface := []; c_colored := [] |} (0, wall_order b).

Definition wall_curvatures (m : mapped XA) (b e : Z) : outcome (list (D XA)) :=
  ranges <- range_interval XA m 0 7 ;; curv <- calc_curvature XA ranges 1 ;; vslice curv b e.

Lemma looked_labels srt b c : valid_sort srt ->
  let m := {| m_cloud := looked b; m_indices := wall_order b |} in
  ring_labels XA srt wall_params m c = ring_labels XA isort wall_params m c.
Proof.
  intros Hv m. apply ring_labels_sorters. intros ranges curv r j bb e cv H1 H2 H3 H4 H5 H6.
  assert (Hsz : m_size XA m = 7) by (destruct b; reflexivity).
  rewrite Hsz in *.
  assert (Er : r = {| ir_start := 1; ir_end := 6; ir_n := 2 |}) by (cbn in H3; inversion H3; auto). subst r.
  assert (Ej : j = 0 \/ j = 1).
  { unfold ir_begin, check_block in H4. cbn [ir_n] in H4. destruct (2 <=? j) eqn:J1; [discriminate|].
    destruct (j <? 0) eqn:J2; [discriminate|]. lia. }
  assert (Ebe : bb = (if j =? 0 then 1 else 3) /\ e = (if j =? 0 then 3 else 6)).
  { destruct Ej as [-> | ->]; vm_compute in H4, H5; injection H4 as <-; injection H5 as <-; auto. }
  destruct Ebe as [-> ->].
  assert (Hc : wall_curvatures m (if j =? 0 then 1 else 3) (if j =? 0 then 3 else 6) = Ok cv).
  { unfold wall_curvatures. rewrite H1. cbn [bind]. change (calc_curvature XA ranges 1 = Ok curv) in H2. rewrite H2. auto. }
  set (n := if j =? 0 then 2%nat else 3%nat).
  assert (Hp : match wall_curvatures m (if j =? 0 then 1 else 3) (if j =? 0 then 3 else 6) with
    | Ok v => length v = n /\ swo_on (by_value XA v) (zrange n) = true /\
              sorted_perms n (by_value XA v) (zrange n) = [isort (by_value XA v) (zrange n)]
    | _ => False end).
  { subst m n. destruct Ej as [-> | ->]; destruct b; vm_compute; auto. }
  rewrite Hc in Hp. destruct Hp as [Hl [Hw Hp]]. unfold argsort, std_sort. rewrite Hl, Hw.
  assert (H : In (srt (by_value XA cv) (zrange n)) (sorted_perms n (by_value XA cv) (zrange n))).
  { replace (sorted_perms n) with (sorted_perms (length (zrange n))) by (unfold zrange; rewrite map_length, seq_length; auto).
    apply (valid_sort_perms srt (by_value XA cv) (zrange n)); auto; [apply zrange_NoDup|]. apply swo_on_spec. auto. }
  rewrite Hp in H. destruct H as [H|[]]. rewrite H. auto.
Qed.

Lemma looked_callback srt b : valid_sort srt ->
  callback XA srt (fun l => l) wall_params true true (looked b) =
  (st <- wall_published b ;;
   Ok {| o_shutdown := false; o_colored := c_colored XA st; o_edge := map (xyz XA) (c_edge XA st);
         o_surface := map (xyz XA) (c_surface XA st) |}).
Proof.
  intros Hv. unfold callback. rewrite (looked_rings srt b Hv). cbn [bind].
  assert (E : remove_sparse_rings [(0, wall_order b)] (p_padding XA wall_params + 1) = [(0, wall_order b)]) by (destruct b; reflexivity).
  rewrite E. cbn [foldM]. unfold wall_published, ring_step, try_ring. cbn [snd].
  destruct (make_nb_xy XA _ _) as [c| | | | |]; cbn [bind]; auto.
  rewrite (looked_labels srt b c Hv). match goal with |- bind (bind ?X _) _ = _ => destruct X; reflexivity end.
Qed.

Theorem C123_left_right_refuted srt : valid_sort srt ->
  exists (acosf : b64 -> b64) (P : params (ieee acosf)) cloud out1 out2,
    valid_params (ieee acosf) P /\ Forall (finite_xy acosf) cloud /\
    callback (ieee acosf) srt (fun l => l) P true true cloud = Ok out1 /\
    callback (ieee acosf) srt (fun l => l) P true true (map (mirrored_float acosf) cloud) = Ok out2 /\
    length (o_edge (ieee acosf) out1) = 2%nat /\ length (o_edge (ieee acosf) out2) = 1%nat.
Proof.
  intros Hv.
  assert (HE : forall b, exists out, callback XA srt (fun l => l) wall_params true true (looked b) = Ok out /\
     length (o_edge XA out) = if b then 1%nat else 2%nat).
  { intros b. rewrite (looked_callback srt b Hv).
    assert (E : match wall_published b with Ok st => length (map (xyz XA) (c_edge XA st)) = if b then 1%nat else 2%nat | _ => False end)
      by (destruct b; vm_compute; reflexivity).
    destruct (wall_published b) as [st| | | | |]; try contradiction. cbn [bind]. eexists. split; [reflexivity|]. exact E. }
  destruct (HE false) as [o1 [C1 E1]], (HE true) as [o2 [C2 E2]].
  exists ex_acos, wall_params, wall, o1, o2.
  split; [exact wall_valid|]. split.
  { repeat (apply Forall_cons; [split; vm_compute; reflexivity|]). apply Forall_nil. }
  split; [exact C1|]. split; [exact C2|]. split; [exact E1|exact E2].
Qed.
Print Assumptions C123_left_right_refuted.

(** ** What holds, in exact arithmetic: if no return lies straight behind the sensor, no two
    returns of a ring have the same direction, every ring long enough to be labelled divides
    evenly into blocks, and no two places of it bend alike, then both scans are processed, and
    what is published of the mirrored scan is the mirror image of what is published of the
    scan, edges, surfaces and colours.  Missing: rings that do not divide evenly (where it
    fails), returns straight behind, and places that bend alike. *)
Theorem C123_left_right_partial srt ord1 ord2 (P : params exact) dense has_ring cloud :
  valid_sort srt -> valid_order ord1 -> valid_order ord2 ->
  1 <= p_padding exact P -> 1 <= p_blocks exact P -> zlen cloud + p_padding exact P + 2 < 2 ^ 31 ->
  (forall p, In p cloud -> exists phi, azimuth p phi /\ (phi < PI)%R) ->
  (forall i j p q phi psi, i <> j -> get cloud i = Some p -> get cloud j = Some q ->
     pring exact p = pring exact q -> azimuth p phi -> azimuth q psi -> phi <> psi) ->
  (forall k l, Permutation l (returns_of cloud k) -> around l -> 2 * p_padding exact P + p_blocks exact P <= zlen l ->
     (p_blocks exact P | zlen l - 2 * p_padding exact P) /\ bends_differ (Z.to_nat (p_padding exact P)) l) ->
  exists out1 out2,
    callback exact srt ord1 P dense has_ring cloud = Ok out1 /\
    callback exact srt ord2 P dense has_ring (map mirrored_return cloud) = Ok out2 /\
    Permutation (o_edge exact out2) (map mirrored_xyz (o_edge exact out1)) /\
    Permutation (o_surface exact out2) (map mirrored_xyz (o_surface exact out1)) /\
    Permutation (o_colored exact out2) (map mirrored_color (o_colored exact out1)) /\
    o_shutdown exact out2 = o_shutdown exact out1.
Proof.
  intros Hs O1 O2 Hp HN Hsz Haz Hap Hev.
  exact (callback_mirrored srt Hs cloud Haz Hap P Hp HN Hsz Hev ord1 ord2 dense has_ring O1 O2).
Qed.
Print Assumptions C123_left_right_partial.

(** a ring of four returns with the bends -3 and 4, one block between margins of one return *)
Definition four (x y : R) : point exact := {| px := x : F exact; py := y; pz := 1%R; pintensity := 0%R; pring := 5 |}.
Definition four_returns : list (point exact) := [four 0 (-2); four 4 (-3); four 4 3; four 0 9].
Lemma four_azimuths : exists t, (0 < t < PI / 2)%R /\ azimuth (four 0 (-2)) (- (PI / 2)) /\ azimuth (four 4 (-3)) (- t) /\
  azimuth (four 4 3) t /\ azimuth (four 0 9) (PI / 2).
Proof.
  pose proof PI_RGT_0 as HP. exists (atan (3 / 4)).
  assert (B : (0 < atan (3 / 4) < PI / 2)%R).
  { split; [rewrite <- atan_0; apply atan_increasing; lra|]. apply atan_bound. }
  assert (S : sqrt (1 + Rsqr (3 / 4)) = (5 / 4)%R).
  { replace (1 + Rsqr (3 / 4))%R with (Rsqr (5 / 4)) by (unfold Rsqr; field). apply sqrt_Rsqr. lra. }
  assert (C : cos (atan (3 / 4)) = (4 / 5)%R) by (rewrite cos_atan, S; field).
  assert (E : sin (atan (3 / 4)) = (3 / 5)%R) by (rewrite sin_atan, S; field).
  split; [auto|]. split; [|split; [|split]].
  - split; [lra|]. exists 2%R. cbn. rewrite cos_neg, sin_neg, cos_PI2, sin_PI2. repeat split; lra.
  - split; [lra|]. exists 5%R. cbn. rewrite cos_neg, sin_neg, C, E. repeat split; lra.
  - split; [lra|]. exists 5%R. cbn. rewrite C, E. repeat split; lra.
  - split; [lra|]. exists 9%R. cbn. rewrite cos_PI2, sin_PI2. repeat split; lra.
Qed.

Lemma four_sorted l : Permutation l four_returns -> around l -> l = four_returns.
Proof.
  intros Hl Ha. destruct four_azimuths as [t [B [A0 [A1 [A2 A3]]]]].
  assert (HI : forall x, In x l -> In x four_returns) by (intros x; apply Permutation_in; auto).
  pose proof (Permutation_length Hl) as Ln. destruct l as [|a [|b [|c [|d [|? ?]]]]]; try discriminate Ln. clear Ln Hl.
  apply StronglySorted_Sorted in Ha. unfold around in Ha.
  assert (H3 : forall x y z w (R : point exact -> point exact -> Prop), Sorted R [x; y; z; w] -> R x y /\ R y z /\ R z w).
  { intros x y z w R H. inversion H as [|? ? H' K1]; subst. inversion H' as [|? ? H'' K2]; subst. inversion H'' as [|? ? _ K3]; subst.
    inversion K1; inversion K2; inversion K3; subst; auto. }
  apply H3 in Ha. destruct Ha as [Hab [Hbc Hcd]].
  assert (Ia := HI a ltac:(simpl; auto)). assert (Ib := HI b ltac:(simpl; auto)).
  assert (Ic := HI c ltac:(simpl; auto)). assert (Id := HI d ltac:(simpl; auto)).
  pose proof PI_RGT_0 as HP.
  destruct Ia as [<-|[<-|[<-|[<-|[]]]]], Ib as [<-|[<-|[<-|[<-|[]]]]];
    try (exfalso; let E := fresh in epose proof (Hab _ _ ltac:(eassumption) ltac:(eassumption)) as E; lra);
    (destruct Ic as [<-|[<-|[<-|[<-|[]]]]];
    try (exfalso; let E := fresh in epose proof (Hbc _ _ ltac:(eassumption) ltac:(eassumption)) as E; lra));
    (destruct Id as [<-|[<-|[<-|[<-|[]]]]];
    try (exfalso; let E := fresh in epose proof (Hcd _ _ ltac:(eassumption) ltac:(eassumption)) as E; lra)).
  reflexivity.
Qed.

Example ex_C123 :
  (forall p, In p four_returns -> exists phi, azimuth p phi /\ (phi < PI)%R) /\
  (forall i j p q phi psi, i <> j -> get four_returns i = Some p -> get four_returns j = Some q ->
     pring exact p = pring exact q -> azimuth p phi -> azimuth q psi -> phi <> psi) /\
  (forall k l, Permutation l (returns_of four_returns k) -> around l -> 2 * 1 + 1 <= zlen l ->
     (1 | zlen l - 2 * 1) /\ bends_differ (Z.to_nat 1) l).
Proof.
  pose proof PI_RGT_0 as HP. destruct four_azimuths as [t [B [A0 [A1 [A2 A3]]]]]. split; [|split].
  - intros p [<-|[<-|[<-|[<-|[]]]]]; eexists; (split; [eassumption|lra]).
  - intros i j p q phi psi Hij Hi Hj _ Hp Hq.
    assert (K : forall k x, get four_returns k = Some x -> k = 0 \/ k = 1 \/ k = 2 \/ k = 3).
    { intros k x Hg. apply FillProofs.get_bounds in Hg. change (zlen four_returns) with 4 in Hg. lia. }
    destruct (K _ _ Hi) as [->|[->|[->| ->]]], (K _ _ Hj) as [->|[->|[->| ->]]]; try congruence;
      cbn in Hi, Hj; injection Hi as <-; injection Hj as <-;
      match type of Hp with azimuth ?a _ => match type of Hq with azimuth ?b _ =>
        match goal with Ha : azimuth a ?u, Hb : azimuth b ?v |- _ =>
          lazymatch u with phi => fail | _ => lazymatch v with psi => fail | _ =>
            rewrite (azimuth_unique _ _ _ Hp Ha), (azimuth_unique _ _ _ Hq Hb); lra end end end end end.
  - intros k l Hl Ha Hn. split; [apply Z.divide_1_l|].
    destruct (Z.eq_dec k 5) as [->|Hk].
    + change (returns_of four_returns 5) with four_returns in Hl. rewrite (four_sorted l Hl Ha).
      assert (D0 : forall i, distance_at four_returns i = nth i [2; 5; 5; 9]%R 0%R).
      { intros i. unfold distance_at, four_returns. cbn [map px py four exact F].
        assert (Q : forall u v, (0 <= v)%R -> u = (v * v)%R -> sqrt u = v) by (intros u v Hv ->; apply sqrt_square; auto).
        rewrite (Q _ 2%R), (Q _ 5%R), (Q _ 5%R), (Q _ 9%R) by lra. reflexivity. }
      intros i j Hi Hj Hij. change (length four_returns) with 4%nat in *. change (Z.to_nat 1) with 1%nat in *.
      assert (Hc : (i = 1 /\ j = 2 \/ i = 2 /\ j = 1)%nat) by lia.
      unfold second_diff, Rsqr.
      destruct Hc as [[-> ->]|[-> ->]]; unfold rsum; cbn [seq fold_right Nat.add Nat.sub]; rewrite !D0; cbn [nth]; lra.
    + exfalso. assert (E : returns_of four_returns k = []).
      { unfold returns_of, four_returns. cbn [filter pring four]. rewrite (proj2 (Z.eqb_neq 5 k)) by auto. reflexivity. }
      rewrite E in Hl. apply Permutation_sym, Permutation_nil in Hl. subst l. cbn in Hn. lia.
Qed.
