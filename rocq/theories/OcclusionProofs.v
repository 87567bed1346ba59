(** Proofs about x/occlusion.hpp, x/out_of_range.hpp and x/parallel_beam.hpp. *)
From Coq Require Import List ZArith Bool Lia.
From Verif Require Import Base Arith ExtractModel Spec FillProofs LabelProofs.
Import ListNotations.
Open Scope Z_scope.

(** A loop each of whose iterations overwrites a known set of positions. *)
Lemma foldM_mark {X} (f : list label -> X -> outcome (list label)) (M : X -> Z -> Prop) L l :
  (forall x k, In x l -> M x k \/ ~ M x k) ->
  forall ls ls',
  (forall t x t', In x l -> zlen t = zlen ls -> f t x = Ok t' ->
     zlen t' = zlen ls /\ (forall k, M x k -> get t' k = Some L) /\
     (forall k, ~ M x k -> get t' k = get t k)) ->
  foldM f ls l = Ok ls' ->
  zlen ls' = zlen ls /\
  (forall k, (exists x, In x l /\ M x k) -> get ls' k = Some L) /\
  (forall k, (forall x, In x l -> ~ M x k) -> get ls' k = get ls k).
Proof.
  induction l as [|x l IH]; intros Hdec ls ls' Hf H; cbn [foldM] in H.
  - inversion H; subst. split; auto. split; auto. intros k [x [[] _]].
  - inv_bind H. destruct (Hf ls x v) as [H1 [H2 H3]]; simpl; auto.
    destruct (IH ltac:(intros; apply Hdec; simpl; auto) v ls') as [I1 [I2 I3]]; auto.
    { intros t y t' Hy Ht. rewrite H1 in *. apply Hf; simpl; auto. }
    split; [lia|]. split.
    + intros k [y [[->|Hy] Hm]].
      * assert (Hd : (exists x, In x l /\ M x k) \/ (forall x, In x l -> ~ M x k)).
        { clear - Hdec. induction l as [|z l IH]; [right; intros ? []|].
          destruct IH as [[w [Hw Hm]]|Hn].
          - intros x0 k0 Hin. apply Hdec. simpl in *. tauto.
          - left. exists w. simpl; auto.
          - destruct (Hdec z k) as [Hz|Hz]; [simpl; auto| |].
            + left. exists z. simpl; auto.
            + right. intros w [->|Hw]; auto. }
        destruct Hd as [Hd|Hd]; [auto|]. rewrite I3; auto.
      * apply I2. eauto.
    + intros k Hk. rewrite I3 by (intros; apply Hk; simpl; auto). apply H3. apply Hk. simpl; auto.
Qed.

Lemma foldM_total {X} (f : list label -> X -> outcome (list label)) l : forall ls,
  (forall t x, In x l -> zlen t = zlen ls -> exists t', f t x = Ok t' /\ zlen t' = zlen ls) ->
  exists ls', foldM f ls l = Ok ls' /\ zlen ls' = zlen ls.
Proof.
  induction l as [|x l IH]; intros ls Hf; cbn [foldM]; [eauto|].
  destruct (Hf ls x) as [t [Ht Hl]]; simpl; auto. rewrite Ht. cbn [bind].
  destruct (IH t) as [t' [Ht' Hl']].
  - intros t1 y Hy H1. rewrite Hl in *. apply Hf; simpl; auto.
  - exists t'. split; auto. lia.
Qed.

Lemma i32_small z : - 2 ^ 31 <= z < 2 ^ 31 -> i32 z = z.
Proof. intros H. unfold i32. rewrite Z.mod_small; lia. Qed.

Lemma i32_u32 z : - 2 ^ 31 <= z < 2 ^ 31 -> i32 (u32 z) = z.
Proof.
  intros H. unfold i32, u32. rewrite Zplus_mod_idemp_l. rewrite Z.mod_small; lia.
Qed.

Section Occ.
Variable A : arith.
Variable c : nbcheck.
Variable rng : Z -> outcome (D A).
Variable p : Z.
Variable thr : D A.
Hypothesis Hp : 0 <= p.

Definition jump_l (i : Z) := nb c i (i + 1) = Ok true /\ jump A rng thr i (i + 1).
Definition jump_r (i : Z) := nb c i (i - 1) = Ok true /\ jump A rng thr i (i - 1).
Definition mark_l (i k : Z) := jump_l i /\ i + 1 <= k <= i + 1 + p /\ run c (i + 1) k.
Definition mark_r (i k : Z) := jump_r i /\ i - 1 - p <= k <= i - 1 /\ run_left c k (i - 1).

Lemma dec_jump i j : jump A rng thr i j \/ ~ jump A rng thr i j.
Proof.
  unfold jump. destruct (rng i) as [r0| | | | |]; try (right; intros [? [? [H _]]]; discriminate).
  destruct (rng j) as [r1| | | | |]; try (right; intros [? [? [_ [H _]]]]; discriminate).
  destruct (d_ltb A (d_add A r0 thr) r1) eqn:E.
  - left. eauto.
  - right. intros [a [b [Ha [Hb H]]]]. inversion Ha; inversion Hb; subst. congruence.
Qed.

Lemma dec_okt (o : outcome bool) : o = Ok true \/ o <> Ok true.
Proof. destruct o as [[]| | | | |]; auto; right; discriminate. Qed.

Lemma dec_mark_l i k : mark_l i k \/ ~ mark_l i k.
Proof.
  unfold mark_l, jump_l. destruct (dec_okt (nb c i (i + 1))); [|tauto].
  destruct (dec_jump i (i + 1)); [|tauto]. destruct (dec_run c (i + 1) k); [|tauto].
  destruct (Z_le_gt_dec (i + 1) k); [|right; intros [_ [? _]]; lia].
  destruct (Z_le_gt_dec k (i + 1 + p)); [tauto|right; intros [_ [? _]]; lia].
Qed.

Lemma dec_mark_r i k : mark_r i k \/ ~ mark_r i k.
Proof.
  unfold mark_r, jump_r. destruct (dec_okt (nb c i (i - 1))); [|tauto].
  destruct (dec_jump i (i - 1)); [|tauto]. destruct (dec_run_left c k (i - 1)); [|tauto].
  destruct (Z_le_gt_dec (i - 1 - p) k); [|right; intros [_ [? _]]; lia].
  destruct (Z_le_gt_dec k (i - 1)); [tauto|right; intros [_ [? _]]; lia].
Qed.

Lemma from_left_step_spec ls i ls' :
  0 <= i -> i + p + 2 < 2 ^ 31 ->
  from_left_step A c rng p thr ls i = Ok ls' ->
  zlen ls' = zlen ls /\ (forall k, mark_l i k -> get ls' k = Some Occluded) /\
  (forall k, ~ mark_l i k -> get ls' k = get ls k).
Proof.
  intros Hi Hb H. unfold from_left_step in H.
  rewrite !i32_u32, !i32_small in H by lia.
  inv_bind H. destruct v; cbn [negb] in K.
  2: { inversion K; subst. split; auto. split; auto. intros k [[Hn _] _]. congruence. }
  inv_bind K. inv_bind K0. rename v into r0, v0 into r1.
  destruct (d_ltb A (d_add A r0 thr) r1) eqn:Ej.
  - apply fill_from_left_spec in K; [|lia]. destruct K as [_ [_ [Hl [H1 H2]]]].
    split; auto. split.
    + intros k [_ [Hk Hr]]. apply H1. split; [lia|auto].
    + intros k Hk. apply H2. intros [Hk1 Hk2]. apply Hk. split.
      * split; auto. exists r0, r1. auto.
      * split; [lia|auto].
  - inversion K; subst. split; auto. split; auto. intros k [[_ [a [b [Ha [Hb' Hj]]]]] _].
    rewrite E0 in Ha. rewrite E1 in Hb'. inversion Ha; inversion Hb'; subst. congruence.
Qed.

Lemma from_right_step_spec ls i ls' :
  p + 1 <= i -> i < 2 ^ 31 -> 
  from_right_step A c rng p thr ls i = Ok ls' ->
  zlen ls' = zlen ls /\ (forall k, mark_r i k -> get ls' k = Some Occluded) /\
  (forall k, ~ mark_r i k -> get ls' k = get ls k).
Proof.
  intros Hi Hb H. unfold from_right_step in H.
  rewrite !i32_u32, !i32_small in H by lia.
  inv_bind H. destruct v; cbn [negb] in K.
  2: { inversion K; subst. split; auto. split; auto. intros k [[Hn _] _]. congruence. }
  inv_bind K. inv_bind K0. rename v into r1, v0 into r0.
  destruct (d_ltb A (d_add A r0 thr) r1) eqn:Ej.
  - apply fill_from_right_spec in K; [|lia]. destruct K as [_ [_ [Hl [H1 H2]]]].
    split; auto. split.
    + intros k [_ [Hk Hr]]. apply H1. split; [lia|auto].
    + intros k Hk. apply H2. intros [Hk1 Hk2]. apply Hk. split.
      * split; auto. exists r0, r1. auto.
      * split; [lia|auto].
  - inversion K; subst. split; auto. split; auto. intros k [[_ [a [b [Ha [Hb' Hj]]]]] _].
    rewrite E1 in Ha. rewrite E0 in Hb'. inversion Ha; inversion Hb'; subst. congruence.
Qed.

Lemma from_left_indices (ls : list label) :
  p + 1 <= zlen ls < 2 ^ 63 ->
  forall i, In i (zrange (Z.to_nat (Z.min (u64 (zlen ls - p - 1)) (zlen ls + 1)))) <->
            0 <= i < zlen ls - p - 1.
Proof.
  intros H i. rewrite zrange_In. unfold u64. rewrite Z.mod_small by lia. lia.
Qed.

Lemma from_right_indices (ls : list label) :
  p + 1 <= zlen ls ->
  forall i, In i (if zlen ls =? 0 then [u32 (-1)]
    else map (fun k => zlen ls - 1 - k) (zrange (Z.to_nat (zlen ls - (p + 1))))) <->
            p + 1 <= i < zlen ls.
Proof.
  intros H i. destruct (zlen ls =? 0) eqn:E; [apply Z.eqb_eq in E; lia|].
  rewrite in_map_iff. split.
  - intros [k [<- Hk]]. apply zrange_In in Hk. lia.
  - intros Hi. exists (zlen ls - 1 - i). split; [lia|]. apply zrange_In. lia.
Qed.

Lemma label_occluded_spec ls ls' :
  p + 1 <= zlen ls -> zlen ls + p + 2 < 2 ^ 31 ->
  label_occluded A c rng p thr ls = Ok ls' ->
  zlen ls' = zlen ls /\
  (forall k, shadowed A c rng p thr (zlen ls) k -> get ls' k = Some Occluded) /\
  (forall k, ~ shadowed A c rng p thr (zlen ls) k -> get ls' k = get ls k).
Proof.
  intros Hn Hb H. unfold label_occluded in H. inv_bind H. rename v into ls1.
  unfold from_left in E. cbv zeta in E.
  apply (foldM_mark _ mark_l Occluded) in E; [|intros; apply dec_mark_l|].
  2: { intros t x t' Hx Ht Hs. apply from_left_indices in Hx; [|lia].
       apply from_left_step_spec in Hs; try lia. rewrite <- Ht. auto. }
  destruct E as [L1 [M1 U1]].
  unfold from_right in K. cbv zeta in K.
  apply (foldM_mark _ mark_r Occluded) in K; [|intros; apply dec_mark_r|].
  2: { intros t x t' Hx Ht Hs. apply from_right_indices in Hx; [|lia].
       apply from_right_step_spec in Hs; try lia. rewrite <- Ht. auto. }
  destruct K as [L2 [M2 U2]]. rewrite L1 in *.
  assert (Hin1 : forall i, In i (zrange (Z.to_nat (Z.min (u64 (zlen ls - p - 1)) (zlen ls + 1)))) <->
            0 <= i < zlen ls - p - 1) by (apply from_left_indices; lia).
  assert (Hin2 : forall i, In i (if zlen ls =? 0 then [u32 (-1)]
    else map (fun k => zlen ls - 1 - k) (zrange (Z.to_nat (zlen ls - (p + 1))))) <->
            p + 1 <= i < zlen ls) by (apply from_right_indices; lia).
  split; [lia|]. split.
  - intros k [[i [H1 [H2 [H3 [H4 [H5 H6]]]]]]|[i [H1 [H2 [H3 [H4 [H5 H6]]]]]]].
    + assert (Hl : get ls1 k = Some Occluded).
      { apply M1. exists i. split; [apply Hin1; lia|]. repeat split; auto; lia. }
      assert (Hd : forall l, (exists x, In x l /\ mark_r x k) \/ (forall x, In x l -> ~ mark_r x k)).
      { induction l as [|z l [[w [Hw Hm]]|IH]]; [right; intros ? []| |].
        - left. exists w. simpl; auto.
        - destruct (dec_mark_r z k) as [Hz|Hz].
          + left. exists z. simpl; auto.
          + right. intros w [->|Hw]; auto. }
      destruct (Hd (if zlen ls =? 0 then [u32 (-1)]
        else map (fun k => zlen ls - 1 - k) (zrange (Z.to_nat (zlen ls - (p + 1)))))) as [He|He].
      * apply M2; auto.
      * rewrite U2; auto.
    + apply M2. exists i. split; [apply Hin2; lia|]. repeat split; auto; lia.
  - intros k Hk. rewrite U2, U1; auto.
    + intros i Hi [[Ha Hb'] [Hc Hd]]. apply Hk. left. exists i. apply Hin1 in Hi.
      repeat split; auto; lia.
    + intros i Hi [[Ha Hb'] [Hc Hd]]. apply Hk. right. exists i. apply Hin2 in Hi.
      repeat split; auto; lia.
Qed.

Lemma label_occluded_total ls :
  p + 1 <= zlen ls -> zlen ls + p + 2 < 2 ^ 31 ->
  nb_size c = zlen ls -> nb_total c (zlen ls) ->
  (forall i, 0 <= i < zlen ls -> exists r, rng i = Ok r) ->
  exists ls', label_occluded A c rng p thr ls = Ok ls' /\ zlen ls' = zlen ls.
Proof.
  intros Hn Hb Hs Ht Hr. unfold label_occluded, from_left. cbv zeta.
  destruct (foldM_total (from_left_step A c rng p thr)
     (zrange (Z.to_nat (Z.min (u64 (zlen ls - p - 1)) (zlen ls + 1)))) ls) as [ls1 [E1 L1]].
  { intros t i Hi Hlt. apply from_left_indices in Hi; [|lia].
    assert (Hex : exists t', from_left_step A c rng p thr t i = Ok t').
    { unfold from_left_step. rewrite !i32_u32, !i32_small by lia.
      destruct (Ht i (i + 1)) as [b ->]; try lia. cbn [bind]. destruct b; cbn [negb]; [|eauto].
      destruct (Hr i) as [r0 ->]; [lia|]. destruct (Hr (i + 1)) as [r1 ->]; [lia|]. cbn [bind].
      destruct (d_ltb _ _ _); [|eauto]. apply fill_from_left_total; rewrite ?Hlt; auto; lia. }
    destruct Hex as [t' Ht']. exists t'. split; auto.
    apply from_left_step_spec in Ht'; try lia. }
  rewrite E1. cbn [bind]. unfold from_right. cbv zeta.
  destruct (foldM_total (from_right_step A c rng p thr)
     (if zlen ls1 =? 0 then [u32 (-1)]
      else map (fun k => zlen ls1 - 1 - k) (zrange (Z.to_nat (zlen ls1 - (p + 1))))) ls1) as [ls2 [E2 L2]].
  { intros t i Hi Hlt. apply from_right_indices in Hi; [|lia].
    assert (Hex : exists t', from_right_step A c rng p thr t i = Ok t').
    { unfold from_right_step. rewrite !i32_u32, !i32_small by lia.
      destruct (Ht i (i - 1)) as [b ->]; try lia. cbn [bind]. destruct b; cbn [negb]; [|eauto].
      destruct (Hr i) as [r0 ->]; [lia|]. destruct (Hr (i - 1)) as [r1 ->]; [lia|]. cbn [bind].
      destruct (d_ltb _ _ _); [|eauto].
      apply fill_from_right_total; rewrite ?Hlt, ?L1; auto; lia. }
    destruct Hex as [t' Ht']. exists t'. split; auto.
    apply from_right_step_spec in Ht'; try lia. }
  exists ls2. split; auto. lia.
Qed.

(** a ring that is too short never goes through *)
Lemma label_occluded_short ls ls' :
  zlen ls <= p -> p < 2 ^ 31 -> zlen ls < 2 ^ 31 - 1 ->
  (forall i j, ~ (0 <= i < zlen ls) \/ ~ (0 <= j < zlen ls) -> forall b, nb c i j <> Ok b) ->
  label_occluded A c rng p thr ls <> Ok ls'.
Proof.
  intros Hn Hp2 Hl Hnb H. unfold label_occluded in H. inv_bind H. clear K.
  unfold from_left in E. cbv zeta in E.
  assert (Hu : u64 (zlen ls - p - 1) = 2 ^ 64 + (zlen ls - p - 1)).
  { unfold u64. pose proof (zlen_nonneg ls). symmetry.
    apply (Z.mod_unique _ _ (-1)); [left; lia|lia]. }
  rewrite Hu, Z.min_r in E by (pose proof (zlen_nonneg ls); lia).
  set (m := Z.max 0 (zlen ls - 1)).
  assert (Hin : In m (zrange (Z.to_nat (zlen ls + 1)))) by (apply zrange_In; pose proof (zlen_nonneg ls); lia).
  assert (Hm : forall t t', from_left_step A c rng p thr t m <> Ok t').
  { intros t t' Hs. unfold from_left_step in Hs.
    rewrite !i32_u32, !i32_small in Hs by (pose proof (zlen_nonneg ls); lia).
    inv_bind Hs. eapply (Hnb m (m + 1)); [|exact E0].
    pose proof (zlen_nonneg ls). lia. }
  clearbody m. clear - E Hin Hm. revert E Hin.
  generalize (zrange (Z.to_nat (zlen ls + 1))) as l. intros l. revert ls v.
  induction l as [|x l IH]; intros ls v H Hin; [destruct Hin|].
  cbn [foldM] in H. inv_bind H. destruct Hin as [->|Hin].
  - eapply Hm; eauto.
  - eapply IH; eauto.
Qed.

End Occ.

(** ** Out of range *)
Section Oor.
Variable A : arith.
Variable rng : Z -> outcome (D A).
Variables mn mx : D A.

Notation bad_range := (Spec.bad_range A rng mn mx).

Lemma oor_step_spec ls i ls' :
  oor_step A rng mn mx ls i = Ok ls' ->
  zlen ls' = zlen ls /\ (forall k, k = i /\ bad_range i -> get ls' k = Some OutOfRange) /\
  (forall k, ~ (k = i /\ bad_range i) -> get ls' k = get ls k).
Proof.
  intros H. unfold oor_step in H. inv_bind H.
  destruct (is_in_inclusive_range A v mn mx) eqn:Er; cbn [negb] in K.
  - inversion K; subst. split; auto. split; auto.
    intros k [-> [r [Hr Hb]]]. rewrite E in Hr. inversion Hr; subst.
    unfold is_in_inclusive_range in Er. congruence.
  - apply vset_spec in K. destruct K as [_ [Hl Hg]]. split; auto. split.
    + intros k [-> _]. rewrite Hg, Z.eqb_refl. auto.
    + intros k Hk. rewrite Hg. destruct (k =? i) eqn:Ek; auto. apply Z.eqb_eq in Ek. subst.
      exfalso. apply Hk. split; auto. exists v. auto.
Qed.

Lemma dec_bad i : bad_range i \/ ~ bad_range i.
Proof.
  unfold Spec.bad_range. destruct (rng i) as [r| | | | |]; try (right; intros [? [H _]]; discriminate).
  destruct (d_leb A mn r && d_leb A r mx) eqn:E.
  - right. intros [r' [Hr Hb]]. inversion Hr; subst. congruence.
  - left. eauto.
Qed.

Lemma label_oor_spec size ls ls' :
  label_out_of_range A rng size mn mx ls = Ok ls' ->
  zlen ls' = zlen ls /\
  (forall k, 0 <= k < size -> bad_range k -> get ls' k = Some OutOfRange) /\
  (forall k, ~ (0 <= k < size /\ bad_range k) -> get ls' k = get ls k).
Proof.
  intros H. unfold label_out_of_range in H.
  apply (foldM_mark _ (fun i k => k = i /\ bad_range i) OutOfRange) in H.
  - destruct H as [H1 [H2 H3]]. split; auto. split.
    + intros k Hk Hb. apply H2. exists k. split; auto. apply zrange_In. lia.
    + intros k Hk. apply H3. intros x Hx [-> Hb]. apply Hk. apply zrange_In in Hx. split; auto. lia.
  - intros x k _. destruct (dec_bad x); [|tauto]. destruct (Z.eq_dec k x); tauto.
  - intros t x t' Hx Ht Hs. apply oor_step_spec in Hs. rewrite <- Ht. auto.
Qed.

Lemma label_oor_total size ls :
  size = zlen ls -> (forall i, 0 <= i < size -> exists r, rng i = Ok r) ->
  exists ls', label_out_of_range A rng size mn mx ls = Ok ls' /\ zlen ls' = zlen ls.
Proof.
  intros -> Hr. unfold label_out_of_range. apply foldM_total.
  intros t x Hx Ht. apply zrange_In in Hx. pose proof (zlen_nonneg ls).
  assert (Hex : exists t', oor_step A rng mn mx t x = Ok t').
  { unfold oor_step. destruct (Hr x) as [r ->]; [lia|]. cbn [bind].
    destruct (is_in_inclusive_range _ _ _ _); cbn [negb]; eauto. apply vset_total. lia. }
  destruct Hex as [t' Ht']. exists t'. split; auto. apply oor_step_spec in Ht'. lia.
Qed.
End Oor.

(** ** Parallel beams *)
Section Pb.
Variable A : arith.
Variable thr : D A.

Notation pb_at := (Spec.pb_at A thr).

Lemma dec_pb ranges i : pb_at ranges i \/ ~ pb_at ranges i.
Proof.
  unfold Spec.pb_at. destruct (get ranges (i - 1)) as [a|]; [|right; intros [? [? [? [H _]]]]; discriminate].
  destruct (get ranges i) as [r|]; [|right; intros [? [? [? [_ [H _]]]]]; discriminate].
  destruct (get ranges (i + 1)) as [b|]; [|right; intros [? [? [? [_ [_ [H _]]]]]]; discriminate].
  destruct (d_ltb A thr (f2d A (d2f A (d_div A (d_abs A (d_sub A a r)) r)))) eqn:E1,
           (d_ltb A thr (f2d A (d2f A (d_div A (d_abs A (d_sub A b r)) r)))) eqn:E2.
  1: left; exists a, r, b; auto.
  all: right; intros [a' [r' [b' [H1 [H2 [H3 [H4 H5]]]]]]]; inversion H1; inversion H2; inversion H3; subst; congruence.
Qed.

Lemma pb_step_spec ranges ls i ls' :
  pb_step A ranges thr ls i = Ok ls' ->
  zlen ls' = zlen ls /\ (forall k, k = i /\ pb_at ranges i -> get ls' k = Some ParallelBeam) /\
  (forall k, ~ (k = i /\ pb_at ranges i) -> get ls' k = get ls k).
Proof.
  intros H. unfold pb_step in H. inv_bind H. inv_bind K. inv_bind K0.
  apply vat_get in E, E0, E1. rename v into a, v0 into r, v1 into b.
  destruct (_ && _) eqn:Ec.
  - apply andb_true_iff in Ec. destruct Ec as [Ec1 Ec2].
    apply vset_spec in K. destruct K as [_ [Hl Hg]]. split; auto. split.
    + intros k [-> _]. rewrite Hg, Z.eqb_refl. auto.
    + intros k Hk. rewrite Hg. destruct (k =? i) eqn:Ek; auto. apply Z.eqb_eq in Ek. subst.
      exfalso. apply Hk. split; auto. exists a, r, b. auto.
  - inversion K; subst. split; auto. split; auto.
    intros k [-> [a' [r' [b' [H1 [H2 [H3 [H4 H5]]]]]]]].
    rewrite E in H1. rewrite E0 in H2. rewrite E1 in H3. inversion H1; inversion H2; inversion H3; subst.
    rewrite H4, H5 in Ec. discriminate.
Qed.

Lemma pb_indices (n : Z) : 1 <= n < 2 ^ 63 ->
  forall i, In i (map Z.succ (zrange (Z.to_nat (Z.min (u64 (n - 1)) (n + 2) - 1)))) <-> 1 <= i < n - 1.
Proof.
  intros Hn i. unfold u64. rewrite Z.mod_small by lia. rewrite Z.min_l by lia.
  rewrite in_map_iff. split.
  - intros [x [<- Hx]]. apply zrange_In in Hx. lia.
  - intros Hi. exists (i - 1). split; [lia|]. apply zrange_In. lia.
Qed.

Lemma label_pb_spec m ls ls' :
  1 <= zlen ls < 2 ^ 63 ->
  label_parallel_beam A m thr ls = Ok ls' ->
  exists ranges, range_interval A m 0 (zlen ls) = Ok ranges /\
  zlen ls' = zlen ls /\
  (forall k, 1 <= k < zlen ls - 1 -> pb_at ranges k -> get ls' k = Some ParallelBeam) /\
  (forall k, ~ (1 <= k < zlen ls - 1 /\ pb_at ranges k) -> get ls' k = get ls k).
Proof.
  intros Hn H. unfold label_parallel_beam in H. inv_bind H. rename v into ranges.
  exists ranges. split; auto.
  apply (foldM_mark _ (fun i k => k = i /\ pb_at ranges i) ParallelBeam) in K.
  - destruct K as [H1 [H2 H3]]. split; auto. split.
    + intros k Hk Hb. apply H2. exists k. split; auto. apply pb_indices; auto.
    + intros k Hk. apply H3. intros x Hx [-> Hb]. apply Hk. apply pb_indices in Hx; auto.
  - intros x k _. destruct (dec_pb ranges x); [|tauto]. destruct (Z.eq_dec k x); tauto.
  - intros t x t' Hx Ht Hs. apply pb_step_spec in Hs. rewrite <- Ht. auto.
Qed.

Lemma mapM_ok {X Y} (f : X -> outcome Y) l :
  (forall x, In x l -> exists y, f x = Ok y) -> exists ys, mapM f l = Ok ys.
Proof.
  induction l as [|x l IH]; intros H; simpl; [eauto|].
  destruct (H x) as [y ->]; [simpl; auto|]. simpl.
  destruct IH as [ys ->]; [intros; apply H; simpl; auto|]. simpl. eauto.
Qed.

Lemma mapM_spec {X Y} (f : X -> outcome Y) l : forall ys, mapM f l = Ok ys ->
  length ys = length l /\ forall k x, nth_error l k = Some x -> exists y, f x = Ok y /\ nth_error ys k = Some y.
Proof.
  induction l as [|x l IH]; intros ys H; simpl in H.
  - inversion H; subst. split; auto. intros [|k] x Hx; discriminate.
  - inv_bind H. inv_bind K. inversion K0; subst. destruct (IH _ E0) as [H1 H2].
    split; [simpl; lia|]. intros [|k] z Hz; simpl in *.
    + inversion Hz; subst. eauto.
    + apply H2; auto.
Qed.

Lemma label_pb_total m ls :
  1 <= zlen ls < 2 ^ 63 -> (forall i, 0 <= i < zlen ls -> exists r, range_at A m i = Ok r) ->
  exists ls', label_parallel_beam A m thr ls = Ok ls' /\ zlen ls' = zlen ls.
Proof.
  intros Hn Hr. unfold label_parallel_beam, range_interval.
  destruct (zlen ls - 0 <? 0) eqn:E; [apply Z.ltb_lt in E; lia|]. cbn [bind].
  destruct (mapM_ok (range_at A m) (zrange (Z.to_nat (zlen ls - 0)))) as [ranges Hm].
  { intros x Hx. apply zrange_In in Hx. apply Hr. lia. }
  rewrite Hm. cbn [bind].
  assert (Hlen : zlen ranges = zlen ls).
  { apply mapM_spec in Hm. destruct Hm as [Hm _]. unfold zlen at 1. rewrite Hm.
    unfold zrange. rewrite map_length, seq_length. lia. }
  apply foldM_total. intros t x Hx Ht. apply pb_indices in Hx; auto.
  assert (Hex : exists t', pb_step A ranges thr t x = Ok t').
  { unfold pb_step. destruct (vat_total ranges (x - 1)) as [a [-> _]]; [lia|]. cbn [bind].
    destruct (vat_total ranges x) as [r [-> _]]; [lia|]. cbn [bind].
    destruct (vat_total ranges (x + 1)) as [b [-> _]]; [lia|]. cbn [bind].
    destruct (_ && _); eauto. apply vset_total. lia. }
  destruct Hex as [t' Ht']. exists t'. split; auto. apply pb_step_spec in Ht'. lia.
Qed.
End Pb.
