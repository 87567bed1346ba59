(** All results a conforming sort may give, and the labels of a ring under two sorts. *)
From Coq Require Import List ZArith Bool Lia Permutation Sorting.Sorted.
From Verif Require Import Base Arith ExtractModel Spec FillProofs LabelProofs NeighborProofs.
Import ListNotations.
Open Scope Z_scope.

(** every arrangement of [l] in which no element is less than an earlier one *)
Fixpoint sorted_perms (fuel : nat) (lt : Z -> Z -> bool) (l : list Z) : list (list Z) :=
  match fuel, l with
  | _, [] => [[]]
  | O, _ => []
  | S n, _ => flat_map (fun x => if forallb (fun y => negb (lt y x)) l
                                 then map (cons x) (sorted_perms n lt (remove Z.eq_dec x l)) else []) l
  end.

Lemma remove_len x l : NoDup l -> In x l -> S (length (remove Z.eq_dec x l)) = length l.
Proof.
  induction l as [|y l IH]; intros Hn Hi; [destruct Hi|]. inversion Hn; subst. simpl. destruct (Z.eq_dec x y) as [->|Hxy].
  - rewrite notin_remove; auto.
  - simpl. rewrite IH; auto. destruct Hi; congruence.
Qed.

Lemma remove_NoDup x l : NoDup l -> NoDup (remove Z.eq_dec x l).
Proof.
  induction l as [|y l IH]; intros Hn; simpl; [constructor|]. inversion Hn; subst. destruct (Z.eq_dec x y); auto.
  constructor; auto. intros Hi. apply in_remove in Hi. tauto.
Qed.

Lemma sorted_perms_all lt : forall fuel l s, NoDup l -> (length l <= fuel)%nat ->
  (forall a, In a l -> lt a a = false) -> Permutation l s -> StronglySorted (fun a b => lt b a = false) s ->
  In s (sorted_perms fuel lt l).
Proof.
  induction fuel as [|n IH]; intros l s Hn Hl Hirr HP HS.
  - destruct l; [|simpl in Hl; lia]. apply Permutation_nil in HP. subst. simpl. auto.
  - destruct s as [|x s].
    + apply Permutation_sym, Permutation_nil in HP. subst. simpl. auto.
    + assert (Hx : In x l) by (apply (Permutation_in _ (Permutation_sym HP)); left; auto).
      destruct l as [|y0 l0]; [destruct Hx|]. set (l := y0 :: l0) in *.
      change (In (x :: s) (flat_map (fun x => if forallb (fun y => negb (lt y x)) l
                                 then map (cons x) (sorted_perms n lt (remove Z.eq_dec x l)) else []) l)).
      apply in_flat_map. exists x. split; auto. inversion HS as [|? ? HS' HF]; subst.
      rewrite (proj2 (forallb_forall _ _)).
      * apply in_map. apply IH; auto.
        -- apply remove_NoDup; auto.
        -- pose proof (remove_len x l Hn Hx). lia.
        -- intros a Ha. apply in_remove in Ha. apply Hirr. tauto.
        -- assert (Hnd : NoDup (x :: s)) by (eapply Permutation_NoDup; eauto). inversion Hnd; subst.
           apply NoDup_Permutation; auto; [apply remove_NoDup; auto|]. intros z. split; intros Hz.
           ++ apply in_remove in Hz. destruct Hz as [Hz Hzx]. apply (Permutation_in _ HP) in Hz. destruct Hz; congruence.
           ++ apply in_in_remove; [intros ->; auto|]. apply (Permutation_in _ (Permutation_sym HP)). right. auto.
      * intros y Hy. apply negb_true_iff. apply (Permutation_in _ HP) in Hy. destruct Hy as [<-|Hy]; [auto|].
        rewrite Forall_forall in HF. apply HF. auto.
Qed.

Lemma valid_sort_perms srt lt l : valid_sort srt -> NoDup l -> strict_weak_order lt l ->
  In (srt lt l) (sorted_perms (length l) lt l).
Proof.
  intros Hv Hn Hs. destruct (Hv lt l Hs) as [H1 H2]. apply sorted_perms_all; auto. apply Hs.
Qed.

Section Labels.
Variable A : arith.
Variable s1 s2 : sorter.
Variable P : params A.
Variable m : mapped A.

(** the labels depend on the sort through the blocks' curvatures only *)
Lemma ring_labels_sorters c :
  (forall ranges curv r j b e cv,
     range_interval A m 0 (m_size A m) = Ok ranges -> calc_curvature A ranges (p_padding A P) = Ok curv ->
     padded_index_range (m_size A m) (p_blocks A P) (p_padding A P) = Ok r ->
     ir_begin A r j = Ok b -> ir_finish A r j = Ok e -> vslice curv b e = Ok cv ->
     argsort A s1 cv = argsort A s2 cv) ->
  ring_labels A s1 P m c = ring_labels A s2 P m c.
Proof.
  intros H. unfold ring_labels. cbv zeta.
  destruct (range_interval A m 0 (m_size A m)) as [ranges| | | | |] eqn:E1; cbn [bind]; auto.
  destruct (calc_curvature A ranges (p_padding A P)) as [curv| | | | |] eqn:E2; cbn [bind]; auto.
  destruct (padded_index_range (m_size A m) (p_blocks A P) (p_padding A P)) as [r| | | | |] eqn:E3; cbn [bind]; auto.
  assert (E : forall ls, assign_label A s1 (p_padding A P) (p_edge A P) (p_surface A P) curv m (p_rad A P) r ls =
                         assign_label A s2 (p_padding A P) (p_edge A P) (p_surface A P) curv m (p_rad A P) r ls).
  { intros ls. unfold assign_label. f_equal. f_equal. revert ls. induction (zrange (Z.to_nat (ir_n r))) as [|j l IH]; intros ls; auto.
    cbn [foldM]. unfold assign_block at 1 3.
    destruct (ir_begin A r j) as [b| | | | |] eqn:B1; cbn [bind]; auto.
    destruct (ir_finish A r j) as [f| | | | |] eqn:B2; cbn [bind]; auto.
    destruct (vslice ls b f) as [lv| | | | |]; cbn [bind]; auto.
    destruct (vslice curv b f) as [cw| | | | |] eqn:B3; cbn [bind]; auto.
    destruct (m_slice A m b f) as [sm| | | | |]; cbn [bind]; auto.
    destruct (make_nb_xy A sm (p_rad A P)) as [sc| | | | |]; cbn [bind]; auto.
    unfold edge_assign, surface_assign. rewrite (H _ _ _ _ _ _ _ eq_refl E2 eq_refl B1 B2 B3).
    match goal with |- bind (bind ?X ?f) ?g = bind (bind ?X ?f) ?g' => destruct X as [lv1| | | | |]; cbn [bind]; auto end.
    match goal with |- bind (bind ?X ?f) ?g = bind (bind ?X ?f) ?g' => destruct X as [lv2| | | | |]; cbn [bind]; auto end. }
  rewrite E. auto.
Qed.
End Labels.
