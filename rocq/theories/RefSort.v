(** A reference sorting routine (insertion sort).  It models no repository code; it is
    the witness that the requirement [valid_sort] put on std::sort can be met, and it is
    used to run the model on concrete inputs. *)
From Coq Require Import List ZArith Bool Lia Permutation Sorting.Sorted.
From Verif Require Import Base Spec.
Import ListNotations.
Open Scope Z_scope.

Fixpoint insert_by (lt : Z -> Z -> bool) (x : Z) (l : list Z) : list Z :=
  match l with
  | [] => [x]
  | y :: t => if lt y x then y :: insert_by lt x t else x :: l
  end.

Definition isort : sorter := fun lt l => fold_right (insert_by lt) [] l.

(** Another conforming routine: equal keys come out in the opposite order. *)
Definition isort_rev : sorter := fun lt l => fold_left (fun s x => insert_by lt x s) l [].

Lemma insert_perm lt x l : Permutation (x :: l) (insert_by lt x l).
Proof.
  induction l as [|y l IH]; simpl; auto.
  destruct (lt y x); auto. rewrite perm_swap. constructor. auto.
Qed.

Lemma isort_perm lt l : Permutation l (isort lt l).
Proof.
  induction l as [|x l IH]; simpl; auto. rewrite <- insert_perm. auto.
Qed.

Lemma isort_rev_perm_gen lt l : forall s, Permutation (s ++ l) (fold_left (fun s x => insert_by lt x s) l s).
Proof.
  induction l as [|x l IH]; intros s; simpl; [rewrite app_nil_r; auto|].
  rewrite <- IH. rewrite <- Permutation_middle. rewrite app_comm_cons.
  apply Permutation_app_tail. apply insert_perm.
Qed.

Lemma insert_sorted lt all x l :
  strict_weak_order lt all -> In x all -> incl l all ->
  StronglySorted (fun a b => lt b a = false) l ->
  StronglySorted (fun a b => lt b a = false) (insert_by lt x l).
Proof.
  intros [Hirr [Htr Hinc]] Hx. induction l as [|y l IH]; intros Hincl Hs; simpl.
  - constructor; constructor.
  - inversion Hs; subst.
    assert (Hy : In y all) by (apply Hincl; simpl; auto).
    assert (Hl : incl l all) by (intros a Ha; apply Hincl; simpl; auto).
    destruct (lt y x) eqn:E.
    + constructor; [auto|].
      apply (Permutation_Forall (insert_perm lt x l)). constructor; auto.
      destruct (lt x y) eqn:E2; auto.
      rewrite <- (Hirr x Hx). symmetry. eauto.
    + constructor; auto. constructor; auto.
      rewrite Forall_forall in *. intros z Hz. specialize (H2 z Hz). cbv beta in *.
      assert (Hzin : In z all) by auto.
      destruct (lt z x) eqn:Ezx; auto. exfalso.
      (* z < x, not (z < y), not (y < x) *)
      destruct (lt x y) eqn:Exy.
      * rewrite (Htr z x y) in H2; auto; discriminate.
      * destruct (lt y z) eqn:Eyz.
        -- rewrite (Htr y z x) in E; auto; discriminate.
        -- destruct (Hinc z y x) as [Hc _]; auto. congruence.
Qed.

Lemma isort_valid : valid_sort isort.
Proof.
  intros lt l H. split; [apply isort_perm|].
  assert (Hg : forall l', incl l' l -> StronglySorted (fun a b => lt b a = false) (isort lt l')).
  { induction l' as [|x l' IH]; intros Hin; simpl; [constructor|].
    apply insert_sorted with (all := l); auto.
    - apply Hin; simpl; auto.
    - intros a Ha. apply Hin. simpl. right.
      eapply Permutation_in; [apply Permutation_sym, isort_perm|]. exact Ha.
    - apply IH. intros a Ha. apply Hin; simpl; auto. }
  apply Hg. apply incl_refl.
Qed.

Lemma isort_rev_valid : valid_sort isort_rev.
Proof.
  intros lt l H. split; [apply (isort_rev_perm_gen lt l [])|].
  assert (Hg : forall l' s, incl l' l -> incl s l ->
     StronglySorted (fun a b => lt b a = false) s ->
     StronglySorted (fun a b => lt b a = false) (fold_left (fun s x => insert_by lt x s) l' s)).
  { induction l' as [|x l' IH]; intros s Hin Hs Hss; simpl; auto.
    apply IH.
    - intros a Ha; apply Hin; simpl; auto.
    - intros a Ha. apply (Permutation_in _ (Permutation_sym (insert_perm lt x s))) in Ha.
      destruct Ha as [<-|Ha]; auto. apply Hin; simpl; auto.
    - apply insert_sorted with (all := l); auto. apply Hin; simpl; auto. }
  apply Hg; try apply incl_refl; try constructor. intros a [].
Qed.
