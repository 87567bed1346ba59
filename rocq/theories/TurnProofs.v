(** One update cycle of the EKF localizer at rest, heading along the x axis of the map or
    against it. *)
From Coq Require Import Reals Lra Lia PeanoNat List Bool ZArith Psatz.
From Coquelicot Require Import Coquelicot.
From Verif Require Import SpecKalman SpecFusion BiasProofs.
Import ListNotations.
Local Open Scope R_scope.

Definition at_rest (phi : R) (s : estimate) : Prop :=
  (forall i, (i < 6)%nat -> fst s i = if Nat.eqb i 2 then phi else 0) /\
  forall i j, (i < 6)%nat -> (j < 6)%nat -> snd s i j = if Nat.eqb i j then nth i [1; 1; 1; 1 / 10000; 1 / 100; 1 / 100] 0 else 0.
Definition rest_jac (k : R) (i j : nat) : R :=
  match i, j with
  | 0%nat, 4%nat => k | 2%nat, 5%nat => 1 | _, _ => if Nat.eqb i j then 1 else 0
  end.
Lemma rest_jac_is k phi x F : (forall i, (i < 6)%nat -> x i = if Nat.eqb i 2 then phi else 0) -> cos phi = k -> sin phi = 0 ->
  (forall i j, (i < 6)%nat -> (j < 6)%nat -> is_derive (fun v => motion 1 (replaced x j v) i) (x j) (F i j)) ->
  forall i j, (i < 6)%nat -> (j < 6)%nat -> F i j = rest_jac k i j.
Proof.
  intros X Hc Hs H i j Hi Hj. specialize (H i j Hi Hj). apply is_derive_unique in H. rewrite <- H. apply is_derive_unique.
  assert (X2 := X 2%nat ltac:(lia)). assert (X3 := X 3%nat ltac:(lia)). assert (X4 := X 4%nat ltac:(lia)). cbn in X2, X3, X4.
  unfold motion, replaced. upto6 i; upto6 j; cbn [Nat.eqb rest_jac]; auto_derive; auto; rewrite ?X2, ?X3, ?X4, ?Rplus_0_r, ?Hc, ?Hs; ring.
Qed.
Lemma rest_predicted k phi s s' : - PI < phi <= PI -> cos phi = k -> sin phi = 0 -> at_rest phi s -> predicts 1 1 [0; 0; 0; 0] s s' ->
  (forall i, (i < 6)%nat -> fst s' i = if Nat.eqb i 2 then phi else 0) /\
  forall i j, (i < 6)%nat -> (j < 6)%nat -> snd s' i j =
    total 6 (fun l => total 6 (fun p => rest_jac k i p * (if Nat.eqb p l then nth p [1; 1; 1; 1 / 10000; 1 / 100; 1 / 100] 0 else 0)) * rest_jac k j l).
Proof.
  intros HB Hc Hs [X P] (M & (z & H1) & H2 & _ & F & HF & HP). cbn [Nat.mul Nat.add] in HP.
  assert (JF := rest_jac_is k phi (fst s) F X Hc Hs HF).
  split.
  - intros i Hi. destruct (Nat.eqb_spec i 2) as [->|N].
    + unfold motion in H1. rewrite !X in H1 by lia. cbn [Nat.eqb] in H1. pose proof PI_RGT_0.
      assert (-1 < IZR z < 1) by (split; nra). assert (z = 0%Z) by (destruct H0 as [A B]; apply lt_IZR in A, B; lia). subst z. lra.
    + rewrite M by assumption. assert (X' : forall i, (i < 6)%nat -> i <> 2%nat -> fst s i = 0).
      { intros j Hj Nj. rewrite X by exact Hj. destruct (Nat.eqb_spec j 2); [contradiction|reflexivity]. }
      unfold motion. upto6 i; try contradiction; rewrite ?(X' 4%nat), ?(X' 0%nat), ?(X' 1%nat), ?(X' 3%nat), ?(X' 5%nat) by lia; ring.
  - intros i j Hi Hj. rewrite HP by assumption. unfold SpecKalman.plus, times, flip, stacked_noise, stacked_transition.
    replace (i <? 6)%nat with true by (symmetry; apply Nat.ltb_lt; exact Hi). replace (j <? 6)%nat with true by (symmetry; apply Nat.ltb_lt; exact Hj). cbn [andb].
    assert (NZ : (if Nat.eqb i j then nth i [0; 0; SpecFusion.spread (nth 0 [0; 0; 0; 0] 0) 1; SpecFusion.spread (nth 1 [0; 0; 0; 0] 0) 1; SpecFusion.spread (nth 2 [0; 0; 0; 0] 0) 1; SpecFusion.spread (nth 3 [0; 0; 0; 0] 0) 1] 0 else 0) = 0).
    { destruct (Nat.eqb i j); [|reflexivity]. unfold SpecFusion.spread. upto6 i; cbn [nth]; ring. }
    rewrite NZ, Rplus_0_r. apply total_same. intros l Hl.
    replace (l <? 6)%nat with true by (symmetry; apply Nat.ltb_lt; exact Hl). cbv iota. rewrite JF by assumption. f_equal.
    apply total_same. intros p Hp. replace (p <? 6)%nat with true by (symmetry; apply Nat.ltb_lt; exact Hp). cbv iota. rewrite JF, P by assumption. reflexivity.
Qed.

(** A pose at the same place with another heading, as certain as the initial one. *)
Lemma rest_cycle k phi y s s1 s2 m : - PI < phi <= PI -> cos phi = k -> sin phi = 0 -> k * k = 1 -> at_rest phi s -> predicts 1 1 [0; 0; 0; 0] s s1 ->
  cols m = [0; 1; 2]%nat -> slots m = [0; 1; 5]%nat -> vals m = [0; 0; y] -> array m = large36 -> - PI < y <= PI ->
  treats 3 1 1 10000 (stamp m) 1 m s1 s2 -> fst s2 2%nat = phi + 101 / 201 * (y - phi) /\ fst s2 3%nat = 0.
Proof.
  intros HB Hc Hs Hk R0 PR C S V A HY T. destruct (rest_predicted k phi s s1 HB Hc Hs R0 PR) as [X P1].
  assert (C0 : col m 0 = 0%nat) by (unfold col; rewrite C; reflexivity). assert (C1 : col m 1 = 1%nat) by (unfold col; rewrite C; reflexivity).
  assert (C2 : col m 2 = 2%nat) by (unfold col; rewrite C; reflexivity).
  assert (HC : forall k, (k < 3)%nat -> (col m k < 6)%nat) by (intros [|[|[|j]]] Hj; [rewrite C0|rewrite C1|rewrite C2|]; lia).
  assert (V0 : values m 0 = 0) by (unfold values; rewrite V; reflexivity). assert (V1 : values m 1 = 0) by (unfold values; rewrite V; reflexivity).
  assert (V2 : values m 2 = y) by (unfold values; rewrite V; reflexivity).
  assert (N : forall i j, (i < 3)%nat -> (j < 3)%nat -> noise_of m 1 i j = if Nat.eqb i j then 1 else 0).
  { intros i j Hi Hj. unfold noise_of. rewrite S, A. destruct i as [|[|[|i]]]; [| | |lia]; (destruct j as [|[|[|j]]]; [| | |lia]); cbn; lra. }
  assert (Q : forall i j, (i < 3)%nat -> (j < 3)%nat -> snd s1 i j = if Nat.eqb i j then nth i [101 / 100; 1; 101 / 100] 0 else 0).
  { intros i j Hi Hj. rewrite P1 by lia. destruct i as [|[|[|i]]]; [| | |lia]; (destruct j as [|[|[|j]]]; [| | |lia]); cbn; nra. }
  assert (Q3 : forall j, (j < 3)%nat -> snd s1 3%nat j = 0).
  { intros j Hj. rewrite P1 by lia. (destruct j as [|[|[|j]]]; [| | |lia]); cbn; lra. }
  pose proof PI_RGT_0. pose proof PI_4.
  assert (GATE : inside_gate 3 (fun i j => snd s1 (col m i) (col m j)) 10000 (fun k => fst s1 (col m k) - values m k)).
  { exists (fun i j => if Nat.eqb i j then nth i [100 / 101; 1; 100 / 101] 0 else 0). split.
    - split; intros i j Hi Hj; unfold times, identity; cbn [total]; (destruct i as [|[|[|i]]]; [| | |lia]); (destruct j as [|[|[|j]]]; [| | |lia]);
        rewrite ?C0, ?C1, ?C2, !Q by lia; cbn; lra.
    - unfold variance_along. cbn [total]. rewrite C0, C1, C2, !X, V0, V1, V2 by lia. cbn [Nat.eqb nth].
      assert (B : -8 <= phi - y <= 8) by lra. assert (B2 : (phi - y) * (phi - y) <= 64) by nra. nra. }
  apply (treated 3 1 10000 (stamp m) m s1 s2 eq_refl HC GATE) in T. destruct (fused 3 m _ _ _ _ _ _ HC T) as (W & HW & HX & _).
  assert (W2 : forall j, (j < 3)%nat -> W 2%nat j = if Nat.eqb 2 j then 100 / 201 else 0).
  { intros j Hj. assert (E := HW 2%nat j ltac:(lia) Hj). cbn [total] in E. rewrite C0, C1, C2, !Q, !N in E by lia. cbn [Nat.eqb nth] in E. (destruct j as [|[|[|j]]]; [| | |lia]); cbn in *; lra. }
  split.
  - rewrite HX by lia. cbn [total]. rewrite C0, C1, C2, !Q, !X, V0, V1, V2, !W2 by lia. cbn [Nat.eqb nth]. lra.
  - rewrite HX by lia. cbn [total]. rewrite C0, C1, C2, !Q3, !X by lia. cbn [Nat.eqb]. ring.
Qed.
