(** Two update cycles of the EKF localizer in numbers. *)
From Coq Require Import Reals Lra Lia PeanoNat List Bool ZArith Psatz.
From Coquelicot Require Import Coquelicot.
From Verif Require Import SpecKalman SpecFusion.
Import ListNotations.
Local Open Scope R_scope.

(** The derivative of the motion over one second where the heading is zero. *)
Definition jac (v : R) (i j : nat) : R :=
  match i, j with
  | 0%nat, 0%nat => 1 | 0%nat, 4%nat => 1
  | 1%nat, 1%nat => 1 | 1%nat, 2%nat => v | 1%nat, 3%nat => v
  | 2%nat, 2%nat => 1 | 2%nat, 5%nat => 1
  | 3%nat, 3%nat => 1 | 4%nat, 4%nat => 1 | 5%nat, 5%nat => 1
  | _, _ => 0
  end.
Ltac upto6 i := destruct i as [|[|[|[|[|[|i]]]]]]; [| | | | | |exfalso; lia].
Lemma jac_is x F : x 2%nat = 0 -> x 3%nat = 0 ->
  (forall i j, (i < 6)%nat -> (j < 6)%nat -> is_derive (fun v => motion 1 (replaced x j v) i) (x j) (F i j)) ->
  forall i j, (i < 6)%nat -> (j < 6)%nat -> F i j = jac (x 4%nat) i j.
Proof.
  intros X2 X3 H i j Hi Hj. specialize (H i j Hi Hj). apply is_derive_unique in H. rewrite <- H. apply is_derive_unique.
  unfold motion, replaced. upto6 i; upto6 j; cbn [Nat.eqb jac]; auto_derive; auto; rewrite ?X2, ?X3, ?Rplus_0_r, ?cos_0, ?sin_0; ring.
Qed.
(** Row i of the derivative applied to a vector. *)
Definition row (v : R) (i : nat) (p : nat -> R) : R :=
  match i with
  | 0%nat => p 0%nat + p 4%nat
  | 1%nat => p 1%nat + v * p 2%nat + v * p 3%nat
  | 2%nat => p 2%nat + p 5%nat
  | _ => p i
  end.
Lemma jac_row v i p : (i < 6)%nat -> total 6 (fun l => jac v i l * p l) = row v i p.
Proof. intros Hi. upto6 i; cbn [total jac row]; ring. Qed.
(** A prediction over one second at heading zero without noise. *)
Lemma predicted s s' : predicts 1 1 [0; 0; 0; 0] s s' -> fst s 2%nat = 0 -> fst s 3%nat = 0 -> fst s 5%nat = 0 ->
  fst s' 0%nat = fst s 0%nat + fst s 4%nat /\ fst s' 1%nat = fst s 1%nat /\ fst s' 2%nat = 0 /\ fst s' 3%nat = 0 /\ fst s' 4%nat = fst s 4%nat /\ fst s' 5%nat = 0 /\
  forall i j, (i < 6)%nat -> (j < 6)%nat -> snd s' i j = row (fst s 4%nat) i (fun k => row (fst s 4%nat) j (fun l => snd s k l)).
Proof.
  intros (M & (k & H1) & H2 & _ & F & HF & HP) X2 X3 X5. cbn [Nat.mul Nat.add] in HP.
  assert (JF := jac_is (fst s) F X2 X3 HF).
  pose proof (M 0%nat ltac:(lia) ltac:(lia)) as M0. pose proof (M 1%nat ltac:(lia) ltac:(lia)) as M1. pose proof (M 3%nat ltac:(lia) ltac:(lia)) as M3.
  pose proof (M 4%nat ltac:(lia) ltac:(lia)) as M4. pose proof (M 5%nat ltac:(lia) ltac:(lia)) as M5. unfold motion in M0, M1, M3, M4, M5, H1.
  rewrite X2, X3, Rplus_0_r, cos_0 in M0. rewrite X2, X3, Rplus_0_r, sin_0 in M1. rewrite X2, X5 in H1.
  split; [rewrite M0; ring|]. split; [rewrite M1; ring|]. split.
  { pose proof PI_RGT_0. assert (-1 < IZR k < 1) by (split; nra). assert (k = 0%Z) by (destruct H0 as [A B]; apply lt_IZR in A, B; lia). subst k. lra. }
  split; [lra|]. split; [exact M4|]. split; [lra|].
  intros i j Hi Hj. rewrite HP by assumption. unfold SpecKalman.plus, times, flip, stacked_noise, stacked_transition.
  replace (i <? 6)%nat with true by (symmetry; apply Nat.ltb_lt; exact Hi). replace (j <? 6)%nat with true by (symmetry; apply Nat.ltb_lt; exact Hj). cbn [andb].
  assert (NZ : (if Nat.eqb i j then nth i [0; 0; SpecFusion.spread (nth 0 [0; 0; 0; 0] 0) 1; SpecFusion.spread (nth 1 [0; 0; 0; 0] 0) 1; SpecFusion.spread (nth 2 [0; 0; 0; 0] 0) 1; SpecFusion.spread (nth 3 [0; 0; 0; 0] 0) 1] 0 else 0) = 0).
  { destruct (Nat.eqb i j); [|reflexivity]. unfold SpecFusion.spread. upto6 i; cbn [nth]; ring. }
  rewrite NZ, Rplus_0_r. rewrite <- (jac_row (fst s 4%nat) i) by exact Hi.
  cbn [total]. change (0 <? 6)%nat with true. change (1 <? 6)%nat with true. change (2 <? 6)%nat with true. change (3 <? 6)%nat with true. change (4 <? 6)%nat with true. change (5 <? 6)%nat with true. cbv iota.
  rewrite !JF by lia. rewrite <- !(jac_row (fst s 4%nat) j) by exact Hj. cbn [total]. ring.
Qed.
(** A measurement of components without delay. *)
Lemma picked m i (x : nat -> R) : (col m i < 6)%nat -> total 6 (fun l => stacked_measurement 6 0 (picks m) i l * x l) = x (col m i).
Proof. unfold stacked_measurement, picks. set (c := col m i). clearbody c. intros H. upto6 c; cbn [total Nat.div Nat.modulo Nat.divmod Nat.sub fst snd Nat.eqb]; ring. Qed.
Lemma picked_r m i (x : nat -> R) : (col m i < 6)%nat -> total 6 (fun l => x l * stacked_measurement 6 0 (picks m) i l) = x (col m i).
Proof. unfold stacked_measurement, picks. set (c := col m i). clearbody c. intros H. upto6 c; cbn [total Nat.div Nat.modulo Nat.divmod Nat.sub fst snd Nat.eqb]; ring. Qed.
Lemma total_same n f g : (forall k, (k < n)%nat -> f k = g k) -> total n f = total n g.
Proof. induction n as [|n IH]; intros H; [reflexivity|]. cbn [total]. rewrite IH, (H n) by (intros; auto with arith). reflexivity. Qed.
Lemma fused h m N y x P x' P' : (forall k, (k < h)%nat -> (col m k < 6)%nat) ->
  textbook_update 6 h (stacked_measurement 6 0 (picks m)) N y x P x' P' ->
  exists V, (forall i j, (i < h)%nat -> (j < h)%nat -> total h (fun l => (P (col m i) (col m l) + N i l) * V l j) = if Nat.eqb i j then 1 else 0) /\
    (forall i, (i < 6)%nat -> x' i = x i + total h (fun k => total h (fun l => P i (col m l) * V l k) * (y k - x (col m k)))) /\
    (forall i j, (i < 6)%nat -> (j < 6)%nat -> P' i j = P i j - total h (fun k => total h (fun l => P i (col m l) * V l k) * P (col m k) j)).
Proof.
  intros HC (V & K & (I1 & _) & HK & HX & HP). exists V. set (C := stacked_measurement 6 0 (picks m)) in *.
  assert (PC : forall i l, (l < h)%nat -> times 6 P (SpecKalman.flip C) i l = P i (col m l)).
  { intros i l Hl. unfold times, SpecKalman.flip. apply (picked_r m l (fun k => P i k)). apply HC. exact Hl. }
  assert (KE : forall i k, (i < 6)%nat -> (k < h)%nat -> K i k = total h (fun l => P i (col m l) * V l k)).
  { intros i k Hi Hk. rewrite HK by assumption. unfold times at 1. apply total_same. intros l Hl. rewrite PC by exact Hl. reflexivity. }
  split; [|split].
  - intros i j Hi Hj. change (if Nat.eqb i j then 1 else 0) with (identity i j). rewrite <- (I1 i j Hi Hj). unfold times at 1. apply total_same. intros l Hl. unfold SpecKalman.plus. f_equal. f_equal.
    unfold times at 1. transitivity (total 6 (fun k => C i k * P k (col m l))); [symmetry; apply (picked m i (fun k => P k (col m l))); apply HC; exact Hi|].
    apply total_same. intros k _. rewrite PC by exact Hl. reflexivity.
  - intros i Hi. rewrite HX by exact Hi. f_equal. unfold apply_to at 1. apply total_same. intros k Hk. rewrite KE by assumption. f_equal. f_equal. apply picked. apply HC. exact Hk.
  - intros i j Hi Hj. rewrite HP by assumption. unfold SpecKalman.minus. f_equal. unfold times at 1. apply total_same. intros k Hk. rewrite KE by assumption. f_equal. unfold times. apply (picked m k (fun l => P l j)). apply HC. exact Hk.
Qed.
Lemma treated h steps dist now m s s' : stamp m = now -> (forall k, (k < h)%nat -> (col m k < 6)%nat) ->
  inside_gate h (fun i j => snd s (col m i) (col m j)) dist (fun k => fst s (col m k) - values m k) ->
  treats h 1 steps dist now 1 m s s' ->
  textbook_update 6 h (stacked_measurement 6 0 (picks m)) (noise_of m steps) (values m) (fst s) (snd s) (fst s') (snd s').
Proof.
  intros T HC G (d & D0 & DD & [[_ H]|[N _]]); unfold delay_of in DD; rewrite T, Z.sub_diag in DD; unfold Rdiv in DD; rewrite Rmult_0_l, Rmax_left in DD by lra.
  - assert (d = 0%Z) by (assert (IZR d < 1) by lra; apply lt_IZR in H0; lia). subst d. exact H.
  - assert (d = 0%Z) by (assert (IZR d < 1) by lra; apply lt_IZR in H; lia). subst d. exfalso. apply N. split; [cbn; lia|]. exact G.
Qed.

(** The two cycles. *)
Definition start (s : estimate) : Prop := (forall i, (i < 6)%nat -> fst s i = 0) /\
  forall i j, (i < 6)%nat -> (j < 6)%nat -> snd s i j = if Nat.eqb i j then nth i [1; 1; 1; 1 / 10000; 1 / 100; 1 / 100] 0 else 0.
Definition small36 : list R := map (fun k => if Nat.eqb (k / 6) (k mod 6) then 1 / 100 else 0) (seq 0 36).
Definition large36 : list R := map (fun k => if Nat.eqb (k / 6) (k mod 6) then 1 else 0) (seq 0 36).
Lemma first_cycle s s1 s2 steps_gate m : start s -> predicts 1 1 [0; 0; 0; 0] s s1 -> 10 <= steps_gate ->
  cols m = [4; 5]%nat -> slots m = [0; 5]%nat -> vals m = [1; 0] -> array m = small36 ->
  treats 2 1 1 steps_gate (stamp m) 1 m s1 s2 ->
  (fst s2 0%nat = 1 / 2 /\ fst s2 1%nat = 0 /\ fst s2 2%nat = 0 /\ fst s2 3%nat = 0 /\ fst s2 4%nat = 1 / 2 /\ fst s2 5%nat = 0) /\
  forall i j, (i < 6)%nat -> (j < 6)%nat -> snd s2 i j =
    match i, j with
    | 0%nat, 0%nat => 1005 / 1000 | 0%nat, 4%nat => 5 / 1000 | 4%nat, 0%nat => 5 / 1000
    | 1%nat, 1%nat => 1 | 2%nat, 2%nat => 1005 / 1000 | 2%nat, 5%nat => 5 / 1000 | 5%nat, 2%nat => 5 / 1000
    | 3%nat, 3%nat => 1 / 10000 | 4%nat, 4%nat => 5 / 1000 | 5%nat, 5%nat => 5 / 1000
    | _, _ => 0
    end.
Proof.
  intros [X0 P0] PR G C S V A T.
  destruct (predicted s s1 PR) as (X10 & X11 & X12 & X13 & X14 & X15 & P1); try (apply X0; lia).
  rewrite (X0 0%nat) in X10 by lia. rewrite (X0 4%nat) in X10, X14, P1 by lia. rewrite (X0 1%nat) in X11 by lia. rewrite Rplus_0_r in X10.
  assert (C0 : col m 0 = 4%nat) by (unfold col; rewrite C; reflexivity). assert (C1 : col m 1 = 5%nat) by (unfold col; rewrite C; reflexivity).
  assert (HC : forall k, (k < 2)%nat -> (col m k < 6)%nat) by (intros [|[|k]] Hk; [rewrite C0|rewrite C1|]; lia).
  assert (P1v : forall i j, (i < 6)%nat -> (j < 6)%nat -> snd s1 i j = row 0 i (fun k => row 0 j (fun l => if Nat.eqb k l then nth k [1; 1; 1; 1 / 10000; 1 / 100; 1 / 100] 0 else 0))).
  { intros i j Hi Hj. rewrite P1 by assumption. upto6 i; upto6 j; cbn [row]; rewrite !P0 by lia; reflexivity. }
  assert (V0 : values m 0 = 1) by (unfold values; rewrite V; reflexivity). assert (V1 : values m 1 = 0) by (unfold values; rewrite V; reflexivity).
  assert (N : forall i j, (i < 2)%nat -> (j < 2)%nat -> noise_of m 1 i j = if Nat.eqb i j then 1 / 100 else 0).
  { intros i j Hi Hj. unfold noise_of. rewrite S, A. destruct i as [|[|i]]; [| |lia]; (destruct j as [|[|j]]; [| |lia]); cbn; lra. }
  assert (GATE : inside_gate 2 (fun i j => snd s1 (col m i) (col m j)) steps_gate (fun k => fst s1 (col m k) - values m k)).
  { exists (fun i j => if Nat.eqb i j then 100 else 0). split.
    - split; intros i j Hi Hj; unfold times, identity; cbn [total]; (destruct i as [|[|i]]; [| |lia]); (destruct j as [|[|j]]; [| |lia]);
        rewrite ?C0, ?C1, !P1v by lia; cbn; lra.
    - unfold variance_along. cbn [total]. rewrite C0, C1, X14, X15, V0, V1. cbn [Nat.eqb]. nra. }
  apply (treated 2 1 steps_gate (stamp m) m s1 s2 eq_refl HC GATE) in T. destruct (fused 2 m _ _ _ _ _ _ HC T) as (W & HW & HX & HP).
  assert (W00 := HW 0%nat 0%nat ltac:(lia) ltac:(lia)). assert (W01 := HW 0%nat 1%nat ltac:(lia) ltac:(lia)).
  assert (W10 := HW 1%nat 0%nat ltac:(lia) ltac:(lia)). assert (W11 := HW 1%nat 1%nat ltac:(lia) ltac:(lia)). clear HW.
  cbn [total Nat.eqb] in W00, W01, W10, W11. rewrite C0, C1, !P1v, !N in W00, W01, W10, W11 by lia.
  cbn [row Nat.eqb nth] in W00, W01, W10, W11.
  assert (E00 : W 0%nat 0%nat = 50) by lra. assert (E01 : W 0%nat 1%nat = 0) by lra. assert (E10 : W 1%nat 0%nat = 0) by lra. assert (E11 : W 1%nat 1%nat = 50) by lra.
  assert (XV : forall i, (i < 6)%nat -> fst s2 i = fst s1 i + snd s1 i 4%nat * 50).
  { intros i Hi. rewrite HX by exact Hi. cbn [total]. rewrite C0, C1, E00, E01, E10, E11, X14, X15, V0, V1. ring. }
  assert (PV : forall i j, (i < 6)%nat -> (j < 6)%nat -> snd s2 i j = snd s1 i j - 50 * (snd s1 i 4%nat * snd s1 4%nat j + snd s1 i 5%nat * snd s1 5%nat j)).
  { intros i j Hi Hj. rewrite HP by assumption. cbn [total]. rewrite C0, C1, E00, E01, E10, E11. ring. }
  split.
  - rewrite !XV, X10, X11, X12, X13, X14, X15 by lia. rewrite !P1v by lia. cbn [row Nat.eqb nth]. lra.
  - intros i j Hi Hj. rewrite PV, !P1v by lia. upto6 i; upto6 j; cbn [row Nat.eqb nth]; lra.
Qed.
Lemma second_cycle s s1 s2 gate m :
  fst s 0%nat = 1 / 2 /\ fst s 1%nat = 0 /\ fst s 2%nat = 0 /\ fst s 3%nat = 0 /\ fst s 4%nat = 1 / 2 /\ fst s 5%nat = 0 ->
  (forall i j, (i < 6)%nat -> (j < 6)%nat -> snd s i j =
    match i, j with
    | 0%nat, 0%nat => 1005 / 1000 | 0%nat, 4%nat => 5 / 1000 | 4%nat, 0%nat => 5 / 1000
    | 1%nat, 1%nat => 1 | 2%nat, 2%nat => 1005 / 1000 | 2%nat, 5%nat => 5 / 1000 | 5%nat, 2%nat => 5 / 1000
    | 3%nat, 3%nat => 1 / 10000 | 4%nat, 4%nat => 5 / 1000 | 5%nat, 5%nat => 5 / 1000
    | _, _ => 0
    end) -> predicts 1 1 [0; 0; 0; 0] s s1 -> 10 <= gate ->
  cols m = [0; 1; 2]%nat -> slots m = [0; 1; 5]%nat -> vals m = [1; 1; 0] -> array m = large36 ->
  treats 3 1 1 gate (stamp m) 1 m s1 s2 -> fst s2 3%nat <> 0.
Proof.
  intros (X0 & X1 & X2 & X3 & X4 & X5) P PR G C S V A T.
  destruct (predicted s s1 PR) as (X10 & X11 & X12 & X13 & X14 & X15 & P1); auto. rewrite X0, X4 in X10. rewrite X1 in X11. rewrite X4 in P1, X14.
  assert (C0 : col m 0 = 0%nat) by (unfold col; rewrite C; reflexivity). assert (C1 : col m 1 = 1%nat) by (unfold col; rewrite C; reflexivity). assert (C2 : col m 2 = 2%nat) by (unfold col; rewrite C; reflexivity).
  assert (HC : forall k, (k < 3)%nat -> (col m k < 6)%nat) by (intros [|[|[|k]]] Hk; [rewrite C0|rewrite C1|rewrite C2|]; lia).
  assert (P00 : snd s1 0%nat 0%nat = 102 / 100) by (rewrite P1 by lia; cbn [row]; rewrite !P by lia; lra).
  assert (P01 : snd s1 0%nat 1%nat = 0) by (rewrite P1 by lia; cbn [row]; rewrite !P by lia; lra).
  assert (P02 : snd s1 0%nat 2%nat = 0) by (rewrite P1 by lia; cbn [row]; rewrite !P by lia; lra).
  assert (P10 : snd s1 1%nat 0%nat = 0) by (rewrite P1 by lia; cbn [row]; rewrite !P by lia; lra).
  assert (P11 : snd s1 1%nat 1%nat = 1251275 / 1000000) by (rewrite P1 by lia; cbn [row]; rewrite !P by lia; lra).
  assert (P12 : snd s1 1%nat 2%nat = 505 / 1000) by (rewrite P1 by lia; cbn [row]; rewrite !P by lia; lra).
  assert (P20 : snd s1 2%nat 0%nat = 0) by (rewrite P1 by lia; cbn [row]; rewrite !P by lia; lra).
  assert (P21 : snd s1 2%nat 1%nat = 505 / 1000) by (rewrite P1 by lia; cbn [row]; rewrite !P by lia; lra).
  assert (P22 : snd s1 2%nat 2%nat = 102 / 100) by (rewrite P1 by lia; cbn [row]; rewrite !P by lia; lra).
  assert (P30 : snd s1 3%nat 0%nat = 0) by (rewrite P1 by lia; cbn [row]; rewrite !P by lia; lra).
  assert (P31 : snd s1 3%nat 1%nat = 1 / 20000) by (rewrite P1 by lia; cbn [row]; rewrite !P by lia; lra).
  assert (P32 : snd s1 3%nat 2%nat = 0) by (rewrite P1 by lia; cbn [row]; rewrite !P by lia; lra).
  assert (V0 : values m 0 = 1) by (unfold values; rewrite V; reflexivity). assert (V1 : values m 1 = 1) by (unfold values; rewrite V; reflexivity). assert (V2 : values m 2 = 0) by (unfold values; rewrite V; reflexivity).
  assert (N : forall i j, (i < 3)%nat -> (j < 3)%nat -> noise_of m 1 i j = if Nat.eqb i j then 1 else 0).
  { intros i j Hi Hj. unfold noise_of. rewrite S, A. destruct i as [|[|[|i]]]; [| | |lia]; (destruct j as [|[|[|j]]]; [| | |lia]); cbn; lra. }
  set (det := 1251275 / 1000000 * (102 / 100) - 505 / 1000 * (505 / 1000)). assert (DET : 1 < det) by (unfold det; lra).
  assert (GATE : inside_gate 3 (fun i j => snd s1 (col m i) (col m j)) gate (fun k => fst s1 (col m k) - values m k)).
  { exists (fun i j => match i, j with 0%nat, 0%nat => 100 / 102 | 1%nat, 1%nat => 102 / 100 / det | 1%nat, 2%nat => - (505 / 1000) / det | 2%nat, 1%nat => - (505 / 1000) / det | 2%nat, 2%nat => 1251275 / 1000000 / det | _, _ => 0 end). split.
    - split; intros i j Hi Hj; unfold times, identity; cbn [total]; (destruct i as [|[|[|i]]]; [| | |lia]); (destruct j as [|[|[|j]]]; [| | |lia]);
        rewrite ?C0, ?C1, ?C2, ?P00, ?P01, ?P02, ?P10, ?P11, ?P12, ?P20, ?P21, ?P22; cbn [Nat.eqb]; unfold det; lra.
    - unfold variance_along. cbn [total]. rewrite C0, C1, C2, X10, X11, X12, V0, V1, V2.
      match goal with |- ?l <= _ => replace l with (102 / 100 / det) by (unfold det; lra) end. unfold det. nra. }
  apply (treated 3 1 gate (stamp m) m s1 s2 eq_refl HC GATE) in T. destruct (fused 3 m _ _ _ _ _ _ HC T) as (W & HW & HX & _).
  rewrite (HX 3%nat ltac:(lia)). cbn [total]. rewrite C0, C1, C2, P30, P31, P32, X10, X11, X12, X13, V0, V1, V2.
  assert (W01 := HW 0%nat 1%nat ltac:(lia) ltac:(lia)). assert (W11 := HW 1%nat 1%nat ltac:(lia) ltac:(lia)). assert (W21 := HW 2%nat 1%nat ltac:(lia) ltac:(lia)). clear HW.
  cbn [total Nat.eqb] in W01, W11, W21. rewrite C0, C1, C2, !N in W01, W11, W21 by lia. rewrite P00, P01, P02 in W01. rewrite P10, P11, P12 in W11. rewrite P20, P21, P22 in W21. cbn [Nat.eqb] in W01, W11, W21.
  nra.
Qed.
