(** The callback of the converter. *)
From Coq Require Import String List ZArith Bool Lia Permutation Sorted.
From Verif Require Import Base ConvertModel SpecConvert ConvertProofs.
Import ListNotations.
Open Scope Z_scope.

Definition le_off (f g : field) : Prop := offset f <= offset g.
Definition lt_off (f g : field) : Prop := offset f < offset g.

Lemma insert_perm f l : Permutation (insert f l) (f :: l).
Proof.
  induction l as [|g l IH]; cbn [insert]; [reflexivity|]. destruct (_ <=? _); [reflexivity|]. rewrite IH. constructor.
Qed.
Lemma sort_perm l : Permutation (sort_fields l) l.
Proof. unfold sort_fields. induction l as [|f l IH]; cbn [fold_right]; [constructor|]. rewrite insert_perm. constructor. auto. Qed.
Lemma insert_sorted f l : StronglySorted le_off l -> StronglySorted le_off (insert f l).
Proof.
  induction 1 as [|g l SS IH HF]; cbn [insert]; [repeat constructor|]. destruct (Z.leb_spec (offset f) (offset g)).
  - constructor; [constructor; auto|]. constructor; [exact H|]. eapply Forall_impl; [|exact HF]. unfold le_off. intros. lia.
  - constructor; auto. apply (Permutation_Forall (Permutation_sym (insert_perm f l))). constructor; auto. unfold le_off. lia.
Qed.
Lemma sort_sorted l : StronglySorted le_off (sort_fields l).
Proof. unfold sort_fields. induction l as [|f l IH]; cbn [fold_right]; [constructor|]. apply insert_sorted; auto. Qed.

Lemma apart_sym f g : apart f g -> apart g f.
Proof. unfold apart. tauto. Qed.
Lemma pairs_perm {A} (R : A -> A -> Prop) l l' : (forall a b, R a b -> R b a) -> Permutation l l' -> ForallOrdPairs R l -> ForallOrdPairs R l'.
Proof.
  intros Sy P. induction P as [|x l l' P IH|x y l|l1 l2 l3 P1 IH1 P2 IH2]; intros H; auto.
  - inversion H as [|? ? F T]; subst. constructor; auto. eapply Permutation_Forall; eauto.
  - inversion H as [|? ? F1 T1]; subst. inversion T1 as [|? ? F2 T2]; subst. inversion F1 as [|? ? R1 F3]; subst.
    constructor; [constructor; auto|]. constructor; auto.
Qed.

Definition inside (step : Z) (f : field) : Prop := 0 <= offset f /\ offset f + type_size (datatype f) <= step /\ valid_type (datatype f).

Lemma sorted_laid_out step l : forall start, StronglySorted le_off l -> ForallOrdPairs apart l -> Forall (inside step) l ->
  Forall (fun f => start <= offset f) l -> start <= step -> laid_out start l step.
Proof.
  induction l as [|f l IH]; intros start SS FA FI FS HS; cbn [laid_out]; [auto|].
  inversion SS as [|? ? S1 S2]; subst. inversion FA as [|? ? A1 A2]; subst. inversion FI as [|? ? I1 I2]; subst. inversion FS as [|? ? T1 T2]; subst.
  destruct I1 as [I3 [I4 I5]]. split; auto. split; auto. apply IH; auto.
  rewrite Forall_forall in *. intros g Hg. specialize (S2 g Hg). specialize (A1 g Hg). destruct (I2 g Hg) as [_ [_ V]].
  pose proof (type_size_pos _ V). pose proof (type_size_pos _ I5). unfold le_off, apart in *. lia.
Qed.
Lemma sorted_strict step l : StronglySorted le_off l -> ForallOrdPairs apart l -> Forall (inside step) l -> StronglySorted lt_off l.
Proof.
  induction l as [|f l IH]; intros SS FA FI; constructor.
  - inversion SS; inversion FA; inversion FI; auto.
  - inversion SS as [|? ? S1 S2]; subst. inversion FA as [|? ? A1 A2]; subst. inversion FI as [|? ? I1 I2]; subst.
    rewrite Forall_forall in *. intros g Hg. specialize (S2 g Hg). specialize (A1 g Hg). destruct (I2 g Hg) as [_ [_ V]].
    destruct I1 as [_ [_ V1]]. pose proof (type_size_pos _ V). pose proof (type_size_pos _ V1). unfold le_off, lt_off, apart in *. lia.
Qed.
Lemma strict_unique l1 l2 : StronglySorted lt_off l1 -> StronglySorted lt_off l2 -> Permutation l1 l2 -> l1 = l2.
Proof.
  revert l2. induction l1 as [|f l1 IH]; intros l2 S1 S2 P; [apply Permutation_nil in P; auto|].
  destruct l2 as [|g l2]; [apply Permutation_sym, Permutation_nil in P; discriminate|].
  inversion S1 as [|? ? A1 A2]; subst. inversion S2 as [|? ? B1 B2]; subst.
  assert (f = g) as ->.
  { assert (If : In f (g :: l2)) by (apply (Permutation_in _ P); left; auto).
    assert (Ig : In g (f :: l1)) by (apply (Permutation_in _ (Permutation_sym P)); left; auto).
    rewrite Forall_forall in *. destruct If as [<-|If]; auto. destruct Ig as [<-|Ig]; auto.
    specialize (A2 _ Ig). specialize (B2 _ If). unfold lt_off in *. lia. }
  f_equal. apply IH; auto. apply (Permutation_cons_inv P).
Qed.
Lemma filter_sorted (P : field -> bool) l : StronglySorted lt_off l -> StronglySorted lt_off (filter P l).
Proof.
  induction 1 as [|f l SS IH HF]; cbn [filter]; [constructor|]. destruct (P f); auto. constructor; auto.
  rewrite Forall_forall in *. intros g Hg. apply filter_In in Hg. apply HF. tauto.
Qed.
Lemma filter_perm {A} (P : A -> bool) l l' : Permutation l l' -> Permutation (filter P l) (filter P l').
Proof.
  induction 1 as [|x l l' H IH|x y l|l1 l2 l3 H1 IH1 H2 IH2]; cbn [filter]; auto.
  - destruct (P x); auto.
  - destruct (P x), (P y); auto. constructor.
  - etransitivity; eauto.
Qed.
Lemma sorted_cut c l : StronglySorted lt_off l -> l = filter (fun f => offset f <? c) l ++ filter (fun f => negb (offset f <? c)) l.
Proof.
  induction 1 as [|f l SS IH HF]; cbn [filter]; auto. destruct (Z.ltb_spec (offset f) c); cbn [negb app].
  - f_equal. exact IH.
  - assert (E : filter (fun f => offset f <? c) l = []).
    { clear IH SS. induction l as [|g l IHl]; auto. inversion HF; subst. cbn [filter]. unfold lt_off in *. destruct (Z.ltb_spec (offset g) c); [lia|auto]. }
    rewrite E in *. cbn [app] in *. f_equal. exact IH.
Qed.
Lemma pairs_in {A} (R : A -> A -> Prop) l a b : (forall a b, R a b -> R b a) -> ForallOrdPairs R l -> In a l -> In b l -> a <> b -> R a b.
Proof.
  intros Sy. induction 1 as [|x l HF HP IH]; intros Ia Ib N; [contradiction|]. rewrite Forall_forall in HF.
  destruct Ia as [<-|Ia], Ib as [<-|Ib]; auto; congruence.
Qed.
Lemma nodup_name l f g : NoDup (map fname l) -> In f l -> In g l -> fname f = fname g -> f = g.
Proof.
  induction l as [|x l IH]; intros ND If Ig E; [contradiction|]. cbn [map] in ND. inversion ND as [|? ? N1 N2]; subst.
  destruct If as [<-|If], Ig as [<-|Ig]; auto; exfalso; apply N1; [rewrite E|rewrite <- E]; apply in_map; auto.
Qed.

(** ** Indices *)
Lemma mapM_ok {A B} (f : A -> outcome B) (g : A -> B) l : (forall a, In a l -> f a = Ok (g a)) -> mapM f l = Ok (map g l).
Proof.
  induction l as [|a l IH]; intros H; cbn [mapM map]; auto. rewrite H by (left; auto). cbn [bind]. rewrite IH by (intros; apply H; right; auto). reflexivity.
Qed.
Lemma indices_ok (h : field -> value) names l :
  mapM (vat (map h l)) (find_indices l names) = Ok (map h (filter (fun f => existsb (String.eqb (fname f)) names) l)).
Proof.
  unfold find_indices. set (P := fun f => existsb (String.eqb (fname f)) names).
  assert (G : forall pre l, mapM (vat (map h (pre ++ l))) (filter (fun i => match nth_error (pre ++ l) (Z.to_nat i) with Some f => P f | None => false end)
      (map Z.of_nat (seq (length pre) (length l)))) = Ok (map h (filter P l))).
  { intros pre l0. revert pre. induction l0 as [|f l0 IH]; intros pre; [reflexivity|]. cbn [length seq map filter].
    rewrite Nat2Z.id, nth_error_app2, Nat.sub_diag by lia. cbn [nth_error].
    specialize (IH (pre ++ [f])). rewrite app_length in IH. cbn [length] in IH. rewrite <- app_assoc in IH. cbn [app] in IH. rewrite Nat.add_1_r in IH.
    destruct (P f) eqn:EP; [|exact IH]. cbn [mapM map]. unfold vat at 1.
    replace (Z.of_nat (length pre) <? 0) with false by (symmetry; apply Z.ltb_ge; lia).
    rewrite nth_error_map, Nat2Z.id, nth_error_app2, Nat.sub_diag by lia. cbn [nth_error option_map bind]. rewrite IH. reflexivity. }
  exact (G [] l).
Qed.

(** ** Zero *)
Lemma four (l : list Z) : length l = 4%nat -> exists a b c d, l = [a; b; c; d].
Proof. destruct l as [|a [|b [|c [|d [|e l]]]]]; intros H; try discriminate H. eauto 10. Qed.
Lemma zero_spec l : length l = 4%nat -> Forall is_byte l -> (is_zero (VF32 (from_bytes l)) = true <-> zero_bytes l).
Proof.
  intros L B. cbn [is_zero]. rewrite orb_true_iff, !Z.eqb_eq.
  pose proof (to_from l B) as T. rewrite L in T. split.
  - intros [E|E]; rewrite E in T; rewrite <- T; [left|right]; reflexivity.
  - intros [->| ->]; [left|right]; reflexivity.
Qed.

Lemma slice_ok p off n : 0 <= off -> 0 <= n -> off + n <= Z.of_nat (length p) -> Forall is_byte p ->
  length (slice p off n) = Z.to_nat n /\ Forall is_byte (slice p off n).
Proof.
  intros H1 H2 H3 B. unfold slice. split; [rewrite firstn_length, skipn_length; lia|].
  rewrite Forall_forall in *. intros x Hx. apply B. rewrite <- (firstn_skipn (Z.to_nat off) p). apply in_or_app. right.
  rewrite <- (firstn_skipn (Z.to_nat n) (skipn (Z.to_nat off) p)). apply in_or_app. left. auto.
Qed.

Section Callback.
Variable to_f32 to_f64 : value -> option Z.

Section Layout.
Variable fields : list field.
Variable step oi or : Z.
Hypothesis HL : gap_layout fields step oi or.
Variable big : bool.
Notation S := (sort_fields (fields ++ [padding_field])).

Lemma all_perm : Permutation S (padding_field :: fields).
Proof. rewrite sort_perm. symmetry. apply Permutation_cons_append. Qed.
Lemma all_inside : Forall (inside step) (padding_field :: fields).
Proof.
  destruct HL as (_ & _ & _ & _ & _ & _ & _ & _ & FI & H). constructor; [|exact FI]. unfold inside. cbn. unfold valid_type. lia.
Qed.
Lemma all_apart : ForallOrdPairs apart (padding_field :: fields).
Proof. destruct HL as (_ & _ & _ & _ & _ & _ & _ & FA & _). exact FA. Qed.
Lemma S_strict : StronglySorted lt_off S.
Proof.
  apply (sorted_strict step); [apply sort_sorted| |].
  - eapply pairs_perm; [apply apart_sym|apply Permutation_sym, all_perm|apply all_apart].
  - eapply Permutation_Forall; [apply Permutation_sym, all_perm|apply all_inside].
Qed.
Lemma S_laid_out : laid_out 0 S step.
Proof.
  apply sorted_laid_out; [apply sort_sorted| | | |].
  - eapply pairs_perm; [apply apart_sym|apply Permutation_sym, all_perm|apply all_apart].
  - eapply Permutation_Forall; [apply Permutation_sym, all_perm|apply all_inside].
  - eapply Permutation_Forall; [apply Permutation_sym, all_perm|]. eapply Forall_impl; [|apply all_inside]. unfold inside. intros f Hf. tauto.
  - destruct HL as (_ & _ & _ & _ & _ & _ & _ & _ & _ & H). lia.
Qed.

Variable cx cy cz ci cr : Z.
Let fx := Field "x" 0 7 cx.
Let fy := Field "y" 4 7 cy.
Let fz := Field "z" 8 7 cz.
Let fi := Field "intensity" oi 7 ci.
Let fr := Field "ring" or 4 cr.
Hypothesis Ix : In fx fields.
Hypothesis Iy : In fy fields.
Hypothesis Iz : In fz fields.
Hypothesis Ii : In fi fields.
Hypothesis Ir : In fr fields.

Lemma names_nodup : NoDup (map fname (padding_field :: fields)).
Proof. destruct HL as (_ & _ & _ & _ & _ & _ & ND & _). exact ND. Qed.
Lemma apart_in f g : In f (padding_field :: fields) -> In g (padding_field :: fields) -> f <> g -> apart f g.
Proof. intros. eapply pairs_in; eauto using apart_sym, all_apart. Qed.
Lemma inside_in f : In f (padding_field :: fields) -> inside step f.
Proof. intros H. pose proof all_inside as A. rewrite Forall_forall in A. auto. Qed.
Lemma oi16 : 16 <= oi.
Proof.
  destruct (inside_in fi ltac:(right; auto)) as [H0 _]. cbn [offset] in H0.
  assert (A : forall g, In g (padding_field :: fields) -> fname g <> "intensity"%string -> apart fi g).
  { intros g Hg N. apply apart_in; auto; [right; auto|]. intros <-. apply N. reflexivity. }
  pose proof (A fx ltac:(right; auto) ltac:(discriminate)) as A1. pose proof (A fy ltac:(right; auto) ltac:(discriminate)) as A2.
  pose proof (A fz ltac:(right; auto) ltac:(discriminate)) as A3. pose proof (A padding_field ltac:(left; auto) ltac:(discriminate)) as A4.
  unfold apart in *. cbn in *. lia.
Qed.

Lemma chosen : filter (fun f => existsb (String.eqb (fname f)) (map fname make_fields)) S = [fx; fy; fz; padding_field; fi; fr].
Proof.
  pose proof oi16 as O. assert (OR : oi < or) by (destruct HL as (_ & _ & _ & _ & _ & H & _); auto).
  apply strict_unique.
  - apply filter_sorted, S_strict.
  - repeat (constructor; [|repeat constructor; unfold lt_off; cbn; lia]). constructor.
  - rewrite (filter_perm _ _ _ all_perm). pose proof names_nodup as ND.
    apply NoDup_Permutation.
    + apply NoDup_filter. apply (NoDup_map_inv fname). auto.
    + apply (NoDup_map_inv fname). cbn. repeat (constructor; [cbn; intuition discriminate|]). constructor.
    + intros f. rewrite filter_In. split.
      * intros [If E]. apply existsb_exists in E. destruct E as [n [In_n En]]. apply String.eqb_eq in En. cbn in In_n.
        assert (U : forall g, In g (padding_field :: fields) -> fname g = fname f -> g = f) by (intros g Hg Eg; eapply nodup_name; eauto).
        destruct In_n as [E|[E|[E|[E|[E|[E|[]]]]]]]; subst n.
        -- left. apply U; [right; auto|auto].
        -- right; left. apply U; [right; auto|auto].
        -- right; right; left. apply U; [right; auto|auto].
        -- right; right; right; left. apply U; [left; auto|auto].
        -- right; right; right; right; left. apply U; [right; auto|auto].
        -- right; right; right; right; right; left. apply U; [right; auto|auto].
      * intros [<-|[<-|[<-|[<-|[<-|[<-|[]]]]]]]; (split; [|reflexivity]); try (right; assumption). left. reflexivity.
Qed.

Lemma first_three : exists rest, S = fx :: fy :: fz :: rest.
Proof.
  rewrite (sorted_cut 12 S S_strict). replace (filter (fun f => offset f <? 12) S) with [fx; fy; fz]; [eexists; reflexivity|].
  symmetry. apply strict_unique.
  - apply filter_sorted, S_strict.
  - repeat (constructor; [|repeat constructor; unfold lt_off; cbn; lia]). constructor.
  - rewrite (filter_perm _ _ _ all_perm). apply NoDup_Permutation.
    + apply NoDup_filter. apply (NoDup_map_inv fname). apply names_nodup.
    + apply (NoDup_map_inv fname). cbn. repeat (constructor; [cbn; intuition discriminate|]). constructor.
    + intros f. rewrite filter_In, Z.ltb_lt. split.
      * intros [If Of]. destruct (inside_in f If) as [F0 [_ V]]. pose proof (type_size_pos _ V) as TS.
        assert (D : forall g : field, {f = g} + {f <> g}) by (decide equality; try apply Z.eq_dec; apply string_dec).
        destruct (D fx) as [E|N1]; [left; auto|]. destruct (D fy) as [E|N2]; [right; left; auto|]. destruct (D fz) as [E|N3]; [right; right; left; auto|].
        pose proof (apart_in f fx If ltac:(right; auto) N1) as A1. pose proof (apart_in f fy If ltac:(right; auto) N2) as A2.
        pose proof (apart_in f fz If ltac:(right; auto) N3) as A3. unfold apart in *. cbn in *. exfalso. lia.
      * intros [<-|[<-|[<-|[]]]]; (split; [right; auto|cbn; lia]).
Qed.

Definition good (p : list Z) : Prop := Z.of_nat (length p) = step /\ Forall is_byte p.

Lemma nonzero_spec p : good p ->
  exists b, nonzero (map (reading big p) S) = Ok b /\ (b = true <-> ~ at_origin big p).
Proof.
  intros [L B]. destruct first_three as [rest E]. rewrite E. cbn [map].
  assert (SX : forall off, 0 <= off -> off + 4 <= 12 -> length (little big (slice p off 4)) = 4%nat /\ Forall is_byte (little big (slice p off 4))).
  { intros off H1 H2. destruct HL as (_ & _ & _ & _ & _ & _ & _ & _ & _ & H16). destruct (slice_ok p off 4) as [A1 A2]; try lia; auto.
    rewrite little_length. split; auto. apply little_bytes; auto. }
  destruct (SX 0) as [X1 X2]; try lia. destruct (SX 4) as [Y1 Y2]; try lia. destruct (SX 8) as [Z1 Z2]; try lia.
  pose proof (zero_spec _ X1 X2) as ZX. pose proof (zero_spec _ Y1 Y2) as ZY. pose proof (zero_spec _ Z1 Z2) as ZZ.
  change (reading big p fx) with (VF32 (from_bytes (little big (slice p 0 4)))).
  change (reading big p fy) with (VF32 (from_bytes (little big (slice p 4 4)))).
  change (reading big p fz) with (VF32 (from_bytes (little big (slice p 8 4)))).
  unfold nonzero, at_origin, vat. cbn [Z.ltb Z.compare Z.to_nat nth_error bind]. change (Pos.to_nat 1) with 1%nat. change (Pos.to_nat 2) with 2%nat. cbn [nth_error bind].
  destruct (is_zero (VF32 (from_bytes (little big (slice p 0 4))))).
  2: { exists true. split; auto. split; auto. intros _ [A _]. apply ZX in A. discriminate. }
  destruct (is_zero (VF32 (from_bytes (little big (slice p 4 4))))).
  2: { exists true. split; auto. split; auto. intros _ [_ [A _]]. apply ZY in A. discriminate. }
  eexists. split; [reflexivity|]. destruct (is_zero (VF32 (from_bytes (little big (slice p 8 4))))); cbn [negb].
  - split; [discriminate|]. intros N. exfalso. apply N. split; [apply ZX; auto|]. split; [apply ZY; auto|apply ZZ; auto].
  - split; auto. intros _ [_ [_ A]]. apply ZZ in A. discriminate.
Qed.

Lemma filter_spec pts : Forall good pts -> exists ks, kept (fun p => ~ at_origin big p) pts ks /\
  filter_nonzero (map (fun p => map (reading big p) S) pts) = Ok (map (fun p => map (reading big p) S) ks) /\ Forall good ks.
Proof.
  unfold filter_nonzero. induction 1 as [|p pts Hp HF IH]; [exists []; repeat constructor|].
  destruct IH as [ks [K1 [K2 K3]]]. destruct (nonzero_spec p Hp) as [b [N1 N2]]. cbn [map mapM]. rewrite N1. cbn [bind].
  destruct (mapM nonzero (map (fun p => map (reading big p) S) pts)) as [flags| | | | |]; try discriminate K2. cbn [bind] in *.
  assert (K2' : map snd (filter (fun fl : bool * list value => fst fl) (combine flags (map (fun p => map (reading big p) S) pts))) = map (fun p => map (reading big p) S) ks).
  { injection K2. auto. }
  cbn [combine filter fst]. destruct b.
  - exists (p :: ks). split; [constructor; auto; apply N2; auto|]. split; [cbn [map snd]; rewrite K2'; reflexivity|constructor; auto].
  - exists ks. split; [|split; auto; rewrite K2'; reflexivity]. apply kept_no; auto. intros A. apply N2 in A. discriminate.
Qed.

Lemma pack_one p : good p -> pack to_f32 to_f64 false (layout_fmt 0 make_fields 32) (map (reading big p) [fx; fy; fz; padding_field; fi; fr]) = Ok (converted big oi or p).
Proof.
  intros [L B]. pose proof oi16 as O. assert (OR : oi < or) by (destruct HL as (_ & _ & _ & _ & _ & H & _); auto).
  destruct (inside_in fi ltac:(right; auto)) as [_ [I1 _]]. destruct (inside_in fr ltac:(right; auto)) as [_ [I2 _]]. cbn in I1, I2.
  assert (T : forall off n, 0 <= off -> 0 <= n -> off + n <= step -> to_bytes (Z.to_nat n) (from_bytes (little big (slice p off n))) = little big (slice p off n)).
  { intros off n H1 H2 H3. destruct (slice_ok p off n) as [A1 A2]; try lia; auto. rewrite <- A1, <- (little_length big). apply to_from. apply little_bytes; auto. }
  assert (R : 0 <= from_bytes (little big (slice p or 2)) < 65536).
  { destruct (slice_ok p or 2) as [A1 A2]; try lia; auto. pose proof (from_bytes_range _ (little_bytes big _ A2)) as H. rewrite little_length, A1 in H. exact H. }
  unfold converted. rewrite <- (T 0 4), <- (T 4 4), <- (T 8 4), <- (T 12 4), <- (T oi 4), <- (T or 2) by lia.
  cbn [map]. change (reading big p fx) with (VF32 (from_bytes (little big (slice p 0 4)))).
  change (reading big p fy) with (VF32 (from_bytes (little big (slice p 4 4)))).
  change (reading big p fz) with (VF32 (from_bytes (little big (slice p 8 4)))).
  change (reading big p padding_field) with (VF32 (from_bytes (little big (slice p 12 4)))).
  change (reading big p fi) with (VF32 (from_bytes (little big (slice p oi 4)))).
  change (reading big p fr) with (VInt (from_bytes (little big (slice p or 2)))).
  set (x := from_bytes (little big (slice p 0 4))). set (y := from_bytes (little big (slice p 4 4))). set (z := from_bytes (little big (slice p 8 4))).
  set (w := from_bytes (little big (slice p 12 4))). set (i := from_bytes (little big (slice p oi 4))). set (r := from_bytes (little big (slice p or 2))) in *.
  clearbody x y z w i r.
  change (layout_fmt 0 make_fields 32) with ([Val F32; Val F32; Val F32; Val F32; Val F32; Val U16] ++ repeat Pad 10).
  cbn [app ConvertModel.pack ConvertModel.encode].
  change (data_size U16) with 2. change (2 ^ (8 * 2)) with 65536.
  replace ((0 <=? r) && (r <? 65536)) with true by (symmetry; apply andb_true_intro; split; [apply Z.leb_le|apply Z.ltb_lt]; lia).
  cbn [bind ordered]. rewrite pack_pads. cbn [bind data_size]. reflexivity.
Qed.
End Layout.

Theorem callback_spec fields step oi or big header height width row dense pts : gap_layout fields step oi or ->
  Forall (fun p => Z.of_nat (length p) = step /\ Forall is_byte p) pts ->
  exists ks, kept (fun p => ~ at_origin big p) pts ks /\
    callback to_f32 to_f64 (Cloud2 header height width fields big step row (concat pts) dense) =
    Ok (Cloud2 header 1 (Z.of_nat (length ks)) make_fields false 32 (32 * Z.of_nat (length ks)) (concat (map (converted big oi or) ks)) true).
Proof.
  intros HL HP. pose proof HL as HL'. destruct HL' as ([cx Ix] & [cy Iy] & [cz Iz] & [ci Ii] & [cr Ir] & _ & _ & _ & _ & H16).
  destruct (filter_spec fields step oi or HL big cx cy cz Ix Iy Iz pts HP) as [ks [K1 [K2 K3]]].
  exists ks. split; auto. unfold callback. cbn [cfields data point_step bigendian].
  set (S := sort_fields (fields ++ [padding_field])) in *.
  assert (NE : S <> []) by (destruct (first_three fields step oi or HL cx cy cz Ix Iy Iz) as [rest E]; unfold S; rewrite E; discriminate).
  rewrite (unpack_points big S step pts); [|apply (S_laid_out fields step oi or HL)|auto|lia|].
  2: { eapply Forall_impl; [|exact HP]. cbn. tauto. }
  cbn [bind]. rewrite K2. cbn [bind]. unfold filter_point_data.
  assert (EF : mapM (fun chunk => mapM (vat chunk) (find_indices S (map fname make_fields))) (map (fun p => map (reading big p) S) ks) =
     Ok (map (fun p => map (reading big p) [Field "x" 0 7 cx; Field "y" 4 7 cy; Field "z" 8 7 cz; padding_field; Field "intensity" oi 7 ci; Field "ring" or 4 cr]) ks)).
  { clear - HL Ix Iy Iz Ii Ir S. induction ks as [|k ks IH]; [reflexivity|]. cbn [map mapM]. rewrite indices_ok. cbn [bind]. rewrite IH. cbn [bind].
    unfold S. rewrite (chosen fields step oi or HL cx cy cz ci cr Ix Iy Iz Ii Ir). reflexivity. }
  rewrite EF. cbn [bind]. unfold pack_point_data, create_points_format, output_point_step.
  rewrite create_layout by (cbn; unfold valid_type; lia). cbn [bind]. unfold zlen. rewrite Nat2Z.id.
  rewrite (pack_repeat to_f32 to_f64 false _ _ (map (converted big oi or) ks)).
  - cbn [bind]. rewrite map_length. reflexivity.
  - clear - HL Ix Iy Iz Ii Ir K3. induction K3 as [|k ks Hk HF IH]; cbn [map]; constructor; auto.
    apply (pack_one fields step oi or HL big cx cy cz ci cr); auto.
Qed.
End Callback.
