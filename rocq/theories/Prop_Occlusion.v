(** C11, C12: occlusion labelling; also the exact effect of the out-of-range and
    parallel-beam labelling. *)
From Coq Require Import List ZArith Bool Lia.
From Verif Require Import Base Arith ExtractModel Spec FillProofs LabelProofs OcclusionProofs Prop_Labels.
Import ListNotations.
Open Scope Z_scope.

(** ** C11 *)
Theorem C11_occlusion_exact A c rng p thr ls ls' :
  0 <= p -> p + 1 <= zlen ls -> zlen ls + p + 2 < 2 ^ 31 ->
  label_occluded A c rng p thr ls = Ok ls' ->
  zlen ls' = zlen ls /\
  (forall k, shadowed A c rng p thr (zlen ls) k -> get ls' k = Some Occluded) /\
  (forall k, ~ shadowed A c rng p thr (zlen ls) k -> get ls' k = get ls k).
Proof. exact (fun Hp => label_occluded_spec A c rng p thr Hp ls ls'). Qed.
Print Assumptions C11_occlusion_exact.

(** No exception and no access outside: the call succeeds. *)
Theorem C11_occlusion_defined A c rng p thr ls :
  0 <= p -> p + 1 <= zlen ls -> zlen ls + p + 2 < 2 ^ 31 ->
  nb_size c = zlen ls -> nb_total c (zlen ls) ->
  (forall i, 0 <= i < zlen ls -> exists r, rng i = Ok r) ->
  exists ls', label_occluded A c rng p thr ls = Ok ls' /\ zlen ls' = zlen ls.
Proof. exact (fun Hp => label_occluded_total A c rng p thr Hp ls). Qed.
Print Assumptions C11_occlusion_defined.

(** Out-of-range and parallel-beam labelling, same style: exactly the points whose range
    is outside, resp. whose range differs from both neighbours by more than the ratio. *)
Theorem C11_out_of_range_exact A rng size mn mx ls ls' :
  label_out_of_range A rng size mn mx ls = Ok ls' ->
  zlen ls' = zlen ls /\
  (forall k, 0 <= k < size -> bad_range A rng mn mx k -> get ls' k = Some OutOfRange) /\
  (forall k, ~ (0 <= k < size /\ bad_range A rng mn mx k) -> get ls' k = get ls k).
Proof. exact (label_oor_spec A rng mn mx size ls ls'). Qed.
Print Assumptions C11_out_of_range_exact.

Theorem C11_parallel_beam_exact A thr m ls ls' :
  1 <= zlen ls < 2 ^ 63 ->
  label_parallel_beam A m thr ls = Ok ls' ->
  exists ranges, range_interval A m 0 (zlen ls) = Ok ranges /\
  zlen ls' = zlen ls /\
  (forall k, 1 <= k < zlen ls - 1 -> pb_at A thr ranges k -> get ls' k = Some ParallelBeam) /\
  (forall k, ~ (1 <= k < zlen ls - 1 /\ pb_at A thr ranges k) -> get ls' k = get ls k).
Proof. exact (label_pb_spec A thr m ls ls'). Qed.
Print Assumptions C11_parallel_beam_exact.

(** ** Example: a ring of 8 points at ranges 1 1 1 5 5 5 2 2, padding 1. *)
Definition ex_ranges (i : Z) : outcome b64 := vat (map of_Z64 [1; 1; 1; 5; 5; 5; 2; 2]) i.
Definition ex_nb8 := nb_debug [1; 1; 1; 1; 1; 1; 1; 1].
Example ex_C11 :
  label_occluded ex_arith ex_nb8 ex_ranges 1 (of_Z64 1) (repeat Default 8) =
  Ok [Default; Default; Default; Occluded; Occluded; Occluded; Default; Default].
Proof. vm_compute. reflexivity. Qed.
Example ex_C11_shadow : shadowed ex_arith ex_nb8 ex_ranges 1 (of_Z64 1) 8 4.
Proof.
  left. exists 2. split; [lia|]. split; [lia|]. split; [reflexivity|]. split.
  - exists (of_Z64 1), (of_Z64 5). repeat split; vm_compute; reflexivity.
  - split; [lia|]. intros k Hk. assert (k = 3) as -> by lia. reflexivity.
Qed.

(** ** C12 is refuted: on every non-trivial short ring the call fails. *)
Theorem C12_short_ring_fails A c rng p thr ls ls' :
  0 <= p -> zlen ls <= p -> p < 2 ^ 31 -> zlen ls < 2 ^ 31 - 1 ->
  (forall i j, ~ (0 <= i < zlen ls) \/ ~ (0 <= j < zlen ls) -> forall b, nb c i j <> Ok b) ->
  label_occluded A c rng p thr ls <> Ok ls'.
Proof. exact (fun Hp => label_occluded_short A c rng p thr ls ls'). Qed.
Print Assumptions C12_short_ring_fails.

(** Concrete witness with the real neighbour check: three points, padding 5. *)
Definition ex_three : mapped ex_arith :=
  {| m_cloud := map (fun xy => {| px := of_Z32 (fst xy) : F ex_arith; py := of_Z32 (snd xy);
                       pz := of_Z32 0; pintensity := of_Z32 0; pring := 0 |})
                    [(4, 1); (4, 2); (4, 3)];
     m_indices := [0; 1; 2] |}.
Theorem C12_short_ring_safe_refuted :
  exists (m : mapped ex_arith) (p : Z) (ls : list label),
    m_size _ m = zlen ls /\ 0 < p /\ 2 <= zlen ls < p + 1 /\
    label_occluded ex_arith (nb_xy ex_arith m (of_Z64 1)) (range_at ex_arith m) p (of_Z64 1) ls
      = ThrowRange.
Proof.
  exists ex_three, 5, [Default; Default; Default].
  split; [reflexivity|]. split; [lia|]. split; [vm_compute; split; [discriminate|reflexivity]|].
  vm_compute. reflexivity.
Qed.
Print Assumptions C12_short_ring_safe_refuted.
