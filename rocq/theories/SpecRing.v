(** Vocabulary for the completeness property of the labelling of one ring. *)
From Coq Require Import List ZArith.
From Verif Require Import Base Arith ExtractModel Spec.
Open Scope Z_scope.

(** Position [i] of the ring is excluded by the validity checks: it lies in the shadow of
    a range jump, its range is outside the limits, or its beam is parallel to the surface
    (x/occlusion.hpp, out_of_range.hpp, parallel_beam.hpp). *)
Definition masked (A : arith) (P : params A) (m : mapped A) (i : Z) : Prop :=
  shadowed A (nb_xy A m (p_rad A P)) (range_at A m) (p_padding A P) (p_distance A P) (m_size A m) i \/
  bad_range A (range_at A m) (p_min A P) (p_max A P) i \/
  (1 <= i < m_size A m - 1 /\
   exists ranges, range_interval A m 0 (m_size A m) = Ok ranges /\ pb_at A (p_ratio A P) ranges i).
