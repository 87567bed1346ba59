(** Model of the localization node: the store of prior poses
    (localization/include/lidar_feature_localization/stamp_sorted_objects.hpp), the node
    (subscriber.hpp), the optimisation loop (optimizer.hpp, src/optimizer.cpp,
    optimization_result.hpp) and the localizer (localizer.hpp). *)
From Coq Require Import List ZArith Bool.
From Verif Require Import Base Arith LibModel.
Import ListNotations.

(** * Store of stamped objects *)

Section Store.
Variable A : arith.
Variable O : Type.

(** stamp_sorted_objects.hpp:109 std::map<double, Object>, as the list of its elements in
    iteration order. The searches below are linear scans instead of tree descents (equal
    for keys ordered by operator<, i.e. without NaN). The mutex is not modelled: every
    method is atomic. *)
Definition store := list (D A * O).

(** stamp_sorted_objects.hpp:45-50 Insert, i.e. std::map::operator[] followed by
    assignment: an equivalent key keeps its place and gets the new value. *)
Fixpoint st_insert (t : D A) (o : O) (m : store) : store :=
  match m with
  | [] => [(t, o)]
  | (k, v) :: r =>
      if d_ltb A k t then (k, v) :: st_insert t o r
      else if d_ltb A t k then (t, o) :: m
      else (k, o) :: r
  end.

(** std::map::lower_bound, stamp_sorted_objects.hpp:57: the elements before the first one
    with key >= t, and the rest. *)
Fixpoint st_lower_bound (t : D A) (m : store) : store * store :=
  match m with
  | [] => ([], [])
  | (k, v) :: r =>
      if d_ltb A k t then let '(a, b) := st_lower_bound t r in ((k, v) :: a, b)
      else ([], m)
  end.

(** std::map::upper_bound, stamp_sorted_objects.hpp:91: the elements before the first one
    with key > t, and the rest. *)
Fixpoint st_upper_bound (t : D A) (m : store) : store * store :=
  match m with
  | [] => ([], [])
  | (k, v) :: r =>
      if d_ltb A t k then ([], m)
      else let '(a, b) := st_upper_bound t r in ((k, v) :: a, b)
  end.

(** *std::prev(it) (stamp_sorted_objects.hpp:60, 69, 97) where [before] are the elements
    before it: undefined at begin(). *)
Definition st_prev (before : store) : outcome (D A * O) :=
  match rev before with [] => UB | p :: _ => Ok p end.

(** stamp_sorted_objects.hpp:52-78 GetClosest. *)
Definition st_get_closest (t : D A) (m : store) : outcome (D A * O) :=
  match st_lower_bound t m with
  | (before, []) => st_prev before
  | ([], p :: _) => Ok p
  | (before, (t1, o1) :: _) =>
      ' p0 <- st_prev before ;;
      let '(t0, o0) := p0 in
      if d_ltb A (d_sub A t t0) (d_sub A t1 t) then Ok (t0, o0) else Ok (t1, o1)
  end.

(** stamp_sorted_objects.hpp:86-105 RemoveOlderThan: with g = upper_bound(t) and
    boundary = prev(g), erase from the last element down to, excluding, boundary. At
    g == begin() the iterator arithmetic is undefined. *)
Definition st_remove_older_than (t : D A) (m : store) : outcome store :=
  match st_upper_bound t m with
  | (_, []) => Ok m
  | ([], _ :: _) => UB
  | (before, _ :: _) => Ok before
  end.

End Store.
Arguments st_insert {A O}.
Arguments st_get_closest {A O}.
Arguments st_remove_older_than {A O}.
Arguments st_lower_bound {A O}.
Arguments st_upper_bound {A O}.
Arguments st_prev {A O}.

(** * The localization node *)

(** A published message pair (subscriber.hpp:167-173): PoseWithCovarianceStamped and
    TransformStamped carry the same pose and stamp; frame ids and the constant
    covariance are not modelled. *)
Record published (P : Type) := { pub_stamp : Z; pub_pose : P; tf_stamp : Z; tf_pose : P }.
Arguments pub_stamp {P}. Arguments pub_pose {P}. Arguments tf_stamp {P}. Arguments tf_pose {P}.

Section Node.
Variable A : arith.
Variable P Scan : Type.
(** localizer_.Init(prior); localizer_.Update(scan); localizer_.Get()
    (subscriber.hpp:154-157): the pose after optimising [scan] from [prior]. *)
Variable localize : Scan -> P -> outcome P.

(** Callbacks in the order in which the single-threaded executor
    (localization/app/localization.cpp:86) runs them: a prior (odometry or pose,
    subscriber.hpp:111-126), or a synchronised edge/surface pair with its common stamp
    (the exact-time synchroniser is modelled in SyncModel.v). Stamps are int64 nanoseconds. *)
Inductive event := EvPrior (stamp : Z) (pose : P) | EvScan (stamp : Z) (scan : Scan).

(** subscriber.hpp:67-70 Nanoseconds. *)
Definition nanoseconds (stamp : Z) : D A := d_of_Z A stamp.

(** subscriber.hpp:189 prior_poses_, and what has been published so far (newest last). *)
Record node := { priors : store A P; outs : list (published P) }.

(** subscriber.hpp:123-126 SetOptimizationStartPose. *)
Definition on_prior (n : node) (stamp : Z) (pose : P) : node :=
  {| priors := st_insert (nanoseconds stamp) pose (priors n); outs := outs n |}.

(** subscriber.hpp:128-176 PoseUpdateCallback. *)
Definition on_scan (n : node) (stamp : Z) (scan : Scan) : outcome node :=
  match priors n with
  | [] => Ok n
  | _ =>
      let t := nanoseconds stamp in
      ' p <- st_get_closest t (priors n) ;;
      rest <- st_remove_older_than (d_add A t (d_of_Z A 1000000000)) (priors n) ;;
      pose <- localize scan (snd p) ;;
      Ok {| priors := rest;
            outs := outs n ++ [{| pub_stamp := stamp; pub_pose := pose;
                                  tf_stamp := stamp; tf_pose := pose |}] |}
  end.

(** One callback: subscriber.hpp:111-126 for a prior, 128-176 for a scan. *)
Definition node_step (n : node) (e : event) : outcome node :=
  match e with
  | EvPrior s p => Ok (on_prior n s p)
  | EvScan s x => on_scan n s x
  end.
(** The node after a history of callbacks, started with no prior (subscriber.hpp:83-109). *)
Definition node_run (h : list event) : outcome node :=
  foldM node_step {| priors := []; outs := [] |} h.

End Node.
Arguments EvPrior {P Scan}. Arguments EvScan {P Scan}.
Arguments priors {A P}. Arguments outs {A P}.

(** * Optimiser *)

(** optimization_result.hpp:49, 56, 63, 70, 77: which of the five messages, in the order
    of the file. *)
Inductive status :=
  EmptyInput | LargerErrorThanPrevious | LargerScaleThanPrevious
| SuccessfullyConverged | ReachedMaximumIteration.

(** optimization_result.hpp:37-45 OptimizationResult. *)
Record opt_result (A : arith) (Pose : Type) := {
  r_pose : Pose; r_message : status; r_iteration : Z;
  r_error : D A; r_error_scale : D A; r_success : bool }.
Arguments r_pose {A Pose}. Arguments r_message {A Pose}. Arguments r_iteration {A Pose}.
Arguments r_error {A Pose}. Arguments r_error_scale {A Pose}. Arguments r_success {A Pose}.

Section Optimizer.
Variable A : arith.
(** Quaternions, 3-vectors, poses, Jacobians and residual vectors, and the operations on
    them; concrete real instances are in PoseModel.v. *)
Variable Quat Vec Pose Jac Res : Type.
(** problem_.Make(x, pose) (optimizer.hpp:92). *)
Variable make : Pose -> outcome (list Jac * list Res).
(** Eigen::Quaterniond q(initial_pose.linear()) and translation() (optimizer.hpp:84-85). *)
Variable of_pose : Pose -> Quat * Vec.
(** MakePose (src/posevec.cpp:46-54). *)
Variable make_pose : Quat -> Vec -> Pose.
(** r.dot(r) (src/optimizer.cpp:105). *)
Variable dot : Res -> D A.
(** CalcUpdate (src/optimizer.cpp:87-98). *)
Variable calc_update : Quat -> list (D A) -> list Jac -> list Res -> outcome (Quat * Vec).
(** Quaternion product and vector sum (optimizer.hpp:115-116). *)
Variable qmul : Quat -> Quat -> Quat.
Variable vadd : Vec -> Vec -> Vec.
(** CheckConvergence (src/optimizer.cpp:35-38). *)
Variable converged : Quat -> Vec -> bool.
(** std::nth_element inside Median; the constant b of Scale; Huber's k = 1.345
    (robust.hpp); the literal 1e-16 (src/optimizer.cpp:115); numeric_limits<double>::max(). *)
Variable sel : selector A.
Variable b_scale k_huber tiny dmax : D A.

(** src/optimizer.cpp:100-108 ComputeErrors. *)
Definition compute_errors (residuals : list Res) : list (D A) := map dot residuals.

(** errors.sum() (optimizer.hpp:100), summed left to right (Eigen may associate
    differently). *)
Definition sum_errors (errors : list (D A)) : D A :=
  fold_left (d_add A) errors (d_of_Z A 0).

(** src/optimizer.cpp:110-118 NormalizeErrorScale. *)
Definition normalize_error_scale (errors : list (D A)) : outcome (list (D A) * D A) :=
  s <- scale A sel b_scale errors ;;
  Ok (map (fun e => d_div A e (d_add A s tiny)) errors, s).

(** src/optimizer.cpp:120-128 ComputeWeights. *)
Definition compute_weights (normalized : list (D A)) : list (D A) :=
  map (fun e => huber_derivative A e k_huber) normalized.

(** optimization_result.hpp:47-51 EmptyInput. *)
Definition empty_input (pose : Pose) (iter : Z) : opt_result A Pose :=
  {| r_pose := pose; r_message := EmptyInput; r_iteration := iter;
     r_error := d_of_Z A 0; r_error_scale := d_of_Z A 0; r_success := false |}.
(** optimization_result.hpp:53-58 LargerErrorThanPrevious. *)
Definition larger_error (pose : Pose) (iter : Z) (error sc : D A) : opt_result A Pose :=
  {| r_pose := pose; r_message := LargerErrorThanPrevious; r_iteration := iter;
     r_error := error; r_error_scale := sc; r_success := true |}.
(** optimization_result.hpp:60-65 LargerScaleThanPrevious. *)
Definition larger_scale (pose : Pose) (iter : Z) (error sc : D A) : opt_result A Pose :=
  {| r_pose := pose; r_message := LargerScaleThanPrevious; r_iteration := iter;
     r_error := error; r_error_scale := sc; r_success := true |}.
(** optimization_result.hpp:67-72 SuccessfullyConverged. *)
Definition successfully_converged (pose : Pose) (iter : Z) (error sc : D A) : opt_result A Pose :=
  {| r_pose := pose; r_message := SuccessfullyConverged; r_iteration := iter;
     r_error := error; r_error_scale := sc; r_success := true |}.
(** optimization_result.hpp:74-79 ReachedMaximumIteration. *)
Definition reached_maximum (pose : Pose) (iter : Z) (error sc : D A) : opt_result A Pose :=
  {| r_pose := pose; r_message := ReachedMaximumIteration; r_iteration := iter;
     r_error := error; r_error_scale := sc; r_success := false |}.

(** optimizer.hpp:90-123, the loop from iteration [iter] with [left] = max_iter - iter
    iterations to go. *)
Fixpoint opt_loop (left : nat) (iter : Z) (q : Quat) (t : Vec) (prev_error prev_scale : D A)
    : outcome (opt_result A Pose) :=
  match left with
  | O => Ok (reached_maximum (make_pose q t) iter prev_error prev_scale)
  | S left' =>
      ' jr <- make (make_pose q t) ;;
      let '(jacobians, residuals) := jr in
      match residuals with
      | [] => Ok (empty_input (make_pose q t) iter)
      | _ =>
          let errors := compute_errors residuals in
          ' ns <- normalize_error_scale errors ;;
          let '(normalized, sc) := ns in
          let error := sum_errors errors in
          if d_ltb A prev_error error then Ok (larger_error (make_pose q t) iter error sc)
          else if d_ltb A prev_scale sc then Ok (larger_scale (make_pose q t) iter error sc)
          else
            let weights := compute_weights normalized in
            ' u <- calc_update q weights jacobians residuals ;;
            let '(dq, dt) := u in
            let q' := qmul q dq in
            let t' := vadd t dt in
            if converged dq dt then Ok (successfully_converged (make_pose q' t') iter error sc)
            else opt_loop left' (iter + 1) q' t' error sc
      end
  end.

(** optimizer.hpp:80-124 Run. A negative max_iter makes no iteration; the reported
    iteration is then max_iter_ itself. *)
Definition opt_run (max_iter : Z) (initial : Pose) : outcome (opt_result A Pose) :=
  let '(q, t) := of_pose initial in
  r <- opt_loop (Z.to_nat max_iter) 0 q t dmax dmax ;;
  Ok (if (max_iter <? 0)%Z
      then reached_maximum (r_pose r) max_iter (r_error r) (r_error_scale r) else r).

(** localizer.hpp:74-80 Localizer::Update: new pose and return value. *)
Definition localizer_update (max_iter : Z) (pose : Pose) : outcome (Pose * bool) :=
  r <- opt_run max_iter pose ;; Ok (r_pose r, r_success r).

End Optimizer.
