(** Model of /repo/kalman_filter (paths below are relative to it) and of the Mahalanobis
    gate of /repo/ekf_localizer.

    Vectors and matrices are given by their entries; the sizes are arguments of the
    functions where the code uses them.  Entries outside the sizes have no meaning.
    Products sum from the first index to the last; Eigen may associate the sum
    differently. *)
From Coq Require Import List ZArith Bool PeanoNat.
From Verif Require Import Base Arith EkfModel.
Import ListNotations.

Local Open Scope nat_scope.

Section Kalman.
Variable A : arith.
Notation T := (D A).
(** Eigen::VectorXd (include/kalman_filter/kalman_filter.hpp:28). *)
Definition vector := nat -> T.
(** Eigen::MatrixXd (include/kalman_filter/kalman_filter.hpp:28). *)
Notation mat := (EkfModel.matrix A).
(** Inverse of an n x n matrix, Eigen's MatrixXd::inverse(): None if the result contains
    NaN or infinity (include/kalman_filter/kalman_filter.hpp:49).  A parameter. *)
Variable inverse : nat -> mat -> option mat.
(** Content of memory that Eigen leaves uninitialised (src/time_delay_kalman_filter.cpp:23,
    48, 87). *)
Variable junk : nat -> nat -> T.

(** ** Eigen's operations as used in include/kalman_filter/kalman_filter.hpp:34-62 *)
(** Sum of f 0, ..., f (n-1) (the inner product of kalman_filter.hpp:34). *)
Fixpoint sum (n : nat) (f : nat -> T) : T := match n with O => d_of_Z A 0 | S k => d_add A (sum k f) (f k) end.
(** Product of matrices with inner size k (kalman_filter.hpp:42). *)
Definition mmul (k : nat) (X Y : mat) : mat := fun i j => sum k (fun l => d_mul A (X i l) (Y l j)).
(** Product of matrix and vector (kalman_filter.hpp:34). *)
Definition mvec (k : nat) (X : mat) (v : vector) : vector := fun i => sum k (fun l => d_mul A (X i l) (v l)).
(** Sum and difference (kalman_filter.hpp:34, 42, 56, 62). *)
Definition madd (X Y : mat) : mat := fun i j => d_add A (X i j) (Y i j).
(** kalman_filter.hpp:62. *)
Definition msub (X Y : mat) : mat := fun i j => d_sub A (X i j) (Y i j).
(** kalman_filter.hpp:34, 56. *)
Definition vadd (x y : vector) : vector := fun i => d_add A (x i) (y i).
(** kalman_filter.hpp:56. *)
Definition vsub (x y : vector) : vector := fun i => d_sub A (x i) (y i).
(** transpose() (kalman_filter.hpp:42). *)
Definition mtr (X : mat) : mat := fun i j => X j i.
(** Zero(...) (src/time_delay_kalman_filter.cpp:35, 101). *)
Definition mzero : mat := fun _ _ => d_of_Z A 0.
(** x(seqN(start, len)) = v (src/time_delay_kalman_filter.cpp:25, 49, 50). *)
Definition set_seq (start len : nat) (v : vector) (x : vector) : vector :=
  fun i => if (start <=? i) && (i <? start + len) then v (i - start) else x i.
(** M.block(r, c, h, w) = B (src/time_delay_kalman_filter.cpp:37, 88-91, 102). *)
Definition set_block (r c h w : nat) (B M : mat) : mat :=
  fun i j => if (r <=? i) && (i <? r + h) && ((c <=? j) && (j <? c + w)) then B (i - r) (j - c) else M i j.

(** ** include/kalman_filter/kalman_filter.hpp *)
(** kalman_filter.hpp:28-35 predictNextState; n states, m inputs. *)
Definition predict_state (n m : nat) (x u : vector) (F B : mat) : vector := vadd (mvec n F x) (mvec m B u).
(** kalman_filter.hpp:37-43 predictNextCovariance. *)
Definition predict_covariance (n : nat) (P F Q : mat) : mat := madd (mmul n (mmul n F P) (mtr F)) Q.
(** kalman_filter.hpp:45-50 calcKalmanGain with n states and h measured values.  If the
    inverse contains NaN or infinity, so does its product with any matrix: None. *)
Definition gain (n h : nat) (P C R : mat) : option mat :=
  let PCT := mmul n P (mtr C) in
  match inverse h (madd R (mmul n C PCT)) with
  | Some V => Some (mmul h PCT V)
  | None => None
  end.
(** kalman_filter.hpp:52-57 updateState. *)
Definition update_state (n h : nat) (x y : vector) (C K : mat) : vector := vadd x (mvec h K (vsub y (mvec n C x))).
(** kalman_filter.hpp:59-63 updateCovariance. *)
Definition update_covariance (n h : nat) (P C K : mat) : mat := msub P (mmul n (mmul h K C) P).
(** HasNan(K) || HasInf(K) for an n x h matrix
    (/repo/lib/include/lidar_feature_library/numeric.hpp:22-30,
    src/kalman_filter.cpp:69, src/time_delay_kalman_filter.cpp:130). *)
Definition finite_matrix (n h : nat) (K : mat) : bool :=
  forallb (fun i => forallb (fun j => match d_trunc A (K i j) with Some _ => true | None => false end) (seq 0 h)) (seq 0 n).

(** ** src/kalman_filter.cpp *)
(** kalman_filter.hpp:134-140: the members of class KalmanFilter that change; the constant
    ones are arguments of the methods. *)
Record kf := Kf { kf_x : vector; kf_P : mat }.
(** src/kalman_filter.cpp:39-45 init. *)
Definition kf_init (x : vector) (P0 : mat) : kf := Kf x P0.
(** src/kalman_filter.cpp:47 getXelement, i < n; other indices are undefined. *)
Definition kf_element (n : nat) (f : kf) (i : Z) : outcome T :=
  if (0 <=? i)%Z && (i <? Z.of_nat n)%Z then Ok (kf_x f (Z.to_nat i)) else UB.
(** src/kalman_filter.cpp:49-61 predict(u, A, B, Q); the assertions on the sizes hold by
    construction here. *)
Definition kf_predict_with (n m : nat) (f : kf) (u : vector) (F B Q : mat) : kf :=
  Kf (predict_state n m (kf_x f) u F B) (predict_covariance n (kf_P f) F Q).
(** src/kalman_filter.cpp:65-75 update: the exception or (), and the members afterwards. *)
Definition kf_update_with (n h : nat) (f : kf) (y : vector) (C R : mat) : outcome unit * kf :=
  match gain n h (kf_P f) C R with
  | None => (ThrowInvalid, f)
  | Some K =>
      if finite_matrix n h K then
        (Ok tt, Kf (update_state n h (kf_x f) y C K) (update_covariance n h (kf_P f) C K))
      else (ThrowInvalid, f)
  end.

(** ** src/time_delay_kalman_filter.cpp *)
(** src/time_delay_kalman_filter.cpp:19-28 initX, n copies of d entries. *)
Definition init_x (d : nat) (x0 : vector) (n : nat) : vector :=
  fold_left (fun x i => set_seq (i * d) d x0 x) (seq 0 n) (junk 0).
(** src/time_delay_kalman_filter.cpp:30-40 initP. *)
Definition init_p (d : nat) (P0 : mat) (n : nat) : mat :=
  fold_left (fun P i => set_block (i * d) (i * d) d d P0 P) (seq 0 n) mzero.
(** src/time_delay_kalman_filter.cpp:42-52 updateX: a entries, x_next of b entries. *)
Definition update_x (a b : nat) (x x_next : vector) : vector :=
  let c := a - b in
  set_seq b c x (set_seq 0 b x_next (junk 0)).
(** src/time_delay_kalman_filter.cpp:54-93 updateP; P of size a, A of size b. *)
Definition update_p (a b : nat) (P F Q : mat) : mat :=
  let c := a - b in
  set_block b b c c P
    (set_block b 0 c b (mmul b P (mtr F))
      (set_block 0 b b c (mmul b F P)
        (set_block 0 0 b b (madd (mmul b (mmul b F P) (mtr F)) Q) junk))).
(** src/time_delay_kalman_filter.cpp:95-104 makeMeasurementMatrix; C is h x w. *)
Definition make_measurement_matrix (h w : nat) (C : mat) (max_delay delay : nat) : mat :=
  set_block 0 (w * delay) h w C mzero.
(** time_delay_kalman_filter.hpp:90-93: the members. *)
Record tdkf := Td { td_x : vector; td_P : mat; td_max : Z; td_dim : nat }.
(** The size of x_ and P_ (src/time_delay_kalman_filter.cpp:142). *)
Definition td_size (f : tdkf) : nat := Z.to_nat (td_max f) * td_dim f.
(** src/time_delay_kalman_filter.cpp:140-146, the constructor, for a state of d > 0
    entries.  A buffer without blocks is undefined at its first use (148-156), here at
    once. *)
Definition td_new (d : nat) (x : vector) (P : mat) (max_delay : Z) : outcome tdkf :=
  if (0 <? max_delay)%Z then Ok (Td (init_x d x (Z.to_nat max_delay)) (init_p d P (Z.to_nat max_delay)) max_delay d) else UB.
(** src/time_delay_kalman_filter.cpp:148-151 getLatestX. *)
Definition td_latest_x (f : tdkf) : vector := td_x f.
(** src/time_delay_kalman_filter.cpp:153-156 getLatestP: the upper left block. *)
Definition td_latest_p (f : tdkf) : mat := td_P f.
(** src/time_delay_kalman_filter.cpp:106-113, 158-164 PredictWithDelay and predict. *)
Definition td_predict (f : tdkf) (x_next : vector) (F Q : mat) : tdkf :=
  Td (update_x (td_size f) (td_dim f) (td_x f) x_next) (update_p (td_size f) (td_dim f) (td_P f) F Q) (td_max f) (td_dim f).
(** src/time_delay_kalman_filter.cpp:166-169 getX; outside the buffer undefined. *)
Definition td_get_x (f : tdkf) (delay : Z) : outcome vector :=
  if (0 <=? delay)%Z && (delay <? td_max f)%Z then Ok (fun i => td_x f (Z.to_nat delay * td_dim f + i)) else UB.
(** src/time_delay_kalman_filter.cpp:115-138, 171-176 UpdateWithDelay and update with h
    measured values: the exception or (), and the members afterwards.  A negative delay
    writes outside the measurement matrix. *)
Definition td_update (h : nat) (f : tdkf) (y : vector) (C R : mat) (delay : Z) : outcome unit * tdkf :=
  if (td_max f <=? delay)%Z then (ThrowInvalid, f) else
  if (delay <? 0)%Z then (UB, f) else
  let M := make_measurement_matrix h (td_dim f) C (Z.to_nat (td_max f)) (Z.to_nat delay) in
  match gain (td_size f) h (td_P f) M R with
  | None => (ThrowInvalid, f)
  | Some K =>
      if finite_matrix (td_size f) h K then
        (Ok tt, Td (update_state (td_size f) h (td_x f) y M K) (update_covariance (td_size f) h (td_P f) M K) (td_max f) (td_dim f))
      else (ThrowInvalid, f)
  end.

(** ** /repo/ekf_localizer/src/mahalanobis.cpp *)
(** mahalanobis.cpp:19-26 SquaredMahalanobis on n entries; None if the inverse contains NaN
    or infinity. *)
Definition squared_mahalanobis (n : nat) (x y : vector) (C : mat) : option T :=
  let d := vsub x y in
  match inverse n C with
  | Some V => Some (sum n (fun i => d_mul A (d i) (mvec n V d i)))
  | None => None
  end.
(** mahalanobis.cpp:28-33 MahalanobisGate.  Comparison with NaN or +infinity is false; a
    result of -infinity, possible in floating point only, is not modelled. *)
Definition mahalanobis_gate (n : nat) (dist_max : T) (x obj_x : vector) (cov : mat) : bool :=
  match squared_mahalanobis n x obj_x cov with
  | Some s => d_leb A s (d_mul A dist_max dist_max)
  | None => false
  end.

(** ** The filter of the EKF localizer *)
(** Vector6d of a state and back (/repo/ekf_localizer/include/ekf_localizer/state_index.hpp:18-26). *)
Definition to_vector (s : state A) : vector :=
  fun i => nth i [st_x A s; st_y A s; st_yaw A s; st_bias A s; st_vx A s; st_wz A s] (d_of_Z A 0).
(** state_index.hpp:18-26. *)
Definition of_vector (v : vector) : state A := State A (v 0) (v 1) (v 2) (v 3) (v 4) (v 5).
(** A small vector or matrix given by a list
    (/repo/ekf_localizer/src/pose_measurement.cpp:38-62). *)
Definition list_vector (l : list T) : vector := fun i => nth i l (d_of_Z A 0).
(** pose_measurement.cpp:38-56. *)
Definition list_matrix (l : list (list T)) : mat := fun i j => nth j (nth i l []) (d_of_Z A 0).
(** TimeDelayKalmanFilter with 6 states as used by
    /repo/ekf_localizer/src/ekf_localizer.cpp:199-209, 231, 255 and check.cpp:102-114. *)
Definition ekf_kalman : kalman A :=
  Kalman A tdkf
    (fun x P n => td_new 6 (to_vector x) P n)
    (fun f => of_vector (td_latest_x f))
    td_latest_p
    (fun f d => v <- td_get_x f d ;; Ok (of_vector v))
    (fun f x M Q => Ok (td_predict f (to_vector x) M Q))
    (fun f y C R d => match td_update (length y) f (list_vector y) (list_matrix C) (list_matrix R) d with
                      | (Ok _, f') => Ok f'
                      | (ThrowInvalid, _) => ThrowInvalid
                      | (ThrowRange, _) => ThrowRange
                      | (ThrowOther, _) => ThrowOther
                      | (AssertFail, _) => AssertFail
                      | (UB, _) => UB
                      end)
    (fun dist x1 x2 cov => mahalanobis_gate (length x1) dist (list_vector x1) (list_vector x2) (list_matrix cov)).
End Kalman.
