(** Vocabulary of C88-C92: what an update cycle of the EKF localizer should do, over the real
    numbers.  Nothing here refers to the model of the code.

    The state has six components: position x and y, heading, heading bias, forward speed,
    turn rate.  The filter keeps [blocks] copies of it, the newest first, in one vector of
    6 * blocks entries. *)
From Coq Require Import Reals List Bool ZArith PeanoNat.
From Coquelicot Require Import Coquelicot.
From Verif Require Import SpecKalman.
Import ListNotations.
Local Open Scope R_scope.

(** An estimate: the vector and its covariance. *)
Definition estimate : Type := (nat -> R) * (nat -> nat -> R).

(** ** Motion *)
(** Constant speed and turn rate during dt, at first order: the position advances by speed
    times dt in the direction of heading plus bias, the heading turns by rate times dt. *)
Definition motion (dt : R) (x : nat -> R) : nat -> R := fun i =>
  match i with
  | 0%nat => x 0%nat + x 4%nat * dt * cos (x 2%nat + x 3%nat)
  | 1%nat => x 1%nat + x 4%nat * dt * sin (x 2%nat + x 3%nat)
  | 2%nat => x 2%nat + x 5%nat * dt
  | _ => x i
  end.
Definition replaced (x : nat -> R) (j : nat) (v : R) : nat -> R := fun i => if Nat.eqb i j then v else x i.
(** Two angles are the same heading. *)
Definition same_heading (a b : R) : Prop := exists k : Z, a = b + 2 * PI * IZR k.
(** Noise of a component with deviation s per second, during dt. *)
Definition spread (s dt : R) : R := (s * dt) * (s * dt).
(** A prediction over dt: the newest copy moves, its heading is normalised, the copies age
    by one; the covariance is propagated by the derivative of the motion and the noise of
    heading, bias, speed and rate is added. *)
Definition predicts (blocks : nat) (dt : R) (noise : list R) (s s' : estimate) : Prop :=
  let x := fst s in let x' := fst s' in
  (forall i, (i < 6)%nat -> i <> 2%nat -> x' i = motion dt x i) /\
  same_heading (motion dt x 2%nat) (x' 2%nat) /\ - PI < x' 2%nat <= PI /\
  (forall i, (6 <= i < blocks * 6)%nat -> x' i = x (i - 6)%nat) /\
  exists F, (forall i j, (i < 6)%nat -> (j < 6)%nat -> is_derive (fun v => motion dt (replaced x j v) i) (x j) (F i j)) /\
    same_matrix (blocks * 6) (blocks * 6) (snd s')
      (plus (times (blocks * 6) (times (blocks * 6) (stacked_transition 6 F) (snd s)) (flip (stacked_transition 6 F)))
            (stacked_noise 6 (fun i j => if Nat.eqb i j then nth i [0; 0; spread (nth 0 noise 0) dt; spread (nth 1 noise 0) dt; spread (nth 2 noise 0) dt; spread (nth 3 noise 0) dt] 0 else 0))).

(** ** Measurements *)
(** A measurement of the components [cols] with the values [vals], whose covariance is
    found in the rows and columns [slots] of a 6 x 6 array, made at [stamp] nanoseconds. *)
Record measurement := Measurement { cols : list nat; slots : list nat; vals : list R; array : list R; stamp : Z }.
Definition values (m : measurement) : nat -> R := fun k => nth k (vals m) 0.
Definition col (m : measurement) (k : nat) : nat := nth k (cols m) 0%nat.
Definition picks (m : measurement) : nat -> nat -> R := fun k j => if Nat.eqb j (col m k) then 1 else 0.
(** The covariance in the message, times the number of times the message is fused. *)
Definition noise_of (m : measurement) (steps : Z) : nat -> nat -> R := fun i j =>
  nth (6 * nth i (slots m) 0%nat + nth j (slots m) 0%nat)%nat (array m) 0 * IZR steps.
(** d is the delay in units of dt, rounded (halves up); measurements from the future have
    delay 0. *)
Definition delay_of (m : measurement) (now : Z) (dt : R) (d : Z) : Prop :=
  let delay := Rmax (IZR (now - stamp m) / 1000000000) 0 in
  IZR d <= delay / dt + / 2 < IZR d + 1.
(** The Mahalanobis distance of diff with respect to the covariance is at most dist. *)
Definition inside_gate (n : nat) (cov : nat -> nat -> R) (dist : R) (diff : nat -> R) : Prop :=
  exists V, is_inverse n cov V /\ variance_along n V diff <= dist * dist.
(** How a measurement of h values is treated: it is fused with the copy of its time if this
    copy is still there and the measured values are close to it (with respect to the newest
    covariance); otherwise it changes nothing. *)
Definition treats (h blocks : nat) (steps : Z) (dist : R) (now : Z) (dt : R) (m : measurement) (s s' : estimate) : Prop :=
  exists d : Z, (0 <= d)%Z /\ delay_of m now dt d /\
    let close := (d < Z.of_nat blocks)%Z /\
      inside_gate h (fun i j => snd s (col m i) (col m j)) dist (fun k => fst s (Z.to_nat d * 6 + col m k)%nat - values m k) in
    (close /\ textbook_update (blocks * 6) h (stacked_measurement 6 (Z.to_nat d) (picks m)) (noise_of m steps) (values m)
               (fst s) (snd s) (fst s') (snd s')) \/
    (~ close /\ s' = s).
(** A list of measurements, one after the other. *)
Inductive in_turn {M S : Type} (step : M -> S -> S -> Prop) : list M -> S -> S -> Prop :=
| in_turn_nil s : in_turn step [] s s
| in_turn_cons m l s s1 s2 : step m s s1 -> in_turn step l s1 s2 -> in_turn step (m :: l) s s2.

(** ** Dead reckoning *)
(** X is one coordinate of the exact motion at speed v and turn rate w: it starts at x0 in
    the direction phi, and [component] is cos for x and sin for y. *)
Definition moves (component : R -> R) (v w phi x0 : R) (X : R -> R) : Prop :=
  X 0 = x0 /\ forall t, is_derive X t (v * component (phi + w * t)).
