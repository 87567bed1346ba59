(** Specification vocabulary for the localization package. Nothing here models code. *)
From Coq Require Import List ZArith Reals.
From Verif Require Import Base Arith LocModel.
Import ListNotations.

(** [hist] is a chronological list of insertions; [o] is the object last inserted under a
    stamp equal to [s]. *)
Definition last_inserted {K O : Type} (same : K -> K -> Prop) (hist : list (K * O)) (s : K) (o : O) : Prop :=
  exists h1 s' h2, hist = h1 ++ (s', o) :: h2 /\ same s' s /\
    forall p, In p h2 -> ~ same (fst p) s.

(** The store after a chronological list of insertions. *)
Definition store_of {A O} (hist : list (D A * O)) : store A O :=
  fold_left (fun m p => st_insert (fst p) (snd p) m) hist [].

(** The priors of a history, in order of arrival. *)
Fixpoint prior_history {P Scan} (h : list (event P Scan)) : list (Z * P) :=
  match h with
  | [] => []
  | EvPrior s p :: r => (s, p) :: prior_history r
  | EvScan _ _ :: r => prior_history r
  end.

(** The stamps of the scans that arrive after at least one prior ([seen]: a prior has
    already arrived). *)
Fixpoint answered {P Scan} (seen : bool) (h : list (event P Scan)) : list Z :=
  match h with
  | [] => []
  | EvPrior _ _ :: r => answered true r
  | EvScan t _ :: r => if seen then t :: answered seen r else answered seen r
  end.

(** Every stamp of the history is an int64. *)
Definition int64_stamps {P Scan} (h : list (event P Scan)) : Prop :=
  forall e, In e h -> match e with EvPrior s _ => -(2^63) <= s < 2^63 | EvScan t _ => -(2^63) <= t < 2^63 end%Z.
