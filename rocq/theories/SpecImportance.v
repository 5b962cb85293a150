(** Specification vocabulary for importance sampling. *)
From Coq Require Import Reals List Arith.
Import ListNotations.

(** The mean of [f] under the distribution with probabilities [q]. *)
Definition mean (q : list R) (f : nat -> R) : R := fold_right Rplus 0%R (map (fun v => Rmult (nth v q 0%R) (f v)) (seq 0 (length q))).

(** The mean of [f] over independent draws from the given distributions. *)
Fixpoint mean_all (qs : list (list R)) (f : list nat -> R) : R :=
  match qs with [] => f [] | q :: r => mean q (fun v => mean_all r (fun vs => f (v :: vs))) end.

(** The mean of [f] over sequences of [t] further values after [s], with conditional distributions [p]. *)
Fixpoint seq_mean (p : list nat -> list R) (t : nat) (s : list nat) (f : list nat -> R) : R :=
  match t with 0 => f s | S t => mean (p s) (fun v => seq_mean p t (s ++ [v]) f) end.

Definition sums_to_one (q : list R) : Prop := mean q (fun _ => 1%R) = 1%R.

(** The proposal has the options of the target, and every option the target can produce. *)
Definition covers (q p : list R) : Prop := length q = length p /\ forall v, v < length p -> nth v q 0%R = 0%R -> nth v p 0%R = 0%R.

(** The mean of [f] over [t] steps of a process: in each step independent draws from [laws], one for each entry, decide the
    next state. *)
Fixpoint process {S : Type} (laws : S -> list (list R)) (step : S -> list nat -> S) (t : nat) (st : S) (f : S -> R) : R :=
  match t with 0 => f st | Datatypes.S t => mean_all (laws st) (fun vs => process laws step t (step st vs) f) end.

(** The weighted cost of weighted sequences. *)
Definition weighted_cost (cost : list nat -> R) (l : list (list nat * option R)) : R :=
  fold_right Rplus 0%R (map (fun x => Rmult (match snd x with Some w => w | None => 0%R end) (cost (fst x))) l).

(** The product over the values of a sequence of the probability under the target divided by the probability under the
    proposal plus [eps], both given the values before. *)
Definition path_ratio (eps : R) (target proposal : list nat -> list R) (s : list nat) : R :=
  fold_right Rmult 1%R (map (fun j => Rdiv (nth (nth j s 0) (target (firstn j s)) 0%R)
                                            (Rplus (nth (nth j s 0) (proposal (firstn j s)) 0%R) eps)) (seq 0 (length s))).
