(** Specification vocabulary for exact expectations. *)
From Coq Require Import Reals List Arith.
Import ListNotations.

(** The expectation of [f] over independent variables with the given log-probabilities of their options. *)
Fixpoint expectation (lps : list (list R)) (f : list nat -> R) : R :=
  match lps with
  | [] => f []
  | lp :: r => fold_right Rplus 0%R (map (fun v => Rmult (exp (nth v lp 0%R)) (expectation r (fun t => f (v :: t)))) (seq 0 (length lp)))
  end.

(** [t] is a joint outcome of [c] variables with [e] options each. *)
Definition joint (e c : nat) (t : list nat) : Prop := length t = c /\ Forall (fun v => v < e) t.

(** The events of one choice of the plates: none, or the indices along the last dimension. *)
Definition events_of (s sizes : list nat) : list (list nat) :=
  match sizes with [] => [s] | d :: _ => map (fun c => s ++ [c]) (seq 0 d) end.
