(** Specification vocabulary for the score function without replacement. *)
From Coq Require Import List Arith.
From Verif Require Import Scalar.
Import ListNotations.

Section Spec.
Context {V : Type}.
Variable o : sops V.
Variable o_div : V -> V -> V.

(** The sum over the [n] samples. *)
Definition over_samples (n : nat) (f : nat -> V) : V := osum o (map f (seq 0 n)).

(** The additive terms of equations 11, 10 and 9 of "Buy 4 REINFORCE samples, get a baseline for free", without the
    log-probability: [iw], [pr] and [c] are the importance weight, the probability and the cost of every sample. *)
Definition eq11 (n : nat) (iw pr c : nat -> V) : V :=
  let WS := over_samples n iw in
  let BS := over_samples n (fun i => o_mul o (iw i) (c i)) in
  over_samples n (fun i => o_mul o (o_div (iw i) (o_det o (o_add o (o_sub o WS (iw i)) (pr i)))) (o_det o (o_sub o (c i) (o_div BS WS)))).
Definition eq10 (n : nat) (iw pr c : nat -> V) : V :=
  let BS := over_samples n (fun i => o_mul o (iw i) (c i)) in
  over_samples n (fun i => o_mul o (iw i) (o_det o (o_sub o (o_mul o (c i) (o_add o (o_sub o (o_one o) (pr i)) (iw i))) BS))).
Definition eq9 (n : nat) (biased : bool) (iw c : nat -> V) : V :=
  let WS := o_det o (over_samples n iw) in
  over_samples n (fun i => o_mul o (o_det o (c i)) (if biased then o_div (iw i) WS else iw i)).
Definition wor_term (biased use_baseline : bool) (n : nat) (iw pr c : nat -> V) : V :=
  if use_baseline then if biased then eq11 n iw pr c else eq10 n iw pr c else eq9 n biased iw c.
End Spec.
