(** Specification vocabulary for the unordered set estimator (Kool et al. 2020, "Estimating gradients for discrete random
    variables by sampling without replacement"). *)
From Coq Require Import Reals List Arith Bool.
Import ListNotations.
Local Open Scope R_scope.

Definition total (l : list R) : R := fold_right Rplus 0 l.
Definition product (l : list R) : R := fold_right Rmult 1 l.

Section Spec.
(** [N] integration points, the scaling [a], the probabilities [p] of the samples 0, ..., k-1, and a number [e] added to every
    factor and to the remaining probability (0 in the paper). *)
Variable N : nat.
Variables a e : R.
Variable k : nat.
Variable p : nat -> R.

(** v ^ x *)
Definition power (v x : R) : R := exp (x * ln v).
(** The factor 1 - v ^ (p e^a) of a sample. *)
Definition factor (v : R) (s : nat) : R := 1 - power v (p s * exp a) + e.
(** The probability of the outcomes that were not sampled. *)
Definition rest : R := 1 - total (map p (seq 0 k)) + e.
(** The numerical integral, up to the constant of the trapezoid rule, of the probability that the samples satisfying [A] are
    drawn before the outcomes that were not sampled. *)
Definition mass (A : nat -> bool) : R :=
  total (map (fun n => let v := INR n / INR N in
    power v (rest * exp a - 1) * product (map (factor v) (filter A (seq 0 k)))) (seq 1 (N - 1))).
Definition all : nat -> bool := fun _ => true.
Definition but (s : nat) : nat -> bool := fun i => negb (Nat.eqb i s).
Definition but2 (s s' : nat) : nat -> bool := fun i => negb (Nat.eqb i s) && negb (Nat.eqb i s').

(** The leave-one-out weight p(s) R(S, s) of equation 10. *)
Definition leave_one_out (s : nat) : R := p s * (mass (but s) / mass all).
(** The leave-one-out ratio within D without s, equation 17: one for [s'] = [s]. *)
Definition second_ratio (s s' : nat) : R := if Nat.eqb s s' then 1 else mass (but2 s s') / mass (but s).
(** The baseline of sample [s], equation 17. *)
Definition set_baseline (cost : nat -> R) (s : nat) : R :=
  total (map (fun s' => p s' * second_ratio s s' * cost s') (seq 0 k)).
End Spec.
