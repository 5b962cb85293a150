(** UnorderedSet.weighting_function (storch/sampling/unordered_set.py:29-108): the weights of the unordered set estimator and
    its second order leave-one-out ratios. Everything is for one choice of the plates other than the sampling plate, so the
    storch operations of these lines compute on lists over the samples ("plates_w_k"), the integration points ("N") or both.
    Floating point numbers are modelled by real numbers. *)
From Coq Require Import Reals List Arith.
From Verif Require Import Gumbel SworWeights.
Import ListNotations.
Local Open Scope R_scope.

(** v (storch/sampling/unordered_set.py:41-44): torch.arange(1, num_int_points) / num_int_points. *)
Definition int_points (N : nat) : list R := map (fun i => INR i / INR N) (seq 1 (N - 1)).
(** torch.logsumexp *)
Definition logsumexp (l : list R) : R := ln (rsum (map exp l)).

Section Weights.
Variable N : nat.
Variable a : R.
Variable lps : list R.

(** terms (storch/sampling/unordered_set.py:51-65) of a sample with log-probability [lp] at the point [v]. *)
Definition u_term (lp v : R) : R :=
  let g := lp + a + ln (- ln v) in
  let y := exp g in
  if Rle_dec 10 g then - g - y / 2 + y ^ 2 / 24 - y ^ 4 / 2880 else log1mexp y.
Definition lp_of (s : nat) : R := nth s lps 0.
Definition samples : list nat := seq 0 (length lps).
(** integrand (storch/sampling/unordered_set.py:69-78) *)
Definition u_integrand (v : R) : R :=
  rsum (map (fun s => u_term (lp_of s) v) samples) + (exp (a + log1mexp (logsumexp lps)) - 1) * ln v.
(** integrand_without_s (storch/sampling/unordered_set.py:83) *)
Definition u_without (s : nat) (v : R) : R := u_integrand v - u_term (lp_of s) v.
(** log_p_S and log_p_S_without_s (storch/sampling/unordered_set.py:86-88) *)
Definition log_p_S : R := logsumexp (map u_integrand (int_points N)).
Definition log_p_without (s : nat) : R := logsumexp (map (u_without s) (int_points N)).
(** The weight of sample [s] (storch/sampling/unordered_set.py:91, 108). *)
Definition u_weight (s : nat) : R := exp (log_p_without s - log_p_S + lp_of s).
Definition u_weights : list R := map u_weight samples.

(** 1 - torch.eye(n) (storch/sampling/unordered_set.py:97) *)
Definition skip_diag (s s' : nat) : R := if Nat.eqb s s' then 1 - 1 else 1 - 0.
(** integrand_without_ss (storch/sampling/unordered_set.py:100-103): "terms[..., None, :]" has the sampling plate in front, so
    it is the term of [s], the index of the plate, and not that of the new dimension [s']. *)
Definition u_without2 (s s' : nat) (v : R) : R := u_without s v - u_term (lp_of s) v * skip_diag s s'.
(** plate.log_snd_leave_one_out (storch/sampling/unordered_set.py:105-107): the plate index [s], the event index [s']. *)
Definition log_snd (s s' : nat) : R := logsumexp (map (u_without2 s s') (int_points N)) - log_p_without s.

(** baseline (storch/method/unordered.py:74-80): the sum over the plate leaves the event index, which then is taken for the
    plate index. *)
Definition u_baseline (cost : nat -> R) (s' : nat) : R := rsum (map (fun s => exp (lp_of s + log_snd s s') * cost s) samples).
End Weights.
