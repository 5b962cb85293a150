(** Relaxed samples of discrete distributions and the resampling of REBAR and RELAX (storch/storch.py:270-305,
    storch/util.py:229-251, storch/method/relax.py:155-163). Floating point numbers are modelled by real numbers; everything
    is for one row (the last dimension of a categorical variable, one element of a Bernoulli variable). The uniform numbers
    drawn by torch are arguments. *)
From Coq Require Import Reals List Arith.
From Verif Require Import SworWeights.
Import ListNotations.
Local Open Scope R_scope.

(** torch.distributions.utils.clamp_probs; [eps] is the machine epsilon of the dtype. *)
Definition clamp_probs (eps p : R) : R := Rmin (Rmax p eps) (1 - eps).

(** The index of the first largest element (tensor.max(-1).indices, tensor.max(-1)[1]). *)
Fixpoint argmax_from (best : R) (at_ i : nat) (l : list R) : nat :=
  match l with
  | [] => at_
  | x :: r => if Rlt_dec best x then argmax_from x i (S i) r else argmax_from best at_ (S i) r
  end.
Definition argmax (l : list R) : nat := match l with [] => 0%nat | x :: r => argmax_from x 0 1 r end.

(** torch.sigmoid *)
Definition sigmoid (x : R) : R := / (1 + exp (- x)).
(** exp(scores - logsumexp(scores)) (storch/storch.py:305) *)
Definition softmax (scores : list R) : list R :=
  let lse := ln (rsum (map exp scores)) in map (fun s => exp (s - lse)) scores.

(** conditional_gumbel_rsample for a Bernoulli variable (storch/storch.py:280-292): [hard] is 0 or 1. *)
Definition v_prime (hard p v : R) : R :=
  if Req_EM_T hard 1 then v * p + (1 - p) else if Req_EM_T hard 0 then v * (1 - p) else 0.
Definition cond_bernoulli (eps tau hard p v : R) : R :=
  let p := clamp_probs eps p in
  let v := clamp_probs eps v in
  let v' := v_prime hard p v in
  sigmoid ((ln p + ln (1 + p) + ln v' + ln (1 + v')) / tau).

(** conditional_gumbel_rsample for a categorical variable (storch/storch.py:293-305). *)
Definition cond_gumbels (hard probs log_v : list R) : list R :=
  let log_v_b := nth (argmax hard) log_v 0 in
  map (fun hpl => match hpl with (h, (p, lv)) =>
         if Req_EM_T h 0 then - ln (- (lv / p) - log_v_b) else - ln (- lv) end)
      (combine hard (combine probs log_v)).
Definition cond_categorical (eps tau : R) (hard probs v : list R) : list R :=
  let probs := map (clamp_probs eps) probs in
  let v := map (clamp_probs eps) v in
  softmax (map (fun g => g / tau) (cond_gumbels hard probs (map ln v))).

(** rsample_gumbel_softmax (storch/util.py:229-251): torch's RelaxedBernoulli and RelaxedOneHotCategorical with the
    probabilities [p]. *)
Definition relaxed_bernoulli (eps tau p u : R) : R :=
  let p := clamp_probs eps p in
  let u := clamp_probs eps u in
  sigmoid ((ln u - ln (1 - u) + ln p - ln (1 - p)) / tau).
Definition relaxed_categorical (eps tau : R) (probs us : list R) : list R :=
  softmax (map (fun pu => (ln (clamp_probs eps (fst pu)) - ln (- ln (clamp_probs eps (snd pu)))) / tau) (combine probs us)).

(** discretize (storch/method/relax.py:155-163): round takes one half to the even number 0. *)
Definition discretize_bernoulli (x : R) : R := if Rle_dec x (1 / 2) then 0 else 1.
Definition discretize_categorical (l : list R) : list R :=
  map (fun i => if Nat.eqb i (argmax l) then 1 else 0) (seq 0 (length l)).
