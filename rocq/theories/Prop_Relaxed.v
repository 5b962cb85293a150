(** C54, C55, C56: relaxed samples and their conditional resampling. *)
From Coq Require Import Reals List Arith Lra Lia.
From Verif Require Import SworWeights Relaxed SpecRelaxed RelaxedProofs.
Import ListNotations.
Local Open Scope R_scope.

(** C54: given the hard sample of option [b], conditional_gumbel_rsample returns positive numbers
    with sum one of which number [b] is strictly the largest, so that rounding it gives back the hard sample, whatever
    numbers torch draws. *)
Theorem C54_categorical : forall eps tau n b probs v, 0 < eps < 1 / 2 -> 0 < tau -> (b < n)%nat -> length probs = n -> length v = n ->
  let r := cond_categorical eps tau (one_hot n b) probs v in
  length r = n /\ inside_simplex r /\ strictly_largest r b /\ discretize_categorical r = one_hot n b.
Proof. exact cond_categorical_ok. Qed.
Print Assumptions C54_categorical.

Example C54_witness : 0 < 1 / 100 < 1 / 2 /\ 0 < 2 /\ (1 < 3)%nat /\ length [1 / 5; 1 / 5; 3 / 5] = 3%nat /\ length [1 / 2; 1 / 9; 1 / 3] = 3%nat.
Proof. repeat split; simpl; try lra; lia. Qed.

(** C56, in part: given the hard sample 0 the result rounds to 0. Missing: the hard sample 1, for
    which it is false (below). *)
Theorem C56_zero_partial : forall eps tau p v, 0 < eps < 1 / 2 -> 0 < tau ->
  0 < cond_bernoulli eps tau 0 p v < 1 /\ discretize_bernoulli (cond_bernoulli eps tau 0 p v) = 0.
Proof. intros. split; [apply sigmoid_range|now apply cond_bernoulli_zero]. Qed.
Print Assumptions C56_zero_partial.

(** C56 is false: the code computes log p + log(1+p) + log v' + log(1+v') instead of
    log p - log(1-p) + log v' - log(1-v'). For every probability up to 0.366 the resampled value given the hard sample 1
    always rounds to 0. *)
Theorem C56_bernoulli_refuted : forall eps tau p v, 0 < eps -> eps <= p -> p <= 366 / 1000 -> 0 < tau ->
  discretize_bernoulli (cond_bernoulli eps tau 1 p v) <> 1.
Proof. intros. rewrite cond_bernoulli_one_small by auto. lra. Qed.
Print Assumptions C56_bernoulli_refuted.

Example C56_witness : 0 < 1 / 100 /\ 1 / 100 <= 1 / 4 /\ 1 / 4 <= 366 / 1000 /\ 0 < 1.
Proof. repeat split; lra. Qed.

(** C55 for Bernoulli variables: the hard sample is 1 exactly when the uniform number is above 1 - p, for every temperature:
    it is 1 with probability p. *)
Theorem C55_bernoulli : forall eps tau p u, 0 < eps -> 0 < tau -> eps <= p <= 1 - eps -> eps <= u <= 1 - eps ->
  (discretize_bernoulli (relaxed_bernoulli eps tau p u) = 1 <-> 1 - p < u) /\
  (discretize_bernoulli (relaxed_bernoulli eps tau p u) = 0 <-> u <= 1 - p).
Proof.
  intros. rewrite relaxed_bernoulli_rounds by auto. destruct Rle_dec; split; split; intros; auto; lra.
Qed.
Print Assumptions C55_bernoulli.

(** C55 for categorical variables: the hard sample is the option [b] with strictly the smallest arrival time
    - ln u / p (an exponential variable of rate p), for every temperature. *)
Theorem C55_categorical : forall eps tau probs us b, 0 < eps -> 0 < tau -> length us = length probs -> (b < length probs)%nat ->
  (forall p, In p probs -> eps <= p <= 1 - eps) -> (forall u, In u us -> eps <= u <= 1 - eps) ->
  (forall i, (i < length probs)%nat -> i <> b -> - ln (nth b us 0) / nth b probs 0 < - ln (nth i us 0) / nth i probs 0) ->
  discretize_categorical (relaxed_categorical eps tau probs us) = one_hot (length probs) b.
Proof. exact relaxed_categorical_race. Qed.
Print Assumptions C55_categorical.

(** Two options with the probabilities 1/4 and 3/4, the same uniform number: the second one is chosen. *)
Example C55_witness : forall i, (i < 2)%nat -> i <> 1%nat -> - ln (nth 1 [1 / 2; 1 / 2] 0) / nth 1 [1 / 4; 3 / 4] 0 < - ln (nth i [1 / 2; 1 / 2] 0) / nth i [1 / 4; 3 / 4] 0.
Proof.
  intros i Hi Hne. assert (i = 0)%nat as -> by lia. simpl. assert (ln (1 / 2) < ln 1) by (apply ln_increasing; lra). rewrite ln_1 in *. lra.
Qed.
