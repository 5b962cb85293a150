(** C57, C58: the weights and the baseline of the unordered set estimator. *)
From Coq Require Import Reals List Arith Lra Lia.
From Verif Require Import Gumbel SworWeights Unordered SpecUnordered UnorderedProofs UnorderedWitness.
Import ListNotations.
Local Open Scope R_scope.

(** C57, in part: for every number of samples and of integration points the plate weights are the leave-one-out weights of
    the numerical integral, with the 1e-6 that log1mexp adds to every factor. Missing: bounds g of 10 and more, for which it
    is false (below); with the default a = 5 they need 2^214 integration points. *)
Theorem C57_weights_partial : forall N a lps, (2 <= N)%nat -> lps <> [] -> total (map exp lps) <= 1 -> a + ln (ln (INR N)) < 10 ->
  u_weights N a lps = map (leave_one_out N a l_eps (length lps) (fun s => exp (nth s lps 0))) (seq 0 (length lps)) /\
  (forall w, In w (u_weights N a lps) -> 0 < w).
Proof.
  intros N a lps HN Hk Hs Ha. split; [now apply weights_val|]. intros w Hw. unfold u_weights, samples in Hw. apply in_map_iff in Hw.
  destruct Hw as [s [<- Hs']]. apply in_seq in Hs'. apply (weight_val N a lps); auto. lia.
Qed.
Print Assumptions C57_weights_partial.

(** Two samples with the probabilities 1/A and 2/A for A = 4 / (1 + 1e-6). *)
Example C57_witness : (2 <= 3)%nat /\ w_lps <> [] /\ total (map exp w_lps) <= 1 /\ ln w_A + ln (ln (INR 3)) < 10.
Proof. repeat split; [lia|discriminate|apply w_sum_le|apply w_small]. Qed.

(** C57 is false where the code takes the series: it is the series of a small y = exp(g) used for g of 10 and more, where y is
    large. A single sample of probability 1 with a = 11 does not get the leave-one-out weight, whatever the number added for stability. *)
Theorem C57_series_refuted : forall e, 0 <= e <= 1 -> u_weight 2 11 [0] 0 <> leave_one_out 2 11 e 1 (fun s => exp (nth s [0] 0)) 0.
Proof. exact s_series. Qed.
Print Assumptions C57_series_refuted.

(** C58, in part: when all samples have the same probability the baseline is the leave-one-out average of the paper.
    Missing: samples of different probabilities, for which it is false (below). *)
Theorem C58_equal_partial : forall N a lps, (2 <= N)%nat -> lps <> [] -> total (map exp lps) <= 1 -> a + ln (ln (INR N)) < 10 ->
  forall cost s, (s < length lps)%nat -> (forall i j, (i < length lps)%nat -> (j < length lps)%nat -> nth i lps 0 = nth j lps 0) ->
  u_baseline N a lps cost s = set_baseline N a l_eps (length lps) (fun i => exp (nth i lps 0)) cost s.
Proof. intros. now apply baseline_equal. Qed.
Print Assumptions C58_equal_partial.

Example C58_witness : (2 <= 3)%nat /\ total (map exp [ln (1 / 4); ln (1 / 4)]) <= 1 /\ 0 + ln (ln (INR 3)) < 10 /\
  (forall i j, (i < 2)%nat -> (j < 2)%nat -> nth i [ln (1 / 4); ln (1 / 4)] 0 = nth j [ln (1 / 4); ln (1 / 4)] 0).
Proof.
  repeat split; [lia| | |].
  - cbn [map]. rewrite exp_ln by lra. unfold total. simpl. lra.
  - pose proof ln3_bounds. pose proof (ln_below (ln (INR 3))). lra.
  - intros i j Hi Hj. destruct i as [|[|i]], j as [|[|j]]; try lia; reflexivity.
Qed.

(** C58 is false: the second order ratio subtracts the term of the same sample twice (terms[..., None, :] is indexed by the
    plate, not by the new dimension). With two samples of the probabilities 1/A and 2/A and two integration points the
    baseline of the second sample is not that of the paper. *)
Theorem C58_baseline_refuted : exists N a lps cost s, (2 <= N)%nat /\ lps <> [] /\ total (map exp lps) <= 1 /\ a + ln (ln (INR N)) < 10 /\
  (s < length lps)%nat /\ u_baseline N a lps cost s <> set_baseline N a l_eps (length lps) (fun i => exp (nth i lps 0)) cost s.
Proof.
  exists 3%nat, (ln w_A), w_lps, w_cost, 1%nat. repeat split; [lia|discriminate|apply w_sum_le|apply w_small|simpl; lia|exact w_baseline].
Qed.
Print Assumptions C58_baseline_refuted.
