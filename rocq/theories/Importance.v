(** Importance sampling: ImportanceSampling and ImportanceSampleDecoder (storch/sampling/importance_sampling.py:27-120).

    Weights are for one choice of the other plates. A distribution is the list of the probabilities of its options. *)
From Coq Require Import Reals List Arith.
From Verif Require Import Base Torch.
Import ListNotations.

(** mc_weighting_function (storch/sampling/importance_sampling.py:46-52): the weights of the options [vs] sampled from
    [proposal]. *)
Definition is_weights (n : nat) (target proposal : list R) (vs : list nat) : list R :=
  map (fun v => Rdiv (nth v target 0%R) (Rmult (INR n) (nth v proposal 0%R))) vs.

(** The same on tensors: [true_prob] and [proposal_prob] have the shape of the sample; they are not summed over the
    components of the event (storch/sampling/importance_sampling.py:50-52). [times_n] multiplies with plate.n. *)
Definition is_weight_tensor {V} (times_n : V -> V) (div : V -> V -> V) (true_prob proposal_prob : ten V) : res (ten V) :=
  elementwise2 div true_prob (tmap times_n proposal_prob).

(** ImportanceSampleDecoder.weighting_function (storch/sampling/importance_sampling.py:109-120) for one sequence: [parent] is
    the weight of the sequence at the previous variable. selected_samples is None (storch/sampling/seq.py:368), so that the
    parent weight of sample i is that of sequence i (storch/sampling/seq.py:108-112). *)
Definition is_step (eps : R) (n : nat) (parent : option R) (true_prob proposal_prob : R) : R :=
  let parent_weight := match parent with Some w => Rmult w (INR n) | None => 1%R end in
  Rdiv (Rmult parent_weight true_prob) (Rmult (INR n) (Rplus proposal_prob eps)).

(** The sampled sequences and their weights: the values so far, latest last. *)
Definition is_state := list (list nat * option R).

(** One variable (storch/sampling/importance_sampling.py:87-120): [target] is the conditional distribution given the
    sequence so far, [proposal] what is_callback returns for the sequences so far; [vs] are the sampled options. *)
Definition is_decode (eps : R) (n : nat) (target : list nat -> list R) (proposal : list (list nat) -> nat -> list R)
  (st : is_state) (vs : list nat) : is_state :=
  let seqs := map fst st in
  map (fun i => let '(s, w) := nth i st ([], None) in
                let v := nth i vs 0 in
                (s ++ [v], Some (is_step eps n w (nth v (target s) 0%R) (nth v (proposal seqs i) 0%R))))
      (seq 0 (length st)).
