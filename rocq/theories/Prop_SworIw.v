(** C71: the expectation of the importance weights of sampling without replacement. *)
From Coq Require Import Reals List Arith Bool Lia Lra.
From Coquelicot Require Import Coquelicot.
From Verif Require Import Base Gumbel Swor SworWeights SpecSwor TopkRef SworIwProofs.
Import ListNotations.
Local Open Scope R_scope.

(** For Gumbels that are drawn independently of each other, the weight of each option has the option's probability as its
    mean, up to the EPS that compute_iw adds: whatever the perturbed log-probabilities [vals] of the other options, if
    [kappa] is the [k-1]-st largest among them, the mean over the noise [u] of option [i] is [p q / (q + eps)], where [q]
    is the probability that the option exceeds [kappa]. Hence the weighted sum of any cost is unbiased up to EPS.
    Missing: the code draws the Gumbels conditionally on their maximum being 0, see below. *)
Theorem C71_threshold_partial : forall topk, topk_fn ple topk -> forall (lp vals : list R) i k kappa,
  length vals = length lp -> (i < length lp)%nat -> (2 <= k <= length lp)%nat -> threshold i (k - 2) vals kappa ->
  let pert u := map Some (map (fun j => if Nat.eqb j i then gumbel_rsample (nth i lp 0) u else nth j vals 0) (seq 0 (length lp))) in
  let q := 1 - exp (- exp (nth i lp 0 - kappa)) in
  is_RInt (fun u => let idx := select_swor topk k (pert u) lp in weight_of i idx (compute_iw (pick 0 lp idx) (pick None (pert u) idx))) 0 1
    (exp (nth i lp 0) * (q / (q + iw_eps))).
Proof. exact threshold_mean. Qed.
Print Assumptions C71_threshold_partial.

(** A third option between the thresholds: with two samples from three options the threshold of the first is the larger of
    the others. *)
Example C71_threshold_witness : topk_fn ple topk_perturbed /\ threshold 0 (2 - 2) [0; 1; 2] 2 /\ (2 <= 2 <= length [lhalf; 0%R; 0%R])%nat.
Proof.
  split; [exact topk_perturbed_ok|]. split; [|simpl; lia]. exists 2%nat. split; [lia|]. split; [reflexivity|]. simpl.
  destruct (Rlt_dec 2 1); [lra|]. destruct (Rlt_dec 2 2); [lra|]. reflexivity.
Qed.

(** The code conditions the first variable on its maximum being 0 (swor.py:65-67), so the last perturbed log-probability is
    not a threshold for independent Gumbels and the weights are biased. With two options of probability one half and two
    samples, both options are always sampled; for each value [v] of the noise of the second option, the sum of the weights
    as a function of the noise of the first option has a mean of at most 0.99. So the expected sum of the weights is not 1:
    the expectation of a constant is wrong. *)
Theorem C71_conditioned_refuted : forall topk, topk_fn ple topk -> forall v, 0 < v < 1 ->
  exists (f : R -> R) m,
    (forall u, 0 < u < 1 -> exists rows p s joint, sample_var (select_swor topk 2) 2 None (pair_var u v) sstart = Ok (rows, p, s) /\
       length rows = 2%nat /\ NoDup rows /\ ss_joint s = Some joint /\ f u = total (compute_iw joint (ss_pert s))) /\
    is_RInt f 0 1 m /\ m <= 99 / 100.
Proof.
  intros topk Hk v Hv. destruct (pair_mean v Hv) as [m [M1 M2]]. exists (fun u => wgt2 u v), m. split; [|split; assumption].
  intros u Hu. destruct (pair_sampled topk Hk u v Hu Hv) as [rows [p [s [joint [H1 [H2 [H3 [H4 H5]]]]]]]]. exists rows, p, s, joint. rewrite H5. auto.
Qed.
Print Assumptions C71_conditioned_refuted.
(** The variable is one with two options and normalised probabilities. *)
Example C71_conditioned_witness : forall u v, has_domain (pair_var u v) 2 /\ normalised (pair_var u v).
Proof.
  intros u v. split; [repeat split; simpl; auto|]. intros e i. unfold total. simpl. rewrite exp_lhalf. lra.
Qed.

(** With a single sample the weight is 0: the only sample is the threshold. So the weighted sum of any cost is 0. *)
Theorem C71_single_refuted : forall l p, compute_iw [l] [p] = [0].
Proof. reflexivity. Qed.
Print Assumptions C71_single_refuted.
(** This is what sampling one value without replacement leads to. *)
Example C71_single_witness : forall topk, topk_fn ple topk -> forall u v, exists l p s r, 
  sample_var (select_swor topk 1) 1 None (pair_var u v) sstart = Ok r /\ snd r = s /\ ss_joint s = Some [l] /\ ss_pert s = [p].
Proof.
  intros topk Hk u v. unfold sample_var, decode, sstart, pair_var. cbn [ss_fin ss_joint ss_pert bind option_map v_events v_lp v_noise v_cond].
  unfold decode_events. cbn [v_events lprod fold_right seq fold_left v_cond v_lp v_noise].
  unfold decode_step. cbn [b_joint b_rows b_parent b_amt b_pert]. unfold select_swor. 
  set (g := map Some (cond_gumbel 0 [gumbel_rsample lhalf u; gumbel_rsample lhalf v])). assert (Hg : length g = 2%nat) by reflexivity.
  rewrite Hg. cbn [Nat.min]. destruct (Hk g 1%nat ltac:(rewrite Hg; lia)) as [T1 [T2 [T3 _]]]. set (idx := topk g 1%nat) in *. clearbody idx.
  destruct idx as [|i [|? ?]]; try discriminate T2. cbn [length Nat.ltb Nat.leb]. cbn.
  eexists _, _, _, _. split; [reflexivity|]. repeat split; reflexivity.
Qed.
