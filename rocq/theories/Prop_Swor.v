(** C31, C34, C43, C52 and C53: sampling without replacement. *)
From Coq Require Import Reals List Arith Bool Lia Lra.
From Verif Require Import Base Gumbel Swor SpecSwor SworProofs SworProofs2 SworProofs3 SworTotal SworAgree SworEos TopkRef
  SworWeights SworWeightsProofs RbSelect.
Import ListNotations.

(** C31. For every number of variables, every noise, every k, all domain sizes, every function that does what torch.topk
    promises and every eos token: the sampled sequences are pairwise distinct, there are min(k, number of joint outcomes)
    of them, and each is a joint outcome. Missing for the full claim: the hypotheses slice_ok and eos_ok; without them the
    claim is false (C31_one_event_refuted, C31_truncated_refuted, C43_events_refuted). *)
Theorem C31_distinct_partial : forall topk, topk_fn ple topk -> forall k, 1 <= k ->
  forall eos x xs d ds, Forall2 has_domain (x :: xs) (d :: ds) ->
  slice_ok k true x d -> Forall2 (slice_ok k false) xs ds -> Forall (eos_ok eos) (x :: xs) ->
  exists outs s, sample_vars (select_swor topk k) k eos (x :: xs) sstart = Ok (outs, s) /\ length outs = length (x :: xs) /\
    NoDup (sequences outs) /\ length (sequences outs) = Nat.min k (outcomes (x :: xs) (d :: ds)) /\
    forall q, In q (sequences outs) -> outcome (x :: xs) (d :: ds) q.
Proof.
  intros topk Ht k Hk eos x xs d ds HD S1 S2 HE.
  destruct (chain_all k Hk _ (swor_good topk k Ht) eos x xs d ds HD S1 S2 HE) as [outs [s [A [B [C [D [E _]]]]]]].
  exists outs, s. auto.
Qed.
Print Assumptions C31_distinct_partial.

(** With at most k joint outcomes, all of them are sampled. *)
Theorem C31_exhaustive : forall topk, topk_fn ple topk -> forall k, 1 <= k ->
  forall eos x xs d ds, Forall2 has_domain (x :: xs) (d :: ds) ->
  slice_ok k true x d -> Forall2 (slice_ok k false) xs ds -> Forall (eos_ok eos) (x :: xs) ->
  outcomes (x :: xs) (d :: ds) <= k ->
  exists outs s, sample_vars (select_swor topk k) k eos (x :: xs) sstart = Ok (outs, s) /\
    forall q, outcome (x :: xs) (d :: ds) q -> In q (sequences outs).
Proof. intros topk Ht k Hk. exact (sampled_all k _ Hk (swor_good topk k Ht)). Qed.
Print Assumptions C31_exhaustive.

(** A first variable with one event but an event dimension, and fewer options than k: always an error. *)
Theorem C31_one_event_refuted : forall topk, topk_fn ple topk -> forall k eos x d,
  v_events x = [1] -> has_domain x d -> d < k -> sample_var (select_swor topk k) k eos x sstart = Err ValueError.
Proof. intros topk Ht k eos x d. exact (one_event _ k eos x d (swor_good topk k Ht)). Qed.
Print Assumptions C31_one_event_refuted.

(** A variable with one option and three events: the only sample has one event instead of three. *)
Theorem C31_truncated_refuted : forall topk, topk_fn ple topk -> forall k x, v_events x = [3] -> has_domain x 1 -> 2 <= k ->
  exists r s, sample_var (select_swor topk k) k None x sstart = Ok ([r], None, s) /\ length r = 1.
Proof. intros topk Ht k x. exact (truncated _ k x (swor_good topk k Ht)). Qed.
Print Assumptions C31_truncated_refuted.

(** C52. The joint log-probabilities that are kept are those of the sampled sequences: the sum over the variables of the
    log-probability of the variable's row given the sequence it continues. *)
Theorem C52_joint_log_probs_partial : forall topk, topk_fn ple topk -> forall k, 1 <= k ->
  forall eos x xs d ds, Forall2 has_domain (x :: xs) (d :: ds) ->
  slice_ok k true x d -> Forall2 (slice_ok k false) xs ds -> Forall (eos_ok eos) (x :: xs) ->
  exists outs s, sample_vars (select_swor topk k) k eos (x :: xs) sstart = Ok (outs, s) /\
    ss_joint s = Some (sequence_log_probs (x :: xs) outs) /\
    length (sequence_log_probs (x :: xs) outs) = length (sequences outs).
Proof.
  intros topk Ht k Hk eos x xs d ds HD S1 S2 HE.
  destruct (chain_all k Hk _ (swor_good topk k Ht) eos x xs d ds HD S1 S2 HE) as [outs [s [A [_ [_ [_ [_ [B C]]]]]]]].
  exists outs, s. auto.
Qed.
Print Assumptions C52_joint_log_probs_partial.

(** With at most k outcomes, the probabilities of the sampled sequences sum to one. *)
Theorem C52_total : forall topk, topk_fn ple topk -> forall k, 1 <= k ->
  forall eos x xs d ds, Forall2 has_domain (x :: xs) (d :: ds) ->
  slice_ok k true x d -> Forall2 (slice_ok k false) xs ds -> Forall (eos_ok eos) (x :: xs) -> Forall normalised (x :: xs) ->
  outcomes (x :: xs) (d :: ds) <= k ->
  forall outs s, sample_vars (select_swor topk k) k eos (x :: xs) sstart = Ok (outs, s) ->
  exists l, ss_joint s = Some l /\ total (map exp l) = 1%R.
Proof. intros topk Ht k Hk. exact (total_all k Hk _ (swor_good topk k Ht)). Qed.
Print Assumptions C52_total.

(** A case that meets the hypotheses of C31 and C52: two variables, the first with two options and no event dimension, the
    second depending on it, with event shape [2] and three options; k is 4. *)
Definition uniform (d : nat) : list R := repeat (- ln (INR d))%R d.
Definition ex_x : var := mkVar [] false (fun _ _ => uniform 2) (fun _ _ => [1; 2]%R).
Definition ex_y : var := mkVar [2] true (fun _ _ => uniform 3) (fun _ _ => [1; 0; 2]%R).
Lemma total_repeat : forall n x, total (repeat x n) = (INR n * x)%R.
Proof.
  unfold total. induction n as [|n IH]; intros x; [simpl; lra|]. rewrite S_INR. simpl. rewrite IH. lra.
Qed.
Lemma uniform_total : forall d, 1 <= d -> total (map exp (uniform d)) = 1%R.
Proof.
  intros d H. unfold uniform. assert (E : map exp (repeat (- ln (INR d))%R d) = repeat (/ INR d)%R d).
  { rewrite <- (exp_ln (INR d)) at 2 by (apply lt_0_INR; lia). rewrite <- exp_Ropp. generalize (- ln (INR d))%R. clear. intros y. induction d; simpl; congruence. }
  rewrite E, total_repeat. field. apply not_0_INR. lia.
Qed.
Example C31_witness : topk_fn ple topk_perturbed /\ Forall2 has_domain [ex_x; ex_y] [2; 3] /\ slice_ok 4 true ex_x 2 /\
  Forall2 (slice_ok 4 false) [ex_y] [3] /\ Forall (eos_ok None) [ex_x; ex_y] /\ Forall normalised [ex_x; ex_y] /\
  outcomes [ex_x; ex_y] [2; 3] = 18.
Proof.
  split; [exact topk_perturbed_ok|]. split.
  - repeat constructor; auto.
  - split; [left; reflexivity|]. split; [constructor; [right; split; auto|constructor]|].
    split; [repeat constructor|]. split; [|reflexivity]. constructor; [|constructor; [|constructor]]; intros e i; apply uniform_total; lia.
Qed.
Example C31_one_event_witness : has_domain (mkVar [1] false (fun _ _ => uniform 2) (fun _ _ => [1; 2]%R)) 2 /\
  has_domain (mkVar [3] false (fun _ _ => uniform 1) (fun _ _ => [1]%R)) 1.
Proof. split; repeat constructor. Qed.

(** C34. Without normalisation the last weight is zero, and the others are p / (q + 10^-8), q being the probability that the
    perturbed log-probability is above the last one. *)
Theorem C34_last : forall lp pert, length lp = length pert -> pert <> [] ->
  nth (length pert - 1) (swor_weights false lp pert) None = Some 0%R.
Proof. exact swor_unnormalised. Qed.
Print Assumptions C34_last.

Theorem C34_value : forall lp pert t j, length lp = length pert -> j < length pert - 1 ->
  nth (length pert - 1) pert None = Some t ->
  nth j (compute_iw lp pert) 0%R = (exp (nth j lp 0) / ((1 - exp (- exp (nth j lp 0 - t))) + / 100000000))%R.
Proof. intros lp pert t j HL Hj Ht. rewrite (iw_value lp pert j HL Hj), Ht. reflexivity. Qed.
Print Assumptions C34_value.
(** A last perturbed log-probability of minus infinity: every other sample is certain to be above it, q is one. *)
Theorem C34_certain : forall lp pert j, length lp = length pert -> j < length pert - 1 -> nth (length pert - 1) pert (Some 0%R) = None ->
  nth j (compute_iw lp pert) 0%R = (exp (nth j lp 0) / (1 + / 100000000))%R.
Proof.
  intros lp pert j HL Hj Ht. rewrite (iw_value lp pert j HL Hj). rewrite (nth_indep pert None (Some 0%R)) by lia. rewrite Ht. reflexivity.
Qed.
Print Assumptions C34_certain.

(** The normalised weights of at least two samples are defined, nonnegative, sum to one, and the last is zero. *)
Theorem C34_normalised_partial : forall lp pert, length lp = length pert -> 2 <= length pert ->
  exists ws, swor_weights true lp pert = map Some ws /\ total ws = 1%R /\ nth (length pert - 1) ws 1%R = 0%R /\ Forall (Rle 0) ws.
Proof. exact swor_normalised. Qed.
Print Assumptions C34_normalised_partial.

(** Missing for the full claim: with one sample (a variable with one option) the normalised weight is 0/0; it is false. *)
Theorem C34_single_refuted : forall l p, swor_weights true [l] [p] = [None].
Proof. exact swor_single. Qed.
Print Assumptions C34_single_refuted.

(** The Rao-Blackwellised weights of k samples sum to one. *)
Theorem C34_rao_blackwell : forall k lp, length lp = k -> total (rb_weights k lp) = 1%R.
Proof. intros k lp H. exact (proj1 (rb_sum k lp H)). Qed.
Print Assumptions C34_rao_blackwell.

(** With fewer than k outcomes the Rao-Blackwellised samples are all outcomes, and the weights sum to one too. *)
Theorem C34_rao_blackwell_few : forall topk_prob argmax k, topk_fn Rle topk_prob -> 1 <= k ->
  forall eos x xs d ds, Forall2 has_domain (x :: xs) (d :: ds) -> slice_ok k true x d ->
  Forall2 (slice_ok k false) xs ds -> Forall (eos_ok eos) (x :: xs) -> Forall normalised (x :: xs) ->
  outcomes (x :: xs) (d :: ds) < k ->
  exists outs s l, sample_vars (select_rb topk_prob argmax k) k eos (x :: xs) sstart = Ok (outs, s) /\
    ss_joint s = Some l /\ length l = outcomes (x :: xs) (d :: ds) /\ total (rb_weights k l) = 1%R.
Proof.
  intros tp am k H Hk eos x xs d ds HD Sx Sxs HE HN Hlt.
  destruct (rb_total tp am k H Hk eos x xs d ds HD Sx Sxs HE HN Hlt) as [outs [s [l [A [B [C D]]]]]].
  exists outs, s, l. repeat split; auto. unfold rb_weights. destruct (Nat.eqb_spec (length l) k); [lia|exact D].
Qed.
Print Assumptions C34_rao_blackwell_few.

Example C34_witness : topk_fn Rle topk_real /\ outcomes [ex_x; ex_y] [2; 3] < 20 /\
  length [ln (/ 2); ln (/ 4)]%R = length [Some 0%R; Some (-1)%R] /\ 2 <= length [Some 0%R; Some (-1)%R].
Proof. split; [exact topk_real_ok|]. simpl. repeat split; auto; lia. Qed.

(** C43. One step with an eos token for every state, number of samples, distribution and noise. The new masks say which
    sequences have just produced eos. A sample that continues a finished sequence is eos, and keeps its perturbed
    log-probability, if there are at least k options with finite perturbed log-probability. Missing for the full claim: that
    hypothesis, without which it is false (C43_tokens_refuted), and the joint log-probabilities (C43_joint_refuted). *)
Theorem C43_tokens_partial : forall topk, topk_fn ple topk -> forall k t x d l pert f,
  v_events x = [] -> has_domain x d -> S t < d -> length pert = length l -> 1 <= length l <= k -> k <= finite_options d pert f ->
  exists rows parent joint pert',
    sample_var (select_swor topk k) k (Some (S t)) x (mkSState (Some l) pert (Some ([], map (fun b => [b]) f)))
      = Ok (rows, Some parent, mkSState (Some joint) pert' (Some ([], map (map (Nat.eqb (S t))) rows))) /\
    length rows = Nat.min k (length l * d) /\
    forall j, j < length rows -> nth (nth j parent 0) f false = true ->
      nth j rows [] = [S t] /\ nth j pert' None = nth (nth j parent 0) pert None /\ nth j pert' None <> None.
Proof.
  intros topk Ht k t x d l pert f Hev Dx He Hp Hl Hf.
  destruct (eos_step topk Ht k t x d l pert f Hev Dx He Hp Hl) as [rows [parent [joint [pert' [A [B C]]]]]].
  exists rows, parent, joint, pert'. split; auto. split; auto. intros j Hj Hfin. destruct (C j Hj) as [_ [_ [_ [D E]]]].
  specialize (E Hf). destruct (D Hfin E). auto.
Qed.
Print Assumptions C43_tokens_partial.

(** The joint log-probability of a finished sequence does change: by the log-probability of another eos. *)
Theorem C43_joint_refuted : forall topk, topk_fn ple topk -> forall k t x d l pert f,
  v_events x = [] -> has_domain x d -> S t < d -> length pert = length l -> 1 <= length l <= k -> k <= finite_options d pert f ->
  exists rows parent joint pert' fin',
    sample_var (select_swor topk k) k (Some (S t)) x (mkSState (Some l) pert (Some ([], map (fun b => [b]) f)))
      = Ok (rows, Some parent, mkSState (Some joint) pert' fin') /\
    forall j, j < length rows -> nth (nth j parent 0) f false = true ->
      (nth j joint 0 = nth (nth j parent 0%nat) l 0 + nth (S t) (v_lp x 0 (if v_cond x then nth j parent 0%nat else 0%nat)) 0)%R.
Proof.
  intros topk Ht k t x d l pert f Hev Dx He Hp Hl Hf.
  destruct (eos_step topk Ht k t x d l pert f Hev Dx He Hp Hl) as [rows [parent [joint [pert' [A [B C]]]]]].
  exists rows, parent, joint, pert'. eexists. split; [exact A|]. intros j Hj Hfin. destruct (C j Hj) as [_ [_ [E [D F]]]].
  destruct (D Hfin (F Hf)) as [R _]. rewrite R in E. exact E.
Qed.
Print Assumptions C43_joint_refuted.

Example C43_witness : finite_options 3 [Some 0; Some (-1); Some (-2)]%R [false; true; false] = 7 /\
  has_domain (mkVar [] true (fun _ _ => uniform 3) (fun _ _ => [1; 2; 0]%R)) 3.
Proof. split; [reflexivity|]. repeat constructor. Qed.

(** Two variables with two options each, eos 1, k = 4: whatever the noise and the probabilities, the sequence that is
    finished after the first variable is continued with option 0. *)
Theorem C43_tokens_refuted : forall topk, topk_fn ple topk -> forall x y, v_events x = [] -> v_events y = [] ->
  has_domain x 2 -> has_domain y 2 ->
  exists outs s, sample_vars (select_swor topk 4) 4 (Some 1) [x; y] sstart = Ok (outs, s) /\ In [1; 0] (sequences outs).
Proof.
  intros topk Ht x y Hx Hy Dx Dy.
  destruct (sampled_all 4 _ ltac:(lia) (swor_good topk 4 Ht) (Some 1) x [y] 2 [2]) as [outs [s [A B]]].
  - repeat constructor; auto; apply Dx || apply Dy.
  - left; auto.
  - repeat constructor; auto.
  - repeat constructor; auto.
  - unfold outcomes. simpl. rewrite Hx, Hy. simpl. lia.
  - exists outs, s. split; auto. apply B. simpl. rewrite Hx, Hy. exists [1], [0]. repeat split; auto.
    exists [0], []. repeat split; auto.
Qed.
Print Assumptions C43_tokens_refuted.

(** An eos token of 0 is ignored. *)
Theorem C43_zero_refuted : forall select k xs, sample_vars select k (Some 0) xs sstart = sample_vars select k None xs sstart.
Proof. intros select k xs. exact (eos_zero select k xs sstart eq_refl). Qed.
Print Assumptions C43_zero_refuted.

(** After a variable with event dimensions the next one raises. *)
Theorem C43_events_refuted : forall select k t x y s s' rows p, v_events x <> [] ->
  sample_var select k (Some (S t)) x s = Ok (rows, p, s') -> sample_var select k (Some (S t)) y s' = Err IndexError.
Proof. exact eos_events. Qed.
Print Assumptions C43_events_refuted.

(** Ancestral sampling (MCDecoder) with an eos token other than 0 raises RuntimeError at the first variable whatever is drawn; with eos 0
    nothing is ever marked as finished. *)
Theorem C43_ancestral_refuted :
  (forall t fin d, mc_step (Some (S t)) fin d = Err RuntimeError) /\ (forall d, mc_step (Some 0) None d = Ok (d, None)).
Proof. split; [exact mc_eos|reflexivity]. Qed.
Print Assumptions C43_ancestral_refuted.

(** C53. The selection of RaoBlackwellizedSample among at least k options, all with a perturbed log-probability above -10^10:
    the k - 1 most probable options and a different one, which has the highest perturbed log-probability of the others. *)
Theorem C53_selection_partial : forall topk argmax k pert joint, topk_fn Rle topk -> argmax_fn ple argmax -> 1 <= k ->
  length pert = length joint -> k <= length pert ->
  Forall (fun p => exists r, p = Some r /\ (- (10 ^ 10) < r)%R) pert ->
  exists top j, select_rb topk argmax k pert joint = top ++ [j] /\ is_topk Rle joint (k - 1) top /\ ~ In j top /\
    j < length pert /\ forall i, i < length pert -> ~ In i top -> ple (nth i pert None) (nth j pert None).
Proof. exact rb_spec. Qed.
Print Assumptions C53_selection_partial.

(** Missing for the full claim: if all other options are impossible (minus infinity, as for finished sequences), an option is
    selected twice. *)
Theorem C53_twice_refuted : forall topk argmax k pert joint, topk_fn Rle topk -> argmax_fn ple argmax -> 2 <= k ->
  length pert = length joint -> k <= length pert ->
  (forall i, i < length pert -> ~ In i (topk joint (k - 1)) -> nth i pert None = None) -> ~ NoDup (select_rb topk argmax k pert joint).
Proof. exact rb_twice. Qed.
Print Assumptions C53_twice_refuted.

Example C53_witness : topk_fn Rle topk_real /\ argmax_fn ple argmax_perturbed /\
  Forall (fun p => exists r, p = Some r /\ (- (10 ^ 10) < r)%R) [Some 0; Some (-1); Some (-2)]%R.
Proof.
  split; [exact topk_real_ok|]. split; [exact argmax_perturbed_ok|]. repeat constructor; eexists; split; try reflexivity; simpl; lra.
Qed.
