(** C87: settings reach the objects that use them. C88: the method and baseline Infer chooses. *)
From Coq Require Import List String ZArith QArith Bool Reals Lra.
From Verif Require Import Base Construct Entmax SpecConstruct ConstructProofs.
Import ListNotations.
Open Scope string_scope.
Open Scope list_scope.

(** C87. For every class and every way to call its constructor that does not raise: each setting the caller gives, by
    position, by keyword or by default, is found in the attribute from which sampling and estimation read it. Missing for
    the full claim: the settings in [lost], which the code loses (below). *)
Theorem C87_settings_partial : forall k pos kw o x p c v,
  NoDup (map fst kw) -> construct k pos kw = Ok o ->
  In (x, p, c) (settings k) -> ~ In x (lost k) ->
  (forall y, c = Some y -> given (sig_of k) pos kw y VNone) ->
  given (sig_of k) pos kw x v -> reads o p v.
Proof. exact settings_reach. Qed.
Print Assumptions C87_settings_partial.

(** An estimator with its number of points by keyword; eos and a by default or by position. *)
Example C87_settings_witness :
  let pos := [VStr "x"; VInt 3; VBool false] in
  let kw := [("eos", VInt 7); ("num_int_points", VInt 50)] in
  (exists o, construct KUnordered pos kw = Ok o /\
     reads o ["sampling_method"; "eos"] (VInt 7) /\ reads o ["sampling_method"; "comp_leave_two_out"] (VBool false)) /\
  NoDup (map fst kw) /\ given (sig_of KUnordered) pos kw "eos" (VInt 7) /\ given (sig_of KUnordered) pos kw "use_baseline" (VBool false)
  /\ given (sig_of KUnordered) pos kw "a" (VFloat 5).
Proof.
  split; [|split; [|split; [|split]]].
  - eexists. split; [vm_compute; reflexivity|]. split; apply read_reads; reflexivity.
  - repeat (constructor; [cbn; intuition discriminate|]). constructor.
  - exists 6%nat, false, (Some VNone). split; [reflexivity|]. right; left. cbn. tauto.
  - exists 2%nat, false, (Some (VBool true)). split; [reflexivity|]. left. split; reflexivity.
  - exists 5%nat, false, (Some (VFloat 5)). split; [reflexivity|]. right; right.
    split; [right; cbn; repeat constructor|]. split; [cbn; intuition discriminate|reflexivity].
Qed.

(** Calls Python accepts are accepted: sampling without replacement needs two samples or more, the others need nothing else. *)
Theorem C87_accepts : forall k pos kw, NoDup (map fst kw) -> fits (sig_of k) pos kw ->
  (In k [KMonteCarlo; KEnumerate; KMCDecoder] -> exists o, construct k pos kw = Ok o) /\
  (forall s, In k [KScore; KReparam; KARM; KDisARM] -> given (sig_of k) pos kw "plate_name" (VStr s) ->
     given (sig_of k) pos kw "sampling_method" VNone -> (k = KScore -> given (sig_of k) pos kw "baseline_factory" VNone) ->
     exists o, construct k pos kw = Ok o) /\
  (forall s z, In k [KSwor; KUnorderedSet; KGumbelWOR; KRao; KScoreWOR; KUnordered; KUnorderedGumbel] ->
     given (sig_of k) pos kw "plate_name" (VStr s) -> given (sig_of k) pos kw "k" (VInt z) ->
     ((2 <= z)%Z -> exists o, construct k pos kw = Ok o) /\ ((z < 2)%Z -> construct k pos kw = Err ValueError)).
Proof.
  intros k pos kw Hk Hf. split; [intros Hi; exact (plain_accepts k pos kw Hi Hf)|].
  split; [intros s Hi; exact (fun H1 H2 H3 => method_accepts k pos kw s Hi Hk Hf H1 H2 H3)|].
  intros s z Hi Hs Hz. destruct Hi as [<-|[<-|[<-|[<-|Hi]]]];
    [apply (wor_accepts _ _ _ z); auto; cbn; tauto..|exact (seq_method_accepts k pos kw s z Hi Hk Hf Hs Hz)].
Qed.
Print Assumptions C87_accepts.
Example C87_accepts_witness : fits (sig_of KSwor) [VStr "x"] [("eos", VInt 7); ("k", VInt 1)] /\
  given (sig_of KSwor) [VStr "x"] [("eos", VInt 7); ("k", VInt 1)] "k" (VInt 1) /\
  construct KSwor [VStr "x"] [("eos", VInt 7); ("k", VInt 1)] = Err ValueError.
Proof.
  split; [|split; [|vm_compute; reflexivity]].
  - constructor.
    + cbn. repeat constructor.
    + intros x [<-|[<-|[]]]; eexists; eexists; cbn; [right; right; right; left|right; left]; reflexivity.
    + intros [|i] x ko d Hi Hlt; [|cbn in Hlt; inversion Hlt as [|? Hc]; inversion Hc]. injection Hi as <- <- <-. cbn. intuition discriminate.
    + intros [|[|[|[|i]]]] x ko Hi; try discriminate.
      * injection Hi as <- <-. left. split; [reflexivity|]. cbn. constructor.
      * injection Hi as <- <-. right. cbn. tauto.
      * now destruct i.
  - exists 1%nat, false, None. split; [reflexivity|]. right; left. cbn. tauto.
Qed.

(** RaoBlackwellizedSample and MAPOSample pass eos in the position of biased_iw: whatever eos is given, the decoder has none,
    and what was given decides between biased and unbiased weights. *)
Theorem C87_eos_refuted : forall k pos kw o v, In k [KRao; KMapo] ->
  NoDup (map fst kw) -> construct k pos kw = Ok o -> given (sig_of k) pos kw "eos" v ->
  reads o ["eos"] VNone /\ reads o ["biased_iw"] v.
Proof.
  intros k pos kw o v [<-|[<-|[]]] Hk Hc Hv; [exact (rao_eos pos kw o v Hk Hc Hv)|exact (mapo_eos pos kw o v Hk Hc Hv)].
Qed.
Print Assumptions C87_eos_refuted.
Example C87_eos_witness : exists o, construct KRao [VStr "x"; VInt 3] [("eos", VInt 7)] = Ok o /\
  given (sig_of KRao) [VStr "x"; VInt 3] [("eos", VInt 7)] "eos" (VInt 7).
Proof.
  eexists. split; [vm_compute; reflexivity|]. exists 2%nat, false, (Some VNone). split; [reflexivity|]. right; left. cbn. tauto.
Qed.

(** MAPOSample has no buffer: the attribute is None and samples without replacement, one more than the size of the buffer. *)
Theorem C87_buffer_refuted : forall pos kw o z, NoDup (map fst kw) -> construct KMapo pos kw = Ok o ->
  given (sig_of KMapo) pos kw "buffer_size" (VInt z) -> reads o ["k"] (VInt (z + 1)) /\ reads o ["buffer"] VNone.
Proof. exact mapo_k. Qed.
Print Assumptions C87_buffer_refuted.
Example C87_buffer_witness : exists o, construct KMapo [VStr "x"; VInt 4] [] = Ok o /\
  given (sig_of KMapo) [VStr "x"; VInt 4] [] "buffer_size" (VInt 4).
Proof.
  eexists. split; [vm_compute; reflexivity|]. exists 1%nat, false, None. split; [reflexivity|]. left. split; reflexivity.
Qed.

(** GumbelSoftmaxWOR and UnorderedSetGumbelSoftmax ignore min_temperature and annealing_rate, SumAndSample ignores
    without_replacement: calls that agree on everything else make the same object. *)
Theorem C87_ignored_refuted : forall k pos kw pos' kw' o o', In k [KGumbelWOR; KUnorderedGumbel; KSumAndSample] ->
  NoDup (map fst kw) -> NoDup (map fst kw') -> construct k pos kw = Ok o -> construct k pos' kw' = Ok o' ->
  (forall x v, ~ In x (lost k) -> given (sig_of k) pos kw x v -> given (sig_of k) pos' kw' x v) -> o = o'.
Proof. exact lost_settings. Qed.
Print Assumptions C87_ignored_refuted.
Example C87_ignored_witness : let pos := [VStr "x"; VInt 3] in let kw := [("annealing_rate", VFloat (1 # 2))] in
  (exists o, construct KUnorderedGumbel pos kw = Ok o) /\ (exists o', construct KUnorderedGumbel pos [] = Ok o') /\
  forall x v, ~ In x (lost KUnorderedGumbel) -> given (sig_of KUnorderedGumbel) pos kw x v -> given (sig_of KUnorderedGumbel) pos [] x v.
Proof.
  intros pos kw. split; [eexists; vm_compute; reflexivity|]. split; [eexists; vm_compute; reflexivity|].
  intros x v Hx (i & ko & d & Hi & Hg). exists i, ko, d. split; [exact Hi|].
  destruct Hg as [Hg|[[Hg|[]]|(Hc & _ & Hd)]].
  - now left.
  - injection Hg as <- <-. exfalso. apply Hx. cbn. tauto.
  - right; right. repeat split; auto.
Qed.

(** SumAndSample samples sum_size + sample_size values. *)
Theorem C87_sum_and_sample : forall pos kw o a b, NoDup (map fst kw) -> construct KSumAndSample pos kw = Ok o ->
  given (sig_of KSumAndSample) pos kw "sum_size" (VInt a) -> given (sig_of KSumAndSample) pos kw "sample_size" (VInt b) ->
  reads o ["k"] (VInt (a + b)).
Proof. exact sum_k. Qed.
Print Assumptions C87_sum_and_sample.
Example C87_sum_witness : exists o, construct KSumAndSample [VStr "x"; VInt 2] [] = Ok o /\ reads o ["k"] (VInt 3).
Proof. eexists. split; [vm_compute; reflexivity|]. apply read_reads. reflexivity. Qed.

(** GumbelEntmax with adaptive=True never starts from the alpha it is given: the alpha it computes with is larger. *)
Theorem C87_adaptive_refuted : forall alpha : R, (effective_alpha true alpha > alpha)%R.
Proof.
  intros a. unfold effective_alpha, softplus.
  assert (H : (a - 1 < ln (1 + exp (a - 1)))%R).
  { rewrite <- (ln_exp (a - 1)) at 1. apply ln_increasing; [apply exp_pos|]. pose proof (exp_pos (a - 1)). lra. }
  lra.
Qed.
Print Assumptions C87_adaptive_refuted.

(** C88. Infer chooses reparameterization if the distribution has it, the Gumbel softmax for one-hot and Bernoulli variables
    and otherwise a score function with a moving average for one sample and a batch average for more. Missing for the full
    claim: that gradients are estimated with the method it chooses (see C88_baseline_refuted). *)
Theorem C88_chosen_partial : forall rsample relaxable pos kw o n, NoDup (map fst kw) ->
  init_infer rsample relaxable pos kw = Ok o -> given sig_infer pos kw "n_samples" n ->
  exists m, get o "_method" = Some m /\
    (rsample = true -> exists a, m = VObj "Reparameterization" a) /\
    (rsample = false -> relaxable = true -> exists a, m = VObj "GumbelSoftmax" a) /\
    (rsample = false -> relaxable = false -> exists a, m = VObj "ScoreFunction" a /\
       get a "baseline_factory" = Some (VObj (if py_eq n (VInt 1) then "MovingAverageBaseline" else "BatchAverageBaseline") [])).
Proof. exact infer_chosen. Qed.
Print Assumptions C88_chosen_partial.

(** The estimator of Infer is that of a second score function, which never has a baseline. *)
Theorem C88_baseline_refuted : forall rsample relaxable pos kw o,
  init_infer rsample relaxable pos kw = Ok o -> infer_baseline o = VNone.
Proof. exact infer_no_baseline. Qed.
Print Assumptions C88_baseline_refuted.
Example C88_witness : exists o, init_infer false false [VStr "x"; VObj "Categorical" []] [("n_samples", VInt 5)] = Ok o /\
  given sig_infer [VStr "x"; VObj "Categorical" []] [("n_samples", VInt 5)] "n_samples" (VInt 5) /\
  exists a, get o "_method" = Some (VObj "ScoreFunction" a) /\ get a "baseline_factory" = Some (VObj "BatchAverageBaseline" []).
Proof.
  eexists. split; [vm_compute; reflexivity|]. split.
  - exists 3%nat, false, (Some (VInt 1)). split; [reflexivity|]. right; left. cbn. tauto.
  - eexists. split; reflexivity.
Qed.

(** ScoreFunction takes its baseline by name, and a moving average gets the further keywords; any other name, and a batch average of one sample, is rejected. *)
Theorem C88_names : forall pos kw o s, NoDup (map fst kw) -> construct KScore pos kw = Ok o ->
  given (sig_of KScore) pos kw "baseline_factory" (VStr s) ->
  (s = "moving_average" /\ exists a, get o "baseline_factory" = Some (VObj "MovingAverageBaseline" a) /\
     forall x v, In (x, v) a <-> In (x, v) kw /\ ~ In x ["plate_name"; "sampling_method"; "n_samples"; "baseline_factory"]) \/
  (s = "batch_average" /\ get o "baseline_factory" = Some (VObj "BatchAverageBaseline" []) /\
     exists n q, reads o ["sampling_method"; "n_samples"] n /\ num n = Some q /\ (1 < q)%Q) \/
  ((s = "none" \/ s = "None") /\ get o "baseline_factory" = Some VNone).
Proof. exact score_names. Qed.
Print Assumptions C88_names.
Example C88_names_witness : exists o, construct KScore [VStr "x"] [("n_samples", VInt 2); ("baseline_factory", VStr "batch_average")] = Ok o.
Proof. eexists. vm_compute. reflexivity. Qed.
