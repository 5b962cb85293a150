(** C82: whole straight-line programs. *)
From Coq Require Import String List Arith Bool Lia Reals FunctionalExtensionality.
From Verif Require Import Base Torch Plates Wrap Scalar Inference Graph Surrogate Sampling Straight SpecTensor SpecGraph SpecSurrogate SpecReduce SpecProgram
  Curves SurrogateProofs3 BiasProofs2 ProgramWitness StraightFns StraightUnbiased StraightBatch StraightWitness StraightWitness2 SpecStraight.
Import ListNotations.
Open Scope string_scope.
Open Scope nat_scope.
Open Scope list_scope.

(** C82. Every straight-line program of independent data, variables sampled with ScoreFunction and MonteCarlo (any number of samples each) and functions that
    treat leading dimensions as batch dimensions, in any number and order: the script runs whatever is sampled, storch.backward
    succeeds with a scalar loss, and the expectation of that loss over everything that is sampled is, as a function of the
    parameters, the expected sum of the costs of one run of the program on a uniformly random row of every data set.
    Missing: variables with several samples that depend on both plates of size one and larger ones, for which it is false
    (C82_singleton_refuted), and the other estimators and sampling methods. *)
Theorem C82_unbiased_partial : forall (V S : Type) (veq : V -> V -> bool) anc_unwrap (recip : nat -> V) (o : sops V) (o_exp : V -> V),
  is_ring o -> evaluates o o_exp -> (forall x y, o_exp (o_add o x y) = o_mul o (o_exp x) (o_exp y)) ->
  (forall n, 1 <= n -> osum o (repeat (recip n) n) = o_one o) ->
  forall (prog : list (line V)) costs (sg : S) base,
  straight_ok o o_exp prog -> no_skips recip prog -> costs <> [] ->
  (forall c, In c costs -> exists x, nth_error prog c = Some x /\ event_of x = []) ->
  exists loss : world -> V,
    (forall w, exists enough, forall fuel, enough <= fuel ->
       exists t, script veq anc_unwrap recip o o_exp (fun _ => None) fuel (drawn_in o prog w) (map fst prog) costs sg base = Ok t /\ shape t = [] /\ el t [] = loss w) /\
    forall w, sampled o o_exp (sampling o recip prog) w loss = expected o o_exp recip prog [] (total_cost o costs).
Proof. exact (fun V S veq anc recip o ex H He Hx Hr => @straight_unbiased V S veq anc recip o H ex He Hx Hr). Qed.
Print Assumptions C82_unbiased_partial.

(** The same, up to first derivatives, when any of the variables with at least two samples have the batch-average baseline.
    [no_orphans] is about single-sample variables: one that a cost depends on has no plate of several samples that the variable
    with the baseline lacks. Missing besides: other baselines. The moving average is biased (C25_refuted). *)
Theorem C82_batch_average_partial : forall (V S : Type) (veq : V -> V -> bool) anc_unwrap (recip : nat -> V) (o : sops V) (o_exp : V -> V) (o_divn : V -> nat -> V),
  is_ring o -> evaluates o o_exp -> (forall x y, o_exp (o_add o x y) = o_mul o (o_exp x) (o_exp y)) -> first_order o ->
  (forall n, 1 <= n -> osum o (repeat (recip n) n) = o_one o) ->
  forall (prog : list (line V)) (bl : nat -> option (@baseline V S)) costs (sg : S) base,
  straight_ok o o_exp prog -> no_skips recip prog -> costs <> [] ->
  (forall c, In c costs -> exists x, nth_error prog c = Some x /\ event_of x = []) ->
  (forall a x, nth_error prog a = Some x -> is_draw x = true ->
     bl a = None \/ bl a = Some (batch_average veq anc_unwrap o o_divn) /\ 2 <= size_of x /\
                    forall c, In c costs -> In a (nth c (needs prog) []) -> no_orphans recip prog c a) ->
  exists loss : world -> V,
    (forall w, exists enough, forall fuel, enough <= fuel ->
       exists t, script veq anc_unwrap recip o o_exp bl fuel (drawn_in o prog w) (map fst prog) costs sg base = Ok t /\ shape t = [] /\ el t [] = loss w) /\
    forall w, sampled o o_exp (sampling o recip prog) w loss = expected o o_exp recip prog [] (total_cost o costs).
Proof. exact (fun V S veq anc recip o ex dv H He Hx Hf Hr => @straight_batch V S veq anc recip o H ex dv He Hx Hf Hr). Qed.
Print Assumptions C82_batch_average_partial.

(** Rows 1 and 2 of data x, 3 samples of z ~ Bernoulli(sigmoid(t x)) with the baseline, cost z x: the expected loss and its
    derivative. *)
Definition b_divn (x : RD) (n : nat) : RD := ((fst x / INR n)%R, (snd x / INR n)%R).
Example C82_batch_average_witness : forall t0, exists loss : world -> RD,
  (forall w, exists enough, forall fuel, enough <= fuel ->
     exists t, script rd_eq rd_anc b_recip rd_ops rd_exp (fun _ => Some (batch_average rd_eq rd_anc rd_ops b_divn)) fuel
       (drawn_in rd_ops (scaled_coin t0) w) (map fst (scaled_coin t0)) [2] tt 100 = Ok t /\ shape t = [] /\ el t [] = loss w) /\
  forall w, sampled rd_ops rd_exp (sampling rd_ops b_recip (scaled_coin t0)) w loss =
    ((/ 2 * (sig t0 + 2 * sig (2 * t0)))%R, (/ 2 * (sig t0 * (1 - sig t0) + 4 * (sig (2 * t0) * (1 - sig (2 * t0)))))%R).
Proof.
  intros t0.
  destruct (C82_batch_average_partial RD unit rd_eq rd_anc b_recip rd_ops rd_exp b_divn rd_ring rd_evaluates rd_exp_add rd_first b_recip_sums (scaled_coin t0)
    (fun _ => Some (batch_average rd_eq rd_anc rd_ops b_divn)) [2] tt 100 (scaled_coin_ok t0)) as [loss [L1 L2]].
  - intros i x Hx Hs. destruct i as [|[|[|i]]]; cbn in Hx; try (injection Hx as <-); try (destruct i; discriminate Hx); left; cbn; intros p Hp;
      intuition (subst; cbn; lia).
  - discriminate.
  - intros c [<-|[]]. eexists. split; reflexivity.
  - intros a x Hx D. right. split; [reflexivity|]. destruct a as [|[|[|a]]]; cbn in Hx; try (injection Hx as <-); try discriminate; try (destruct a; discriminate Hx).
    split; [cbn; lia|]. intros c [<-|[]] _ p q Hp Hn. cbn in Hp. exfalso. destruct Hp as [<-|[<-|[]]]; cbn in Hn; lia.
  - exists loss. split; [exact L1|]. intros w. rewrite (L2 w). exact (scaled_coin_expected t0).
Qed.

(** The value of the loss, whatever is sampled: for every cost the average over all rows and samples, of the values the
    statements compute from the row and samples chosen; all costs are added. It is so whichever variables have the batch-average
    baseline. *)
Theorem C82_value_partial : forall (V S : Type) (veq : V -> V -> bool) anc_unwrap (recip : nat -> V) (o : sops V) (o_exp : V -> V) (o_divn : V -> nat -> V),
  is_ring o -> evaluates o o_exp ->
  forall (prog : list (line V)) (bl : nat -> option (@baseline V S)) costs (sg : S) base,
  straight_ok o o_exp prog -> no_skips recip prog -> costs <> [] ->
  (forall c, In c costs -> exists x, nth_error prog c = Some x /\ event_of x = []) ->
  (forall a x, nth_error prog a = Some x -> is_draw x = true ->
     bl a = None \/ bl a = Some (batch_average veq anc_unwrap o o_divn) /\ 2 <= size_of x /\
                    forall c, In c costs -> In a (nth c (needs prog) []) -> no_orphans recip prog c a) ->
  forall w, exists enough, forall fuel, enough <= fuel ->
  exists t, script veq anc_unwrap recip o o_exp bl fuel (drawn_in o prog w) (map fst prog) costs sg base = Ok t /\ shape t = [] /\
    o_det o (el t []) = o_det o (osum o (map (fun c => let PL := nth c (plates_of recip prog) [] in
      weighted_sum o false PL PL (fun s => el (nth c (values o s (along (sampling o recip prog) w s) prog) (scalar0 o)) []) (fun _ => 0)) costs)).
Proof. exact (fun V S veq anc recip o ex dv H He => @straight_value V S veq anc recip o H ex dv He). Qed.
Print Assumptions C82_value_partial.

(** The example above: the average over the two rows and the three samples of each. *)
Example C82_value_witness : forall t0 w, exists enough, forall fuel, enough <= fuel ->
  exists t, script rd_eq rd_anc b_recip rd_ops rd_exp (fun _ => Some (batch_average rd_eq rd_anc rd_ops b_divn)) fuel
      (drawn_in rd_ops (scaled_coin t0) w) (map fst (scaled_coin t0)) [2] tt 100 = Ok t /\ shape t = [] /\
    let z j i := num (Nat.testbit (w 1 [j; i]) 0) in
    fst (el t []) = (((z 0%nat 0%nat * 1 + z 0%nat 1%nat * 2) + (z 1%nat 0%nat * 1 + z 1%nat 1%nat * 2) + (z 2%nat 0%nat * 1 + z 2%nat 1%nat * 2)) / 6)%R.
Proof.
  intros t0 w.
  destruct (C82_value_partial RD unit rd_eq rd_anc b_recip rd_ops rd_exp b_divn rd_ring rd_evaluates (scaled_coin t0)
    (fun _ => Some (batch_average rd_eq rd_anc rd_ops b_divn)) [2] tt 100 (scaled_coin_ok t0)) with (w := w) as [enough H].
  - intros i x Hx Hs. destruct i as [|[|[|i]]]; cbn in Hx; try (injection Hx as <-); try (destruct i; discriminate Hx); left; cbn; intros p Hp;
      intuition (subst; cbn; lia).
  - discriminate.
  - intros c [<-|[]]. eexists. split; reflexivity.
  - intros a x Hx D. right. split; [reflexivity|]. destruct a as [|[|[|a]]]; cbn in Hx; try (injection Hx as <-); try discriminate; try (destruct a; discriminate Hx).
    split; [cbn; lia|]. intros c [<-|[]] _ p q Hp Hn. cbn in Hp. exfalso. destruct Hp as [<-|[<-|[]]]; cbn in Hn; lia.
  - exists enough. intros fuel Hf. destruct (H fuel Hf) as [t [T1 [T2 T3]]]. exists t. split; [exact T1|]. split; [exact T2|]. cbv zeta.
    apply (f_equal fst) in T3. etransitivity; [exact T3|]. cbn -[Nat.testbit num INR Rinv]. unfold along. cbn -[Nat.testbit num INR Rinv]. change (INR 3) with (1 + 1 + 1)%R. change (INR 2) with (1 + 1)%R. field.
Qed.

(** Functions that treat leading dimensions as batch dimensions: elementwise functions of arguments whose shapes broadcast to
    [ev], the sum over all dimensions but the leading ones, and one after another. *)
Theorem C82_functions : forall (V : Type) (o : sops V),
  (forall (f : list V -> V) rows ev, broadcast_to rows ev -> leading rows ev (each ev f) (elementwise f)) /\
  (forall r, leading [r] [] (sum_all o) (sum_last o (length r))) /\
  (forall rows ev1 ev g1 g2 (f1 f2 : list (ten V) -> res (ten V)), leading rows ev1 g1 f1 -> leading [ev1] ev g2 f2 -> leading rows ev (then_ ev1 g2 g1) (after f2 f1)).
Proof.
  intros V o. split; [exact (elementwise_leading o)|]. split; [exact (sum_leading o)|exact after_leading].
Qed.
Print Assumptions C82_functions.

(** Data, vectors of Bernoulli variables, a sum, nested samples: the expected loss is the expected cost, as a function of the
    parameter t. *)
Example C82_witness : forall t0, straight_ok (curve_ops t0) curve_exp (vae t0) /\ no_skips s_recip (vae t0) /\
  exists loss : world -> (R -> R),
    (forall w, exists enough, forall fuel, enough <= fuel ->
       exists t, script c_eq c_anc s_recip (curve_ops t0) curve_exp (fun _ => None) fuel (drawn_in (curve_ops t0) (vae t0) w) (map fst (vae t0)) [4] tt 100 = Ok t /\
         shape t = [] /\ el t [] = loss w) /\
    forall w t, sampled (curve_ops t0) curve_exp (sampling (curve_ops t0) s_recip (vae t0)) w loss t = vae_cost t.
Proof.
  intros t0. split; [exact (vae_ok t0)|]. split; [exact (vae_skips t0)|].
  destruct (C82_unbiased_partial C unit c_eq c_anc s_recip (curve_ops t0) curve_exp (curve_ring t0) (curve_evaluates t0)
    (fun f g => functional_extensionality _ _ (fun t => exp_plus (f t) (g t))) (s_recip_sums t0) (vae t0) [4] tt 100 (vae_ok t0) (vae_skips t0)) as [loss [L1 L2]].
  - discriminate.
  - intros c [<-|[]]. eexists. split; reflexivity.
  - exists loss. split; [exact L1|]. intros w t. etransitivity; [exact (f_equal (fun g : C => g t) (L2 w))|]. apply vae_expected.
Qed.

(** A variable x with one sample between a variable z with two and a variable y with three: whatever is sampled, backward raises
    ValueError. order_plates leaves out the plate of y, because its parent x is not among the plates with several samples, so
    that the cost is not averaged over y for the estimator of z. With two samples of x there is a loss. *)
Theorem C82_singleton_refuted : forall t0, straight_ok (curve_ops t0) curve_exp (chain 1) /\
  (exists x, nth_error (chain 1) 3 = Some x /\ event_of x = []) /\
  (forall fuel w, 10 <= fuel ->
     script (S := unit) (fun _ _ => true) c_anc s_recip (curve_ops t0) curve_exp (fun _ => None) fuel (drawn_in (curve_ops t0) (chain 1) w) (map fst (chain 1)) [3] tt 100 = Err ValueError) /\
  straight_ok (curve_ops t0) curve_exp (chain 2) /\ no_skips s_recip (chain 2).
Proof.
  intros t0. split; [now apply chain_ok|]. split; [eexists; split; reflexivity|]. split; [exact (chain_fails t0)|]. split; [apply chain_ok; lia|].
  intros i x Hx Hs. destruct i as [|[|[|[|i]]]]; cbn in Hx; try (injection Hx as <-); try (destruct i; discriminate Hx); left; cbn; intros p Hp;
    intuition (subst; cbn; lia).
Qed.
Print Assumptions C82_singleton_refuted.
