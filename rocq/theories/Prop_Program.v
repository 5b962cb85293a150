(** C23 to C27: expectations of the surrogate loss over everything a program samples, and baselines. *)
From Coq Require Import String List Arith Bool ZArith Lia Permutation Reals Lra FunctionalExtensionality.
From Verif Require Import Base Torch Plates Wrap OrderPlates Scalar Reduce Graph Surrogate SpecTensor SpecWrap SpecOrder SpecReduce SpecGraph
  SpecSurrogate SpecProgram Dual Curves OrderProofs ReduceProofs2 SurrogateProofs SurrogateProofs2 SurrogateProofs3
  ProgramProofs ProgramProofs2 ProgramProofs3 ProgramProofs4 ProgramProofs5 ProgramWitness SurrogateWitness BiasProofs BiasProofs2 BiasProofs3 MovingProofs.
Import ListNotations.
Open Scope string_scope.
Open Scope nat_scope.
Open Scope list_scope.

(** C23. For every sampling program [pg] with finitely supported distributions, any numbers of samples and any weights: the
    score-function loss exists, and its expectation over everything that is sampled equals, as a number that knows how it
    depends on the parameters, the weighted sum over the plates of the expected cost. Missing for the full claim: programs
    that average over samples before the cost is registered, for which the claim is false (C27_refuted). *)
Theorem C23_weighted_partial : forall (V S X : Type) (veq : V -> V -> bool) anc_unwrap (o : sops V) (o_exp : V -> V), is_ring o -> evaluates o o_exp ->
  (forall x y, o_exp (o_add o x y) = o_mul o (o_exp x) (o_exp y)) ->
  forall (pg : program V X) (nodes : @world X -> nat -> @snode V S) h univ costs FP T anc cost sg base,
  program_ok o o_exp pg -> costs <> [] ->
  (forall w, closed_under (h_parents (h w)) (univ w) /\ incl costs (univ w)) ->
  (forall w c, In c costs -> score_setup veq anc_unwrap o o_exp (nodes w) (h w) c (FP c) (anc c) (fun _ => None) (fun a s => pg_logp pg a s (along pg w s)) /\
     forall s, in_range s (FP c) -> den (nd_t (nodes w c)) s [] = cost c s (along pg w s)) ->
  (forall c, In c costs -> depends_on o o_exp pg (FP c) (T c) (anc c) (cost c)) ->
  exists loss : @world X -> V,
    (forall w, exists enough, forall fuel, enough <= fuel ->
       exists t, backward_value veq anc_unwrap o o_exp fuel (h w) (nodes w) costs sg base = Ok t /\ shape t = [] /\ el t [] = loss w) /\
    forall w r, sampled o o_exp pg w loss =
      osum o (map (fun c => weighted_sum o false (FP c) (FP c) (fun s => mean o o_exp pg s r (cost c s)) (fun _ => 0)) costs).
Proof. exact (fun V S X veq anc o ex H He Hx => @score_unbiased V S X veq anc o H ex He Hx). Qed.
Print Assumptions C23_weighted_partial.

(** With weights that sum to one and a program that treats its samples alike: the expected loss is the expected cost. *)
Theorem C23_unbiased_partial : forall (V S X : Type) (veq : V -> V -> bool) anc_unwrap (o : sops V) (o_exp : V -> V), is_ring o -> evaluates o o_exp ->
  (forall x y, o_exp (o_add o x y) = o_mul o (o_exp x) (o_exp y)) ->
  forall (pg : program V X) (nodes : @world X -> nat -> @snode V S) h univ costs FP T anc cost sg base,
  program_ok o o_exp pg -> costs <> [] ->
  (forall w, closed_under (h_parents (h w)) (univ w) /\ incl costs (univ w)) ->
  (forall w c, In c costs -> score_setup veq anc_unwrap o o_exp (nodes w) (h w) c (FP c) (anc c) (fun _ => None) (fun a s => pg_logp pg a s (along pg w s)) /\
     forall s, in_range s (FP c) -> den (nd_t (nodes w c)) s [] = cost c (along pg w s)) ->
  (forall c, In c costs -> depends_on o o_exp pg (FP c) (T c) (anc c) (fun _ => cost c)) ->
  (forall c, In c costs -> closed (FP c) /\ forall p, In p (FP c) -> normalised o false (FP c) p) ->
  (forall a s s' r, In a (pg_vars pg) -> pg_support pg a s r = pg_support pg a s' r /\ pg_logp pg a s r = pg_logp pg a s' r) ->
  exists loss : @world X -> V,
    (forall w, exists enough, forall fuel, enough <= fuel ->
       exists t, backward_value veq anc_unwrap o o_exp fuel (h w) (nodes w) costs sg base = Ok t /\ shape t = [] /\ el t [] = loss w) /\
    forall w r s, sampled o o_exp pg w loss = osum o (map (fun c => mean o o_exp pg s r (cost c)) costs).
Proof. exact (fun V S X veq anc o ex H He Hx => @score_unbiased_mc V S X veq anc o H ex He Hx). Qed.
Print Assumptions C23_unbiased_partial.

(** Both on a program with two variables, one nested in the samples of the other, 2 and 3 samples, with functions of a real
    parameter as numbers; the expected cost as a function of the parameter t. *)
Example C23_witness : forall t0, exists loss : @world bool -> (R -> R),
  (forall w, exists enough, forall fuel, enough <= fuel ->
     exists t, backward_value c_eq c_anc (curve_ops t0) curve_exp fuel c_heap (c_nodes t0 w) [2] tt 100 = Ok t /\ shape t = [] /\ el t [] = loss w) /\
  forall w t, sampled (curve_ops t0) curve_exp c_prog w loss t =
    ((1 - sig t) * ((1 - sig (t * 1)) * t + sig (t * 1) * (4 * t)) + sig t * ((1 - sig (t * 2)) * (2 * t) + sig (t * 2) * (5 * t)))%R.
Proof.
  intros t0.
  destruct (C23_unbiased_partial (R -> R) unit bool c_eq c_anc (curve_ops t0) curve_exp (curve_ring t0) (curve_evaluates t0)
    (fun f g => functional_extensionality _ _ (fun t => exp_plus (f t) (g t))) c_prog (c_nodes t0) (fun _ => c_heap) (fun _ => [0; 1; 2]) [2]
    (fun _ => c_plates) (fun _ => [0; 1]) (fun _ => [0; 1]) c_cost tt 100) as [loss [H1 H2]].
  - exact (c_program_ok t0).
  - discriminate.
  - intros w. split; [apply c_closed|]. intros x [<-|[]]. simpl. auto.
  - intros w c [<-|[]]. split; [apply c_setup|]. intros s _. apply c_den.
  - intros c [<-|[]]. exact (c_depends t0).
  - intros c _. split; [apply c_closed|exact (c_normalised t0)].
  - intros a s s' r Ha. split; reflexivity.
  - exists loss. split; [exact H1|]. intros w t. rewrite (H2 w (fun _ => true) (fun _ => 0)). clear.
    assert (E : forall b u, exp (bern (fun _ => num b) u t) = if b then sig (u t) else (1 - sig (u t))%R).
    { intros b u. unfold bern. destruct (sig_pos (u t)). destruct b; cbn [num].
      - replace (1 * ln (sig (u t)) + (1 - 1) * ln (1 - sig (u t)))%R with (ln (sig (u t))) by ring. apply exp_ln. lra.
      - replace (0 * ln (sig (u t)) + (1 - 0) * ln (1 - sig (u t)))%R with (ln (1 - sig (u t))) by ring. apply exp_ln. lra. }
    cbn -[bern num]. unfold SpecProgram.prob, curve_exp, c_cost, put. cbn -[bern num]. rewrite !E. cbn [num].
    replace (t * (1 + 1))%R with (t * 2)%R by ring. replace (t * (1 + 0))%R with (t * 1)%R by ring. ring.
Qed.

(** C24. The baseline of a sample is the mean, over the other samples, of the cost it is given. *)
Theorem C24_leave_one_out : forall (V S : Type) (veq : V -> V -> bool) anc_unwrap (o : sops V), is_ring o -> forall (o_divn : V -> nat -> V),
  forall FP rc pl f p x key (sg : S) base, sound veq FP -> stands (PT rc) pl f -> (forall s s', (forall n, s n = s' n) -> f s = f s') -> incl pl FP -> In p pl ->
  sm_name x = pname p -> sm_n x = pn p -> 1 < pn p ->
  exists b, batch_average veq anc_unwrap o o_divn x rc key sg base = Ok (b, sg) /\
    stands b pl (fun s => o_divn (osum o (map (fun i => o_det o (f (set_to s (pname p) i)))
      (filter (fun i => negb (i =? s (pname p))) (seq 0 (pn p))))) (pn p - 1)).
Proof. exact (fun V S veq anc o H dv => @batch_average_spec V S veq anc o H dv). Qed.
Print Assumptions C24_leave_one_out.

(** With one sample it raises ValueError. *)
Theorem C24_single : forall (V S : Type) (veq : V -> V -> bool) anc_unwrap (o : sops V) (o_divn : V -> nat -> V) rc x key (sg : S) base,
  sm_n x = 1 -> batch_average veq anc_unwrap o o_divn x rc key sg base = Err ValueError.
Proof. exact (fun V S veq anc o dv => @batch_average_single V S veq anc o dv). Qed.
Print Assumptions C24_single.

(** Adding it, for any of the variables, leaves the expected loss what it is without it (C23), up to first derivatives. *)
Theorem C24_unbiased : forall (V S X : Type) (veq : V -> V -> bool) anc_unwrap (o : sops V), is_ring o -> forall (o_exp : V -> V) (o_divn : V -> nat -> V),
  evaluates o o_exp -> (forall x y, o_exp (o_add o x y) = o_mul o (o_exp x) (o_exp y)) -> first_order o ->
  forall (pg : program V X) (nodes : @world X -> nat -> @snode V S) h univ costs FP T anc bl cp q cost sg base,
  program_ok o o_exp pg -> costs <> [] -> closed_under (h_parents h) univ -> incl costs univ ->
  (forall w c, In c costs -> score_setup veq anc_unwrap o o_exp (nodes w) h c (FP c) (anc c) bl (fun a s => pg_logp pg a s (along pg w s)) /\
     splates (nd_t (nodes w c)) = cp c /\
     (forall a, In a (anc c) -> splates (nd_t (nodes w a)) = pg_plates pg a) /\
     forall s, in_range s (FP c) -> den (nd_t (nodes w c)) s [] = cost c s (along pg w s)) ->
  (forall c, In c costs -> depends_on o o_exp pg (FP c) (T c) (anc c) (cost c)) ->
  (forall c a f, In c costs -> In a (anc c) -> bl a = Some f ->
     f = batch_average veq anc_unwrap o o_divn /\ In (q a) (pg_plates pg a) /\ In (q a) (cp c) /\ 1 < pn (q a)) ->
  (forall w c a, In c costs -> In a (anc c) -> bl a <> None -> nd_name (nodes w a) = pname (q a) /\
     (forall n lp m, nd_sto (nodes w a) = Some (n, lp, true, Some m) -> n = pn (q a)) /\
     closed (kept (nd_t (nodes w c)) (pg_plates pg a))) ->
  exists loss : @world X -> V,
    (forall w, exists enough, forall fuel, enough <= fuel ->
       exists t, backward_value veq anc_unwrap o o_exp fuel h (nodes w) costs sg base = Ok t /\ shape t = [] /\ el t [] = loss w) /\
    forall w r, sampled o o_exp pg w loss =
      osum o (map (fun c => weighted_sum o false (FP c) (FP c) (fun s => mean o o_exp pg s r (cost c s)) (fun _ => 0)) costs).
Proof. exact (fun V S X veq anc o H ex dv He Hx Hf => @batch_unbiased V S X veq anc o H ex dv He Hx Hf). Qed.
Print Assumptions C24_unbiased.

(** x ~ Bernoulli(sigmoid(t)) with two samples and any cost: the expected derivative with the batch-average baseline. *)
Definition rd_divn (x : RD) (n : nat) : RD := ((fst x / INR n)%R, (snd x / INR n)%R).
Example C24_witness : forall t0 (f : bool -> R), exists loss : @world bool -> RD,
  (forall w, exists enough, forall fuel, enough <= fuel ->
     exists t, backward_value rd_eq rd_anc rd_ops rd_exp fuel b_heap
       (b_nodes rd_eq rd_anc rd_ops rd_exp d_half (d_lgp t0) d_val (Some (batch_average rd_eq rd_anc rd_ops rd_divn))
          (b_cost d_half (fun b => (f b, 0%R)) w) w) [1] tt 100 = Ok t /\ shape t = [] /\ el t [] = loss w) /\
  forall w, sampled rd_ops rd_exp (d_prog t0 d_plate) w loss =
    ((sig t0 * f true + (1 - sig t0) * f false)%R, (sig t0 * (1 - sig t0) * (f true - f false))%R).
Proof.
  intros t0 f. set (fd := fun b => (f b, 0%R)).
  destruct (C24_unbiased RD unit bool rd_eq rd_anc rd_ops rd_ring rd_exp rd_divn rd_evaluates rd_exp_add rd_first (d_prog t0 d_plate)
    (fun w => b_nodes rd_eq rd_anc rd_ops rd_exp d_half (d_lgp t0) d_val (Some (batch_average rd_eq rd_anc rd_ops rd_divn)) (b_cost d_half fd w) w)
    b_heap [0; 1] [1] (fun _ => [d_plate]) (fun _ => [0]) (fun _ => [0]) (fun _ => Some (batch_average rd_eq rd_anc rd_ops rd_divn)) (fun _ => [d_plate])
    (fun _ => d_plate) (fun _ _ r => fd (r 0)) tt 100) as [loss [H1 H2]].
  - apply d_program_ok.
  - discriminate.
  - exact d_closed.
  - intros x [<-|[]]. simpl. auto.
  - intros w c [<-|[]]. split; [apply d_setup|]. split; [reflexivity|]. split; [intros a [<-|[]]; reflexivity|]. intros s _. apply d_den.
  - intros c [<-|[]]. apply d_depends.
  - intros c a g _ _ E. injection E as <-. split; [reflexivity|]. split; [now left|]. split; [now left|]. simpl. lia.
  - intros w c a [<-|[]] [<-|[]] _. split; [reflexivity|]. split; [intros n lp m E; injection E as <- _ _; reflexivity|].
    intros p' q Hp Hq. apply filter_In in Hp. destruct Hp as [[<-|[]] _]. destruct Hq.
  - exists loss. split; [exact H1|]. intros w. rewrite (H2 w (fun _ => true)). clear. cbn -[rd_exp rd_ops d_lgp d_val fd].
    change (SpecProgram.prob rd_exp (d_prog t0 d_plate) 0) with (fun (s : assignment) (r : nat -> bool) x => rd_exp (d_lgp t0 (d_val (put r 0 x 0)))). cbv beta.
    rewrite !put_same, !d_prob. unfold rd_ops, dual_ops, real_ops, fd, weight_at, d_half. cbn. f_equal; field.
Qed.

(** C25. The moving average a call returns is the exponentially decayed average of the average costs seen so far by the same
    baseline object, including the current one. *)
Theorem C25_decayed_average : forall (V : Type) (veq : V -> V -> bool) anc_unwrap (o : sops V), is_ring o -> forall d : V,
  forall cs x c key sg base, averageable veq c -> (forall c, In c cs -> averageable veq (snd (fst c))) ->
  (forall k, shape (sg k) = []) ->
  exists sg' z sg'', calls veq anc_unwrap o d cs sg base = Ok sg' /\ moving_average veq anc_unwrap o d x c key sg' base = Ok (PRaw z, sg'') /\
    shape z = [] /\
    el z [] = decayed o d (el (sg key) []) (map (fun c => average o (snd (fst c))) (filter (fun c => String.eqb (snd c) key) cs) ++ [average o c]).
Proof. exact (fun V veq anc o H d => @baseline_spec V veq anc o H d). Qed.
Print Assumptions C25_decayed_average.

(** Two calls on one baseline and one on another: cost 3 (2 + 4) and 3 (6 + 8), decay 5, starting from 1. *)
Definition m_cost (a b : Z) : stensor D := mkS 1 (mkten [2] (fun i => match i with [0] => (a, 7)%Z | _ => (b, 0)%Z end)) [w_x] 1 [] [0] false.
Definition m_x : @sample D := mkSample t_x "x" 2 (w_lp w_prm).
Lemma m_averageable : forall a b, averageable w_eq (m_cost a b).
Proof.
  intros a b. assert (S : sound w_eq [w_x]).
  { assert (A : forall p, ancestry [w_x] p -> p = w_x) by (intros p Hp; apply ancestry_ups in Hp; simpl in Hp; intuition).
    constructor.
    - split; [|split].
      + repeat constructor; simpl; intuition discriminate.
      + intros p [<-|[]]; repeat constructor; simpl; intuition discriminate.
      + intros p q Hp Hq _. apply A in Hp. apply A in Hq. now subst.
    - intros p q Hp Hq _. apply A in Hp. apply A in Hq. now subst.
    - intros p Hp. apply A in Hp. now subst.
    - intros p Hp. apply A in Hp. subst. simpl. lia. }
  constructor.
  - exact S.
  - constructor; try reflexivity; simpl; [repeat constructor; simpl; intuition discriminate|intros p H; intuition (subst; simpl; lia)].
  - reflexivity.
  - intros p q [<-|[]] Hq. destruct Hq.
  - intros [c [Hne [Hi Hp]]]. destruct c as [|q c]; [congruence|]. destruct (Hp q (or_introl eq_refl)) as [p [Hpc H]].
    specialize (Hi q (or_introl eq_refl)). destruct Hi as [<-|[]]. exact H.
  - intros p [<-|[]]. split; [left; reflexivity|intros H; exact H].
Qed.
Example C25_witness : averageable w_eq (m_cost 2 4) /\
  average w_ops (m_cost 2 4) = (18, 0)%Z /\
  decayed w_ops (5, 0)%Z (1, 0)%Z [(18, 0)%Z; (42, 0)%Z] = (25 + 5 * (-4 * 18) + -4 * 42, 0)%Z /\
  match calls w_eq w_anc w_ops (5, 0)%Z [(m_x, m_cost 2 4, "a"); (m_x, m_cost 0 0, "b")] (fun _ => tscalar (1, 0)%Z) 100 with
  | Ok sg => match moving_average w_eq w_anc w_ops (5, 0)%Z m_x (m_cost 6 8) "a" sg 100 with
             | Ok (PRaw z, _) => el z [] = (25 + 5 * (-4 * 18) + -4 * 42, 0)%Z
             | _ => False
             end
  | _ => False
  end.
Proof. split; [apply m_averageable|]. vm_compute. auto. Qed.

(** With decay between 0 and 1 it stays between the bounds of the costs and its start, 0 for a new baseline. *)
Theorem C25_between : forall (V : Type) (o : sops V), is_ring o -> forall d : V,
  forall le, ordered o le -> le (o_zero o) d -> le (o_zero o) (o_sub o (o_one o) d) ->
  forall cs m lo hi, (forall c, In c (m :: cs) -> le (o_zero o) (o_sub o c lo) /\ le (o_zero o) (o_sub o hi c)) ->
  le (o_zero o) (o_sub o (decayed o d m cs) lo) /\ le (o_zero o) (o_sub o hi (decayed o d m cs)).
Proof. exact (fun V o H d => @decayed_between V o H d). Qed.
Print Assumptions C25_between.

(** The gradient is not unbiased: the average includes the current cost. With two samples the expected derivative is
    1 - (1-d)/2 times the right one, for every decay d, cost f, parameter t0 and average m so far. *)
Theorem C25_refuted : forall t0 (f : bool -> R) d m, exists loss : @world bool -> RD,
  (forall w, exists t, backward_value rd_eq rd_anc rd_ops rd_exp 20 b_heap
     (b_nodes rd_eq rd_anc rd_ops rd_exp d_half (d_lgp t0) d_val (Some (moving_average rd_eq rd_anc rd_ops (d, 0%R)))
        (b_cost d_half (fun b => (f b, 0%R)) w) w) [1] (fun _ => tscalar (m, 0%R)) 100 = Ok t /\ el t [] = loss w) /\
  forall w, snd (sampled rd_ops rd_exp (d_prog t0 d_plate) w loss) = ((1 - (1 - d) / 2) * (sig t0 * (1 - sig t0) * (f true - f false)))%R.
Proof. exact moving_average_scales. Qed.
Print Assumptions C25_refuted.

(** C26. A baseline that does not depend on the sample it is the baseline of leaves the expected loss unchanged up to first
    derivatives. Missing for the full claim: higher derivatives, which change (C26_refuted). *)
Theorem C26_first_order_partial : forall (V S X : Type) (veq : V -> V -> bool) anc_unwrap (o : sops V), is_ring o -> forall (o_exp : V -> V),
  evaluates o o_exp -> (forall x y, o_exp (o_add o x y) = o_mul o (o_exp x) (o_exp y)) -> first_order o ->
  forall (pg : program V X) (nodes : @world X -> nat -> @snode V S) h univ costs FP T anc bl bp b cost sg base,
  program_ok o o_exp pg -> costs <> [] -> closed_under (h_parents h) univ -> incl costs univ ->
  (forall w c, In c costs -> score_setup veq anc_unwrap o o_exp (nodes w) h c (FP c) (anc c) bl (fun a s => pg_logp pg a s (along pg w s)) /\
     (forall a, In a (anc c) -> splates (nd_t (nodes w a)) = pg_plates pg a) /\
     forall s, in_range s (FP c) -> den (nd_t (nodes w c)) s [] = cost c s (along pg w s)) ->
  (forall c, In c costs -> depends_on o o_exp pg (FP c) (T c) (anc c) (cost c)) ->
  (forall w c a f, In c costs -> In a (anc c) -> bl a = Some f ->
     baseline_gives o (FP c) (nodes w) c a f (fun sg bp' bf sg' => sg' = sg /\ bp' = bp c a /\ bf = b c a w)) ->
  (forall c a s, In c costs -> In a (anc c) -> bl a <> None -> in_range s (FP c) ->
     independent pg a (map (fun p => s (pname p)) (pg_plates pg a)) (fun w => b c a w s)) ->
  exists loss : @world X -> V,
    (forall w, exists enough, forall fuel, enough <= fuel ->
       exists t, backward_value veq anc_unwrap o o_exp fuel h (nodes w) costs sg base = Ok t /\ shape t = [] /\ el t [] = loss w) /\
    forall w r, sampled o o_exp pg w loss =
      osum o (map (fun c => weighted_sum o false (FP c) (FP c) (fun s => mean o o_exp pg s r (cost c s)) (fun _ => 0)) costs).
Proof. exact (fun V S X veq anc o H ex He Hx Hf => @baseline_unbiased V S X veq anc o H ex He Hx Hf). Qed.
Print Assumptions C26_first_order_partial.

(** A constant baseline meets the hypotheses. *)
Example C26_witness : forall t0 (f : bool -> R) (b : R), exists loss : @world bool -> RD,
  (forall w, exists enough, forall fuel, enough <= fuel ->
     exists t, backward_value rd_eq rd_anc rd_ops rd_exp fuel b_heap
       (b_nodes rd_eq rd_anc rd_ops rd_exp d_half (d_lgp t0) d_val (Some (b_const (b, 0%R)))
          (b_cost d_half (fun b => (f b, 0%R)) w) w) [1] tt 100 = Ok t /\ shape t = [] /\ el t [] = loss w) /\
  forall w, sampled rd_ops rd_exp (d_prog t0 d_plate) w loss =
    ((sig t0 * f true + (1 - sig t0) * f false)%R, (sig t0 * (1 - sig t0) * (f true - f false))%R).
Proof.
  intros t0 f b. set (fd := fun b => (f b, 0%R)).
  destruct (C26_first_order_partial RD unit bool rd_eq rd_anc rd_ops rd_ring rd_exp rd_evaluates rd_exp_add rd_first (d_prog t0 d_plate)
    (fun w => b_nodes rd_eq rd_anc rd_ops rd_exp d_half (d_lgp t0) d_val (Some (b_const (b, 0%R))) (b_cost d_half fd w) w)
    b_heap [0; 1] [1] (fun _ => [d_plate]) (fun _ => [0]) (fun _ => [0]) (fun _ => Some (b_const (b, 0%R))) (fun _ _ => []) (fun _ _ _ _ => (b, 0%R))
    (fun _ _ r => fd (r 0)) tt 100) as [loss [H1 H2]].
  - apply d_program_ok.
  - discriminate.
  - exact d_closed.
  - intros x [<-|[]]. simpl. auto.
  - intros w c [<-|[]]. split; [apply d_setup|]. split; [intros a [<-|[]]; reflexivity|]. intros s _. apply d_den.
  - intros c [<-|[]]. apply d_depends.
  - intros w c a g _ _ E. injection E as <-. intros np rc nm n lp sg base _ _ _ r m _.
    exists (PRaw (tscalar (b, 0%R))), [], (fun _ => (b, 0%R)), sg. split; [reflexivity|]. split; [split; [reflexivity|split; reflexivity]|].
    split; [intros p []|]. split; [intros p q []|]. split; [constructor|auto].
  - intros c a s _ _ _ _. exists (fun _ _ => false). repeat split; auto.
  - exists loss. split; [exact H1|]. intros w. rewrite (H2 w (fun _ => true)). clear. cbn -[rd_exp rd_ops d_lgp d_val fd].
    change (SpecProgram.prob rd_exp (d_prog t0 d_plate) 0) with (fun (s : assignment) (r : nat -> bool) x => rd_exp (d_lgp t0 (d_val (put r 0 x 0)))). cbv beta.
    rewrite !put_same, !d_prob. unfold rd_ops, dual_ops, real_ops, fd, weight_at, d_half. cbn. f_equal; field.
Qed.

(** A constant baseline [b] does change the second derivative: the expected loss is F(t) - b (sig(t) - sig(t0))^2 / (sig(t0)
    (1 - sig(t0))), whose second derivative at t0 differs from that of the expected cost F by -2 b sig(t0) (1 - sig(t0)). *)
Theorem C26_refuted : forall t0 (f : bool -> R -> R) (b : R),
  let F t := (sig t * f true t + (1 - sig t) * f false t)%R in
  exists (loss : @world bool -> R -> R) (gap gap' : R -> R),
  (forall w, exists t, backward_value c_eq c_anc (curve_ops t0) curve_exp 20 b_heap
     (b_nodes c_eq c_anc (curve_ops t0) curve_exp k_half k_lgp k_val (Some (b_const (fun _ => b))) (b_cost k_half f w) w) [1] tt 100 = Ok t /\ el t [] = loss w) /\
  (forall w t, sampled (curve_ops t0) curve_exp k_prog w loss t = (F t + gap t)%R) /\
  (forall t, derivable_pt_lim gap t (gap' t)) /\ gap' t0 = 0%R /\ derivable_pt_lim gap' t0 (- (2 * b * (sig t0 * (1 - sig t0))))%R.
Proof.
  intros t0 f b F. destruct (constant_baseline t0 f b) as [loss [H1 H2]]. exists loss.
  exists (fun t => (- b * ((sig t - sig t0) * (sig t - sig t0) / (sig t0 * (1 - sig t0))))%R).
  exists (fun t => (- b * (2 * (sig t - sig t0) * (sig t * (1 - sig t)) / (sig t0 * (1 - sig t0))))%R).
  split; [exact H1|]. split; [|exact (constant_second t0 b)].
  intros w t. rewrite H2. unfold k_F, F. cbn [k_p]. ring.
Qed.
Print Assumptions C26_refuted.

(** C27. False: the expected derivative of the cost averaged over its two samples before it is registered is half of that of
    the cost, for every cost and parameter. *)
Theorem C27_refuted : forall t0 (f : bool -> R), exists direct mean : @world bool -> RD,
  let fd b := (f b, 0%R) in
  (forall w, exists t, backward_value rd_eq rd_anc rd_ops rd_exp 20 b_heap
     (b_nodes rd_eq rd_anc rd_ops rd_exp d_half (d_lgp t0) d_val (S := unit) None (b_cost d_half fd w) w) [1] tt 100 = Ok t /\ el t [] = direct w) /\
  (forall w, exists t, backward_value rd_eq rd_anc rd_ops rd_exp 20 b_heap
     (b_nodes rd_eq rd_anc rd_ops rd_exp d_half (d_lgp t0) d_val (S := unit) None (b_mean rd_eq rd_anc rd_ops d_half fd w) w) [1] tt 100 = Ok t /\ el t [] = mean w) /\
  forall w, snd (sampled rd_ops rd_exp (d_prog t0 d_plate) w direct) = (sig t0 * (1 - sig t0) * (f true - f false))%R /\
            snd (sampled rd_ops rd_exp (d_prog t0 d_plate) w mean) = (sig t0 * (1 - sig t0) * (f true - f false) / 2)%R.
Proof. exact averaging_scales. Qed.
Print Assumptions C27_refuted.
