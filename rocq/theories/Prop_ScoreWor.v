(** C35: the score function for sampling without replacement. *)
From Coq Require Import String List Arith Bool ZArith Lia Reals Lra Permutation.
From Verif Require Import Base Torch Plates Wrap OrderPlates Scalar Reduce Graph Surrogate Estimators ScoreWor SpecTensor SpecWrap SpecOrder
  SpecReduce SpecGraph SpecSurrogate SpecScoreWor Dual BiasProofs2 ReduceProofs2 ScoreWorProofs ScoreWorProofs2 ScoreWorProofs3.
Import ListNotations.
Open Scope string_scope.
Open Scope nat_scope.
Open Scope list_scope.

(** The weight, probability and cost of the samples of plate [P] when the other plates are at [s] are [samples_of W s],
    [exp (samples_of L s)] and [samples_of C s]: the estimator returns the term of equation 9, 10 or 11, over the plates of
    the log-probabilities and the cost other than [P], and no control variate. *)
Theorem C35_estimator : forall (V S : Type) (veq : V -> V -> bool) anc_unwrap (o : sops V) (o_exp : V -> V) o_div eps
  P pl0 (lp : stensor V) pert, 1 < pn P -> wf lp -> splates lp = pl0 ++ [P] -> s_event_shape lp = [] -> shape pert = shape (st lp) ->
  forall FP, sound veq FP -> incl (pl0 ++ [P]) FP ->
  forall biased use_baseline x (c : stensor V) ql C nm (sg : S) base, stands (PT c) ql C -> incl ql FP -> In P ql -> ext C ->
  exists g gp, wor_estimator veq anc_unwrap o o_exp o_div eps (pname P) biased use_baseline lp pert x c nm sg base = Ok (pair_of (PT g) PNone, sg) /\
    stands (PT g) gp (fun s => wor_term o o_div biased use_baseline (pn P)
      (samples_of P (W o o_exp o_div eps P pl0 lp pert) s) (fun i => o_exp (samples_of P (L lp) s i)) (samples_of P C s)) /\
    incl gp FP /\ (forall y, In y (map pname gp) <-> (In y (map pname (pl0 ++ [P])) \/ In y (map pname ql)) /\ y <> pname P).
Proof. exact (fun V S veq anc o ex dv eps => @wor_spec V S veq anc o ex dv eps). Qed.
Print Assumptions C35_estimator.

(** C35 for the term the estimator returns: scaling the cost by a constant [a] (one that detaching leaves alone) scales the
    term by [a]. Missing for the full claim: the surrogate loss multiplies this term by the cost again, and the gradient the
    program gets is not linear (below). *)
Theorem C35_linear_partial : forall (V S : Type) (veq : V -> V -> bool) anc_unwrap (o : sops V) (o_exp : V -> V) o_div eps, is_ring o ->
  forall P pl0 (lp : stensor V) pert FP a, 1 < pn P -> wf lp -> splates lp = pl0 ++ [P] -> s_event_shape lp = [] -> shape pert = shape (st lp) ->
  sound veq FP -> incl (pl0 ++ [P]) FP ->
  (forall x, o_det o (o_mul o a x) = o_mul o a (o_det o x)) -> (forall x y, o_div (o_mul o a x) y = o_mul o a (o_div x y)) ->
  forall biased use_baseline x (c c' : stensor V) ql C nm nm' (sg : S) base base', incl ql FP -> In P ql -> ext C ->
  stands (PT c) ql C -> stands (PT c') ql (fun s => o_mul o a (C s)) ->
  exists g g' gp f, wor_estimator veq anc_unwrap o o_exp o_div eps (pname P) biased use_baseline lp pert x c nm sg base = Ok (pair_of (PT g) PNone, sg) /\
    wor_estimator veq anc_unwrap o o_exp o_div eps (pname P) biased use_baseline lp pert x c' nm' sg base' = Ok (pair_of (PT g') PNone, sg) /\
    stands (PT g) gp f /\ exists gp', stands (PT g') gp' (fun s => o_mul o a (f s)) /\ incl gp FP /\ incl gp' FP /\
    (forall y, In y (map pname gp) <-> In y (map pname gp')).
Proof. exact wor_estimator_linear. Qed.
Print Assumptions C35_linear_partial.

(** Three samples with probability 1/4; the cost and twice the cost. *)
Example C35_witness : let P := wor_plate rd_ops rd_exp rd_div (0, 0)%R "z" 7 true wq_lp wq_pert in
  let lp := wor_row rd_ops 2 P wq_lp [] in
  1 < pn P /\ wf lp /\ splates lp = [] ++ [P] /\ s_event_shape lp = [] /\ shape (wrow rd_ops wq_pert) = shape (st lp) /\ sound rd_eq [P] /\
  (forall x, o_det rd_ops (o_mul rd_ops (2, 0)%R x) = o_mul rd_ops (2, 0)%R (o_det rd_ops x)) /\
  (forall x y, rd_div (o_mul rd_ops (2, 0)%R x) y = o_mul rd_ops (2, 0)%R (rd_div x y)) /\
  stands (PT (wor_row rd_ops 1 P wq_cost [0])) [P] (fun s => nth (s "z") wq_cost (o_zero rd_ops)) /\
  stands (PT (wor_row rd_ops 1 P (scaled 2 wq_cost) [0])) [P] (fun s => o_mul rd_ops (2, 0)%R (nth (s "z") wq_cost (o_zero rd_ops))).
Proof.
  cbv zeta. assert (H2 : 2 <= length wq_lp) by (simpl; lia).
  split; [simpl; lia|]. split; [now apply row_wf with (cost := wq_cost)|]. split; [reflexivity|].
  split; [now apply row_event with (cost := wq_cost)|]. split; [reflexivity|].
  split; [now apply (P_sound rd_eq rd_anc) with (cost := wq_cost)|]. split; [intros; apply rd_scale_det|]. split; [intros; apply rd_scale_div|].
  split; [now apply row_stands with (cost := wq_cost)|].
  eapply SurrogateProofs.stands_ext; [now apply row_stands with (cost := wq_cost)|]. intros s Hs. apply nth_scaled.
Qed.

(** C35 is false of the gradient: when the cost of every sample is a constant, scaling it by [s] scales the derivative of the
    loss by [s * s], whichever equation is used. *)
Theorem C35_quadratic_refuted : forall (S : Type) name obj biased use_baseline lp pert x cost eps s (sg : S) base,
  2 <= length lp -> length pert = length lp -> (exists ev, shape x = length lp :: ev) -> length cost = length lp ->
  (forall c, In c cost -> snd c = 0%R) ->
  exists t t',
    backward_value rd_eq rd_anc rd_ops rd_exp 20 wor_heap
      (wor_nodes rd_eq rd_anc rd_ops rd_exp rd_div eps name obj biased use_baseline lp pert x cost) [1] sg base = Ok t /\
    backward_value rd_eq rd_anc rd_ops rd_exp 20 wor_heap
      (wor_nodes rd_eq rd_anc rd_ops rd_exp rd_div eps name obj biased use_baseline lp pert x (scaled s cost)) [1] sg base = Ok t' /\
    snd (el t' []) = (s * s * snd (el t []))%R.
Proof. exact wor_scaled. Qed.
Print Assumptions C35_quadratic_refuted.

(** A program, for every setting of [biased] and [use_baseline], whose derivative is not zero: twice the cost does not give
    twice the gradient. *)
Theorem C35_linear_refuted : forall (S : Type) name obj biased use_baseline x e (sg : S) base, (exists ev, shape x = 3 :: ev) -> (0 <= e)%R ->
  exists t t',
    backward_value rd_eq rd_anc rd_ops rd_exp 20 wor_heap
      (wor_nodes rd_eq rd_anc rd_ops rd_exp rd_div (e, 0)%R name obj biased use_baseline wq_lp wq_pert x wq_cost) [1] sg base = Ok t /\
    backward_value rd_eq rd_anc rd_ops rd_exp 20 wor_heap
      (wor_nodes rd_eq rd_anc rd_ops rd_exp rd_div (e, 0)%R name obj biased use_baseline wq_lp wq_pert x (scaled 2 wq_cost)) [1] sg base = Ok t' /\
    snd (el t' []) <> (2 * snd (el t []))%R.
Proof.
  intros S name obj biased ub x e sg base Hx He.
  destruct (wq_nonzero S name obj biased ub x e sg base Hx He) as [u [U1 U2]].
  destruct (C35_quadratic_refuted S name obj biased ub wq_lp wq_pert x wq_cost (e, 0)%R 2 sg base) as [t [t' [E1 [E2 E3]]]]; auto.
  - simpl. lia.
  - intros c [<-|[<-|[<-|[]]]]; reflexivity.
  - exists t, t'. split; [exact E1|]. split; [exact E2|]. rewrite E3. rewrite U1 in E1. injection E1 as <-. lra.
Qed.
Print Assumptions C35_linear_refuted.

(** C45 for ScoreFunctionWOR: on a cost that has its plate it returns a pair. *)
Theorem C45_without_replacement : forall (V S : Type) (veq : V -> V -> bool) anc_unwrap (o : sops V) (o_exp : V -> V) o_div eps
  P pl0 (lp : stensor V) pert FP, 1 < pn P -> wf lp -> splates lp = pl0 ++ [P] -> s_event_shape lp = [] -> shape pert = shape (st lp) ->
  sound veq FP -> incl (pl0 ++ [P]) FP ->
  forall biased use_baseline x (c : stensor V) ql C nm (sg : S) base, stands (PT c) ql C -> incl ql FP -> In P ql -> ext C ->
  exists g, me_estimator (method_of (fun _ _ => Ok false) (wor_estimator veq anc_unwrap o o_exp o_div eps (pname P) biased use_baseline lp pert))
    x c nm sg base = Ok (Some (PT g), None, sg).
Proof.
  intros V S veq anc o ex dv eps P pl0 lp pert FP H1 H2 H3 H4 H5 H6 H7 b ub x c ql C nm sg base K1 K2 K3 K4.
  destruct (C35_estimator V S veq anc o ex dv eps P pl0 lp pert H1 H2 H3 H4 H5 FP H6 H7 b ub x c ql C nm sg base K1 K2 K3 K4) as [g [gp [E _]]].
  exists g. cbn [me_estimator method_of]. rewrite E. reflexivity.
Qed.
Print Assumptions C45_without_replacement.
