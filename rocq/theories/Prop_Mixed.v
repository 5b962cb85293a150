(** C78: the surrogate loss of programs that mix the score function with pathwise and exact methods. *)
From Coq Require Import String List Arith Bool ZArith Lia Permutation.
From Verif Require Import Base Torch Plates Wrap Scalar Reduce Graph Surrogate SpecTensor SpecWrap SpecOrder SpecReduce SpecGraph SpecSurrogate SpecMixed Estimators Dual
  OrderProofs ReduceProofs2 SurrogateProofs SurrogateProofs2 SurrogateProofs3 SurrogateWitness MixedProofs.
Import ListNotations.
Open Scope string_scope.
Open Scope nat_scope.
Open Scope list_scope.

(** C78. Every cost is multiplied by the magic box of the log-probabilities of its ancestors with the score function, and of no others; the products are
    summed, with their weights, over the plates of the cost and of those ancestors. *)
Theorem C78_mixed_loss : forall (V S : Type) (veq : V -> V -> bool) anc_unwrap (o : sops V) (o_exp : V -> V), is_ring o ->
  forall (nodes : nat -> @snode V S) h univ costs FP anc score sg base,
  closed_under (h_parents h) univ -> incl costs univ -> costs <> [] ->
  (forall c, In c costs -> mixed_setup veq anc_unwrap o o_exp nodes h c (FP c) (anc c) score) ->
  exists enough, forall fuel, enough <= fuel ->
  exists r, surrogate_loss veq anc_unwrap o o_exp fuel h nodes costs sg base = Ok (PT r, sg) /\ splates r = [] /\ shape (st r) = [] /\
    el (st r) [] = osum o (map (fun c => total o (FP c) (involved nodes (anc c) c) (fun s =>
      o_mul o (box o o_exp (osum o (map (fun a => score a s) (anc c)))) (den (nd_t (nodes c)) s []))) costs).
Proof. exact (fun V S veq anc o ex H => @mixed_loss V S veq anc o H ex). Qed.
Print Assumptions C78_mixed_loss.

(** Without score functions what backward returns is exactly (also as a function of the parameters) the sum of the costs, each summed with the weights of
    its own plates. *)
Theorem C78_quiet_loss : forall (V S : Type) (veq : V -> V -> bool) anc_unwrap (o : sops V) (o_exp : V -> V), is_ring o -> evaluates o o_exp ->
  forall (nodes : nat -> @snode V S) h univ costs FP sg base,
  closed_under (h_parents h) univ -> incl costs univ -> costs <> [] ->
  (forall c, In c costs -> mixed_setup veq anc_unwrap o o_exp nodes h c (FP c) [] (fun _ _ => o_zero o)) ->
  exists enough, forall fuel, enough <= fuel ->
  exists t, backward_value veq anc_unwrap o o_exp fuel h nodes costs sg base = Ok t /\ shape t = [] /\
    el t [] = osum o (map (fun c => weighted_sum o false (splates (nd_t (nodes c))) (splates (nd_t (nodes c))) (fun s => den (nd_t (nodes c)) s []) (fun _ => 0)) costs).
Proof. exact (fun V S veq anc o ex H He => @quiet_loss V S veq anc o H ex He). Qed.
Print Assumptions C78_quiet_loss.

(** The witness program of C22, with the score function for x ([b] = true) or a pathwise method, and for y a method whose estimator returns nothing, such as
    Expect. *)
Definition no_terms (pathwise : bool) : @meth D unit := mkMeth (fun _ _ => Ok pathwise) (fun _ _ _ sg _ => Ok (None, None, sg)).
Definition mix_method (b : bool) : @meth D unit := if b then score_method w_eq w_anc w_ops w_exp None else no_terms true.
Definition mix_nodes (b : bool) (i : nat) : @snode D unit :=
  match i with
  | 0 => mkNode t_x "x" (Some (2, w_lp w_prm, true, Some (mix_method b)))
  | 1 => mkNode t_y "y" (Some (3, w_lp w_prm', true, Some (no_terms false)))
  | _ => mkNode t_c "cost" None
  end.
Lemma mix_setup : forall (b : bool) score, (b = true -> score = w_score) ->
  mixed_setup w_eq w_anc w_ops w_exp (mix_nodes b) w_heap 2 w_plates (if b then [0] else []) score.
Proof.
  intros b score Hsc. pose proof (w_setup None) as [S1 S2 S3 S4 S5 S6 S7 S8 S9 S10]. constructor; auto.
  - destruct b; repeat constructor; simpl; tauto.
  - intros a Hr. apply w_reach in Hr. destruct Hr as [-> | [-> | ->]].
    + destruct b; [right|left].
      * split; [exact (Sc_path (mix_nodes true) 2 0 2 (w_lp w_prm) (mix_method true) false eq_refl eq_refl)|]. split; [exact w_over_x|right; now left].
      * exact (Sc_path (mix_nodes false) 2 0 2 (w_lp w_prm) (mix_method false) true eq_refl eq_refl).
    + right. split; [exact (Sc_path (mix_nodes b) 2 1 3 (w_lp w_prm') (no_terms false) false eq_refl eq_refl)|]. split; [exact w_over_y|].
      left. exists 3, (w_lp w_prm'), (no_terms false). auto.
    + left. now apply Sc_det.
  - intros a Ha. destruct b; [|destruct Ha]. destruct Ha as [<-|[]]. split; [|exact (Sc_path (mix_nodes true) 2 0 2 (w_lp w_prm) (mix_method true) false eq_refl eq_refl)].
    apply (S6 0). now left.
  - intros a Ha. destruct b; [|destruct Ha]. destruct Ha as [<-|[]]. rewrite Hsc by reflexivity. exact (S9 0 (or_introl eq_refl)).
Qed.
Example C78_witness :
  mixed_setup w_eq w_anc w_ops w_exp (mix_nodes true) w_heap 2 w_plates [0] w_score /\
  mixed_setup w_eq w_anc w_ops w_exp (mix_nodes false) w_heap 2 w_plates [] (fun _ _ => o_zero w_ops) /\
  closed_under (h_parents w_heap) [0; 1; 2] /\
  match surrogate_loss w_eq w_anc w_ops w_exp 20 w_heap (mix_nodes true) [2] tt 100, backward_value w_eq w_anc w_ops w_exp 20 w_heap (mix_nodes false) [2] tt 100 with
  | Ok (PT r, _), Ok t => (el (st r) [], el t []) = ((1362, 4194)%Z, (1362, 54)%Z)
  | _, _ => False
  end.
Proof.
  split; [exact (mix_setup true w_score (fun _ => eq_refl))|]. split; [apply (mix_setup false); discriminate|]. split; [apply w_closed|]. vm_compute. reflexivity.
Qed.
