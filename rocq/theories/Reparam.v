(** Programs with Reparameterization, GumbelSoftmax or Infer (storch/method/method.py): one variable is sampled, a cost is computed from it, and
    backward is called. *)
From Coq Require Import String List Arith Bool ZArith.
From Verif Require Import Base Torch Plates Wrap OrderPlates Scalar Reduce Graph Sampling Surrogate Arm Relax.
Import ListNotations.
Open Scope string_scope.
Open Scope nat_scope.
Open Scope list_scope.

Section ReparamModel.
Context {V : Type}.
Variable veq : V -> V -> bool.
Variable anc_unwrap : plate V -> stensor V -> res (stensor V).
Variable o : sops V.
Variable o_exp : V -> V.
Variable recip : nat -> V.

(** Reparameterization.reparam_sample (storch/method/method.py:335-347): distr.rsample((amt_samples,)) of a distribution with has_rsample and the
    event (and batch) shape [ev]. The components of a sample are functions [G] of the noise of the sample, [u], and of the parameters. *)
Definition reparam_rsample (ev : list nat) (G : (list nat -> V) -> list nat -> V) (u : list nat -> V) (k : nat) : res (ten V) :=
  Ok (mkten (k :: ev) (fun i => G (fun e => u (hd 0 i :: e)) (tl i))).

(** GumbelSoftmax.sample_gumbel (storch/method/method.py:377-387) is Relax.v's [rsample_gumbel_softmax]. With straight_through (storch/util.py:236-239)
    it is the rsample of pyro's RelaxedOneHotCategoricalStraightThrough: the value of the rounded sample, with the gradient of the relaxed one. *)
Definition straight_rsample (o_exp : V -> V) (r : rops V) (tau : V) (u probs : ten V) : res (ten V) :=
  do s <- rsample_gumbel_softmax o o_exp r tau u probs;
  let h := discretize o r s in
  Ok (mkten (shape s) (fun i => o_add o (o_det o (el h i)) (o_sub o (el s i) (o_det o (el s i))))).

(** Tensor 0 is the sample, tensor 1 the cost. *)
Definition pathwise_graph : heap := fold_left (fun h ps => construct ps h) [[]; [0]] empty_heap.
(** Reparameterization and GumbelSoftmax: is_pathwise (storch/method/method.py:325-333, 389-397), Method.estimator (198-220); [check] is
    storch.CHECK_DIFFERENTIABLE_PATH. *)
Definition reparam_method (check : bool) : @meth V unit := mkMeth (reparam_is_pathwise 20 check pathwise_graph) (fun _ _ _ sg _ => Ok (None, None, sg)).
(** Infer: is_pathwise (storch/method/method.py:300-306); the estimator (288-291) is that of "self._score_method", a ScoreFunction without
    baseline (285). *)
Definition infer_method : @meth V unit := mkMeth (infer_is_pathwise 20 pathwise_graph) (score_estimator veq anc_unwrap o o_exp None).

(** distribution.log_prob of a distribution without event dimensions: [L e x] is the logarithm of the density of component [e] at [x]. *)
Definition components_log_prob (L : list nat -> V -> V) (x : stensor V) (base : nat) : res (pyval V) :=
  handle_deterministic veq anc_unwrap top_ctx (torch_fn1 (fun t => Ok (mkten (shape t) (fun i => L (skipn (s_plate_dims x) i) (el t i))))) [PT x] [] [] default_opts base.

Definition pathwise_tensors (name : string) (n : nat) (m : @meth V unit) (lp : stensor V -> nat -> res (pyval V)) (F : (list nat -> V) -> V) (x : stensor V) (i : nat)
  : @snode V unit :=
  match i with
  | 0 => mkNode x name (Some (n, lp, true, Some m))
  | _ => mkNode (sample_cost 1 F x) "cost" None
  end.
(** [mc] is what the method draws; the parameters are torch tensors that require a gradient. *)
Definition pathwise_program (name : string) (n : nat) (m : @meth V unit) (lp : stensor V -> nat -> res (pyval V)) (F : (list nat -> V) -> V) (mc : nat -> res (ten V))
  (base : nat) : res (ten V) :=
  do (x, _) <- method_sample veq recip name n mc None None [ParT true] [] [] 0;
  backward_value veq anc_unwrap o o_exp 20 pathwise_graph (pathwise_tensors name n m lp F x) [1] tt base.
End ReparamModel.
