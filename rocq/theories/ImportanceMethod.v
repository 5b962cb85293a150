(** Sampling from a proposal: ImportanceSampling (storch/sampling/importance_sampling.py:13-65) as the sampling method of a Method
    (storch/method/method.py:96-190), and a program of one variable with it. *)
From Coq Require Import String List Arith Bool ZArith.
From Verif Require Import Base Torch Plates Wrap OrderPlates Scalar Reduce Graph Inference Sampling Surrogate Relax Reparam.
Import ListNotations.
Open Scope string_scope.
Open Scope nat_scope.
Open Scope list_scope.

Section ImportanceModel.
Context {V : Type}.
Variable veq : V -> V -> bool.
Variable anc_unwrap : plate V -> stensor V -> res (stensor V).
Variable o : sops V.
Variable o_exp : V -> V.
Variable o_div : V -> V -> V.
Variable o_num : nat -> V.
Variable recip : nat -> V.

(** "if plate not in plates: plates.insert(1, plate)" (storch/sampling/importance_sampling.py:21-24). *)
Definition insert_plate (plates : list (plate V)) (p : plate V) : list (plate V) :=
  if pin veq p plates then plates else insert_at 1 p plates.
(** add_prop_plates (storch/sampling/importance_sampling.py:13-24); [qparams] are the parameters of the proposal. *)
Definition add_prop_plates (qparams : list (@param V)) (plates : list (plate V)) : list (plate V) :=
  fold_left (fun plates q => match q with ParS a _ => fold_left insert_plate (splates a) plates | ParT _ => plates end) qparams plates.

(** mc_weighting_function (storch/sampling/importance_sampling.py:45-52): [lp] and [lq] are log_prob of the distribution and of the proposal, [n] is
    plate.n. A plate keeps the names of the plates of a weight that is a storch tensor (Plates.v). *)
Definition importance_weighting (lp lq : stensor V -> nat -> res (pyval V)) (n : nat) (x : stensor V) (base : nat) : res (weight V) :=
  do l <- lp x base;
  do true_prob <- torch_op1 veq anc_unwrap top_ctx o_exp l (base + 1);
  do l <- lq x (base + 2);
  do proposal_prob <- torch_op1 veq anc_unwrap top_ctx o_exp l (base + 3);
  do d <- torch_op1 veq anc_unwrap top_ctx (o_mul o (o_num n)) proposal_prob (base + 4);
  do w <- torch_op2 veq anc_unwrap top_ctx o_div true_prob d (base + 5);
  do w <- torch_op1 veq anc_unwrap top_ctx (o_det o) w (base + 6);
  do w <- as_tensor w;
  Ok (WStorch (sid w) (st w) (map pname (splates w))).

(** Method.sample (storch/method/method.py:96-190) with ImportanceSampling.sample (storch/sampling/importance_sampling.py:54-60): [mc] draws from the
    proposal (36-43). The plates are added to the list that the sample keeps, after the sample is made: its other attributes stay what they are. *)
Definition importance_sample (name : string) (n : nat) (mc : nat -> res (ten V)) (lp lq : stensor V -> nat -> res (pyval V)) (params qparams : list (@param V))
  (parents0 : list nat) (plates0 : list (plate V)) (id base : nat) : res (stensor V * bool) :=
  let '(parents, plates, rg) := collect_params veq params parents0 plates0 false in
  if existsb (fun p => String.eqb (pname p) name) plates then Err ValueError
  else
    do (x, p) <- monte_carlo recip name n mc parents plates id;
    let x := set_plates x (add_prop_plates qparams (splates x)) in
    do w <- importance_weighting lp lq (pn p) x base;
    Ok (set_plates x (match splates x with q :: l => reweigh w q :: l | [] => [] end), rg).

(** The program: n samples are drawn from the proposal, tensor 0; [F] of each is the cost, tensor 1; backward is called
    (storch/inference.py:77-230). The method is ScoreFunction without a baseline (storch/method/method.py:512-575). *)
Definition importance_program (fuel : nat) (name : string) (n : nat) (mc : nat -> res (ten V)) (lp lq : stensor V -> nat -> res (pyval V)) (F : (list nat -> V) -> V)
  (params qparams : list (@param V)) (base : nat) : res (ten V) :=
  do (x, _) <- importance_sample name n mc lp lq params qparams [] [] 0 base;
  backward_value veq anc_unwrap o o_exp fuel pathwise_graph (pathwise_tensors name n (score_method veq anc_unwrap o o_exp None) lp F x) [1] tt (base + 20).
End ImportanceModel.
