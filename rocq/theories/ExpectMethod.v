(** Sampling with Expect, and programs whose variables are all sampled with it: Enumerate (storch/sampling/expect.py), Method.sample
    (storch/method/method.py:96-190) and Expect (storch/method/method.py:578-580). *)
From Coq Require Import String List Arith Bool ZArith.
From Verif Require Import Base Torch Plates Wrap OrderPlates Scalar Reduce Graph Inference Sampling Surrogate Enumerate.
Import ListNotations.
Open Scope string_scope.
Open Scope nat_scope.
Open Scope list_scope.

Section ExpectModel.
Context {V : Type}.
Variable veq : V -> V -> bool.
Variable anc_unwrap : plate V -> stensor V -> res (stensor V).
Variable o : sops V.
Variable o_exp : V -> V.
Variable recip : nat -> V.

(** Enumerate.sample (storch/sampling/expect.py:16-76) for a distribution without event shape, with [e] values [value 0] .. [value (e-1)] (of which
    [value 0] is zero, as new_zeros fills it in) and batch shape [batch]; Enumerate.v computes the indices of the values. *)
Definition enumerate_sample (name : string) (e budget : nat) (value : nat -> V) (batch : list nat) (parents : list nat) (plates : list (plate V)) (id : nat)
  : res (stensor V * plate V) :=
  do (amt, f) <- enumerate e budget (length plates) batch;
  let t := mkten (amt :: batch) (fun i => value (f (hd 0 i) (tl i))) in
  let p := new_plate recip name amt plates None in
  do x <- mk_tensor id t parents (p :: plates) true;
  Ok (x, p).

(** Enumerate.weighting_function (storch/sampling/expect.py:78-87); [lp] is tensor.distribution.log_prob. The result is a storch tensor, of which a
    plate keeps the names of the plates (Plates.v). *)
Definition enumerate_weighting (lp : stensor V -> nat -> res (pyval V)) (x : stensor V) (base : nat) : res (weight V) :=
  do l <- lp x base;
  do a <- as_tensor l;
  do l <- (if s_plate_dims a <? ndim (st a)
           then sum_dims veq anc_unwrap o top_ctx (seq (s_plate_dims x) (ndim (st a) - s_plate_dims x)) (PT a) (base + 1) else Ok (PT a));
  do w <- torch_op1 veq anc_unwrap top_ctx o_exp l (base + 4);
  do w <- as_tensor w;
  Ok (WStorch (sid w) (st w) (map pname (splates w))).

(** Method.sample (storch/method/method.py:96-190) with Enumerate. The batch shape of the distribution consists of the dimensions of the plates of its
    parameters and of [sizes]. *)
Definition expect_sample (name : string) (e budget : nat) (value : nat -> V) (sizes : list nat) (lp : stensor V -> nat -> res (pyval V))
  (params : list (@param V)) (parents0 : list nat) (plates0 : list (plate V)) (id base : nat) : res (stensor V * bool) :=
  let '(parents, plates, rg) := collect_params veq params parents0 plates0 false in
  if existsb (fun p => String.eqb (pname p) name) plates then Err ValueError
  else
    do (x, p) <- enumerate_sample name e budget value (map pn (mdp plates) ++ sizes) parents plates id;
    do w <- enumerate_weighting lp x base;
    Ok (set_plates x (match splates x with q :: l => reweigh w q :: l | [] => [] end), rg).

(** Expect overrides nothing of Method: is_pathwise is false (storch/method/method.py:236-241) and the estimator returns nothing (201-220). *)
Definition expect_method : @meth V unit := mkMeth (fun _ _ => Ok false) (fun _ _ _ sg _ => Ok (None, None, sg)).

(** A variable of a program: its name, number of values, budget, shape and values; the parameters of its distribution, which the user computes from the
    samples of earlier variables; log_prob of the distribution. *)
Record evar : Type := mkVar {
  ev_name : string; ev_options : nat; ev_budget : nat; ev_sizes : list nat; ev_value : nat -> V;
  ev_params : list (stensor V) -> list (@param V);
  ev_lp : list (stensor V) -> stensor V -> nat -> res (pyval V) }.

(** The variables are sampled in order; sample [i] is tensor number [i]. *)
Fixpoint expect_samples (vars : list evar) (xs : list (stensor V)) (base : nat) : res (list (stensor V)) :=
  match vars with
  | [] => Ok xs
  | v :: r =>
      do (x, _) <- expect_sample (ev_name v) (ev_options v) (ev_budget v) (ev_value v) (ev_sizes v) (ev_lp v xs) (ev_params v xs) [] [] (length xs)
                     (base + 10 * length xs);
      expect_samples r (xs ++ [x]) base
  end.

(** Every sample and the cost may depend on all earlier samples; the deterministic tensors in between are left out of the graph, they get no term
    (storch/inference.py:132-134). *)
Definition expect_graph (k : nat) : heap := fold_left (fun h ps => construct ps h) (map (fun i => seq 0 i) (seq 0 (S k))) empty_heap.
Definition expect_nodes (vars : list evar) (xs : list (stensor V)) (c : stensor V) (i : nat) : @snode V unit :=
  match nth_error vars i, nth_error xs i with
  | Some v, Some x => mkNode x (ev_name v) (Some (match splates x with p :: _ => pn p | [] => 1 end, ev_lp v (firstn i xs), true, Some expect_method))
  | _, _ => mkNode c "cost" None
  end.
(** The program: sample the variables, compute the cost from the samples, and call backward (storch/inference.py:77-230). *)
Definition expect_program (fuel : nat) (vars : list evar) (cost : list (stensor V) -> stensor V) (base : nat) : res (ten V) :=
  do xs <- expect_samples vars [] base;
  let k := length vars in
  backward_value veq anc_unwrap o o_exp fuel (expect_graph k) (expect_nodes vars xs (cost xs)) [k] tt base.
End ExpectModel.
