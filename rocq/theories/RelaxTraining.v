(** The training of the control variate: RELAX.update_parameters, also REBAR's (storch/method/relax.py:335-359),
    Method._update_parameters (storch/method/method.py:222-225), the estimation pairs of Method._estimator
    (storch/method/method.py:195-199) and the update loop of backward (storch/inference.py:250-253). *)
From Coq Require Import String List Arith Bool ZArith.
From Verif Require Import Base Torch Plates Wrap Scalar Reduce Graph Estimators.
Import ListNotations.
Open Scope string_scope.
Open Scope nat_scope.

Section RelaxTrainingModel.
Context {V : Type}.
Variable veq : V -> V -> bool.
Variable anc_unwrap : plate V -> stensor V -> res (stensor V).
Variable o : sops V.

(** What update_parameters uses of an estimation pair: which object the tensor is, and its param_grads
    (storch/tensor.py:840) with "requires_grad" of every gradient. *)
Definition gradients : Type := string -> option (stensor V * bool).
Record epair : Type := mkPair { ep_obj : nat; ep_grads : gradients }.

(** The control parameters (storch/method/relax.py:204-212): [control] has the shape of each, [cgrad i] is the .grad of
    parameter [i]. *)
Variable control : list (list nat).
Definition cgrad : Type := nat -> option (ten V).
Record rstate : Type := mkR { r_iterations : nat; r_pairs : list epair; r_cgrad : cgrad }.

(** torch.autograd.grad([loss], control_params, allow_unused=True) for a loss of one element, a function of PyTorch that
    is not modelled: the gradient for parameter [i], [None] if the loss does not depend on it. *)
Variable agrad : V -> nat -> option (ten V).

(** The order in which Python iterates over a set. *)
Variable set_order : list epair -> list epair.
Fixpoint distinct (seen : list nat) (l : list epair) : list epair :=
  match l with
  | [] => []
  | x :: r => if mem (ep_obj x) seen then distinct seen r else x :: distinct (ep_obj x :: seen) r
  end.

(** control_params[i].backward(g) (storch/method/relax.py:359): a leaf adds the given gradient to its .grad. Without a
    gradient PyTorch takes 1 if the tensor has a single element. *)
Definition leaf_backward (i : nat) (g : option (ten V)) (cg : cgrad) : res cgrad :=
  let shp := nth i control [] in
  do g <- match g with
          | Some g => Ok g
          | None => if fold_right Nat.mul 1 shp =? 1 then Ok (mkten shp (fun _ => o_one o)) else Err RuntimeError
          end;
  do g <- match cg i with None => Ok g | Some old => elementwise2 (o_add o) old g end;
  Ok (set_at cg i (Some g)).

(** var_loss (storch/method/relax.py:352-353): the default of reduce_plates detaches the weights. *)
Definition var_loss (d : stensor V) (base : nat) : res (stensor V) :=
  do sq <- torch_op1 veq anc_unwrap top_ctx (fun x => o_mul o x x) (PT d) base;
  do v <- sum_event veq anc_unwrap o sq (base + 10);
  reduce_plates veq anc_unwrap o top_ctx v [] true (base + 20).

(** The body of the loop over the tensors (storch/method/relax.py:345-359). *)
Definition train_on (base : nat) (cg : cgrad) (x : epair) : res cgrad :=
  match ep_grads x "probs" with
  | None => Err KeyError
  | Some (d, false) => Ok cg
  | Some (d, true) =>
      do l <- var_loss d base;
      if fold_right Nat.mul 1 (shape (st l)) =? 1
      then foldM (fun cg i => leaf_backward i (agrad (el (st l) (repeat 0 (ndim (st l)))) i) cg) (seq 0 (length control)) cg
      else Err RuntimeError
  end.

(** RELAX.update_parameters (storch/method/relax.py:335-359). *)
Definition relax_update_parameters (pairs : list epair) (cg : cgrad) (base : nat) : res cgrad :=
  foldM (train_on base) (set_order (distinct [] pairs)) (fun i => if i <? length control then None else cg i).

(** Method._update_parameters (storch/method/method.py:222-225). *)
Definition relax_update (base : nat) (s : rstate) : res rstate :=
  do cg <- relax_update_parameters (r_pairs s) (r_cgrad s) base;
  Ok (mkR (S (r_iterations s)) [] cg).

(** surrogate_loss calls the estimator for each cost and each sampled ancestor of it, with a tensor that is created for
    this call and shares the param_grads of the sample (storch/inference.py:165-186); _estimator stores it
    (storch/method/method.py:195-199). [uses] lists the samples of the method for each cost, [dict] has the gradients of
    each sample after the backward pass, [fresh] is the first free object. *)
Definition collect_pairs (dict : nat -> gradients) (uses : list (list nat)) (fresh : nat) : list epair :=
  map (fun x => mkPair (fst x) (dict (snd x))) (combine (seq fresh (length (concat uses))) (concat uses)).

(** The part of backward that concerns one RELAX method (storch/inference.py:235-253): [nodes] are the distinct stochastic
    tensors met on the walks, [mine n] tells whether node [n] was sampled by the method. *)
Definition relax_backward (dict : nat -> gradients) (uses : list (list nat)) (nodes : list nat) (mine : nat -> bool) (fresh base : nat)
  (s : rstate) : res rstate :=
  foldM (fun s _ => relax_update base s) (filter mine nodes)
    (mkR (r_iterations s) (r_pairs s ++ collect_pairs dict uses fresh) (r_cgrad s)).

End RelaxTrainingModel.
