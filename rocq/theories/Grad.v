(** storch.grad (storch/storch.py:219-255). *)
From Coq Require Import String List Arith Bool ZArith.
From Verif Require Import Base Torch Plates Wrap TensorFns.
Import ListNotations.
Open Scope string_scope.
Open Scope nat_scope.
Open Scope list_scope.

Section GradModel.
Context {V : Type}.
Variable veq : V -> V -> bool.
Variable anc_unwrap : plate V -> stensor V -> res (stensor V).
(** Tensor.name (storch/tensor.py:292-294). *)
Variable tname : stensor V -> option string.
(** torch.autograd.grad on outputs, inputs and grad_outputs; None is the gradient of an unused input (allow_unused). The flags
    retain_graph, create_graph, only_inputs and allow_unused are passed on as they are and belong to this function. *)
Variable autograd : pyval V -> pyval V -> pyval V -> res (list (option (ten V))).

(** The call of _prepare_args (231-233). *)
Definition grad_opts : wopts := mkW true false true false false None None.

(** "outputs + [input]" (250): list + list. A tuple raises; a tensor calls torch.add, which raises for a list. *)
Definition plus_list (outputs x : pyval V) : res (pyval V) :=
  match outputs with PList l => Ok (PList (l ++ [x])) | _ => Err TypeError end.

(** "for i, p in enumerate(parents): ... p._children.append" (storch/tensor.py:230-236). Tensor.__iter__ (storch/tensor.py:639-641)
    raises; a torch tensor is iterated over its first dimension, and neither its rows nor other values have _children. *)
Definition link_parents (parents : pyval V) : res (list nat) :=
  match parents with
  | PList l | PTuple l => mapM (fun v => match v with PT a => Ok (sid a) | _ => Err AttributeError end) l
  | PT _ => Err NotImplementedError
  | PRaw t => match shape t with [] => Err TypeError | 0 :: _ => Ok [] | _ => Err AttributeError end
  | _ => Err TypeError
  end.

(** Tensor.__init__ (storch/tensor.py:171-241) on what may be None, which has no shape. *)
Definition new_tensor (id : nat) (g : option (ten V)) (parents : pyval V) (plates : list (plate V)) : res (stensor V) :=
  match g with
  | Some t => do _ <- check_plates (shape t) plates [] 0;
              do ids <- link_parents parents;
              mk_tensor id t ids plates false
  | None => if existsb (fun p => negb (pn p =? 1)) plates then Err AttributeError
            else do _ <- link_parents parents; Err AttributeError
  end.

(** "input = inputs[i]" (246). *)
Definition input_at (inputs : pyval V) (i base : nat) : res (pyval V) :=
  match inputs with
  | PList l | PTuple l => match nth_error l i with Some x => Ok x | None => Err IndexError end
  | PT a => getitem veq anc_unwrap a [IInt (Z.of_nat i)] base
  | PRaw t => do r <- torch_index [IInt (Z.of_nat i)] t; Ok (PRaw r)
  | _ => Err TypeError
  end.

(** The body of the loop (246-254): a tensor and its name. [base] makes identities. *)
Definition wrap_gradient (outputs inputs : pyval V) (base i : nat) (g : option (ten V)) : res (stensor V * string) :=
  do x <- input_at inputs i (base + 2 * i + 1);
  match x with
  | PT a => do parents <- plus_list outputs x;
            match tname a with
            | None => Err TypeError
            | Some n => do r <- new_tensor (base + 2 * i) g parents (splates a); Ok (r, (n ++ "_grad")%string)
            end
  | _ => do r <- new_tensor (base + 2 * i) g outputs []; Ok (r, "grad")
  end.
Fixpoint wrap_gradients (outputs inputs : pyval V) (base i : nat) (gs : list (option (ten V))) : res (list (stensor V * string)) :=
  match gs with
  | [] => Ok []
  | g :: r => do x <- wrap_gradient outputs inputs base i g;
              do xs <- wrap_gradients outputs inputs base (S i) r;
              Ok (x :: xs)
  end.

(** storch.grad. *)
Definition storch_grad (outputs inputs grad_outputs : pyval V) (base : nat) : res (list (stensor V * string)) :=
  do (args, _, _, _) <- prepare_args veq anc_unwrap [outputs; inputs; grad_outputs] [] grad_opts;
  match args with
  | [o; i; g] => do gs <- autograd o i g; wrap_gradients outputs inputs base 0 gs
  | _ => Err ValueError
  end.
End GradModel.
