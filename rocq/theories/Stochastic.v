(** storch.stochastic (storch/wrappers.py:471-537): how the arguments of a call reach the wrapped function, and what
    becomes of its outputs. The context handling is modelled in Context.v. *)
From Coq Require Import String List Arith Bool.
From Verif Require Import Base Torch Plates Wrap.
Import ListNotations.
Open Scope string_scope.
Open Scope nat_scope.
Open Scope list_scope.

Section StochasticModel.
Context {V : Type}.
Variable veq : V -> V -> bool.
Variable anc_unwrap : plate V -> stensor V -> res (stensor V).
(** Python iteration over a value that is not a list or tuple (rows of a tensor, keys of a dict, or an exception). *)
Variable iterate : pyval V -> res (list (pyval V)).
(** How the values given for unwrap, align_tensors, ..., dims are understood. *)
Variable options : list (string * pyval V) -> res wopts.

(** The parameters of _prepare_args (storch/wrappers.py:177-187); the first two have no default. *)
Definition prepare_params : list string :=
  ["fn_args"; "fn_kwargs"; "unwrap"; "align_tensors"; "l_broadcast"; "expand_plates"; "flatten_plates"; "dim"; "dims"].

(** Python's binding of the arguments of [_prepare_args( *args, **kwargs)] (storch/wrappers.py:513) to these parameters:
    TypeError for too many, unknown, repeated or missing arguments. *)
Definition bind_args (args : list (pyval V)) (kwargs : list (string * pyval V)) : res (list (string * pyval V)) :=
  let pos := combine prepare_params args in
  if length prepare_params <? length args then Err TypeError
  else if existsb (fun kv => negb (existsb (String.eqb (fst kv)) prepare_params)
                             || existsb (fun pv => String.eqb (fst pv) (fst kv)) pos) kwargs then Err TypeError
  else Ok (pos ++ kwargs).
Fixpoint lookup (name : string) (l : list (string * pyval V)) : option (pyval V) :=
  match l with
  | [] => None
  | (k, v) :: r => if String.eqb k name then Some v else lookup name r
  end.

Definition elements (v : pyval V) : res (list (pyval V)) :=
  match v with PList l | PTuple l => Ok l | _ => iterate v end.

(** The arguments handed to the wrapped function, the parents and the plates (storch/wrappers.py:512-513 and 177-272).
    Only a dict has [items()] (storch/wrappers.py:261) and can be passed on by [**kwargs] (521). *)
Definition stochastic_args (args : list (pyval V)) (kwargs : list (string * pyval V))
  : res (list (pyval V) * list (string * pyval V) * list (stensor V) * list (plate V)) :=
  do b <- bind_args args kwargs;
  match lookup "fn_args" b, lookup "fn_kwargs" b with
  | Some a, Some k =>
      do o <- options b;
      do l <- elements a;
      match k with
      | PDict d => prepare_args veq anc_unwrap l d o
      | _ => Err AttributeError
      end
  | _, _ => Err TypeError
  end.

(** _process_stochastic (storch/wrappers.py:473-490). Tensor has no method _add_parents: a storch tensor that is not
    stochastic raises AttributeError (through Tensor.__getattr__, storch/tensor.py:278). *)
Definition process_stochastic (out : pyval V) (parents : list nat) (plates : list (plate V)) (id : nat) : res (pyval V) :=
  match out with
  | PT a => if s_stochastic a then Ok out else Err AttributeError
  | PRaw t => do x <- mk_tensor id t parents plates false; Ok (PT x)
  | _ => Err TypeError
  end.

(** The outputs of the wrapped function (storch/wrappers.py:529-536): those of a list or tuple one by one, into a list; iterating over
    a dict gives its keys, which are no tensors. The [i]-th tensor that is created has identity [id + i]. *)
Fixpoint process_all (l : list (pyval V)) (parents : list nat) (plates : list (plate V)) (id : nat) : res (list (pyval V)) :=
  match l with
  | [] => Ok []
  | x :: r => do y <- process_stochastic x parents plates id; do ys <- process_all r parents plates (S id); Ok (y :: ys)
  end.
Definition process_outputs (out : pyval V) (parents : list nat) (plates : list (plate V)) (id : nat) : res (pyval V) :=
  match out with
  | PList l | PTuple l => do ys <- process_all l parents plates id; Ok (PList ys)
  | PDict [] => Ok (PList [])
  | PDict _ => Err TypeError
  | x => process_stochastic x parents plates id
  end.
(** The call of a function wrapped in storch.stochastic outside of other wrapped functions (storch/wrappers.py:501-536). *)
Definition stochastic_call (fn : list (pyval V) -> list (string * pyval V) -> res (pyval V)) (args : list (pyval V))
  (kwargs : list (string * pyval V)) (id : nat) : res (pyval V) :=
  do (a, k, parents, plates) <- stochastic_args args kwargs;
  do out <- fn a k;
  process_outputs out (map sid parents) plates id.

End StochasticModel.
