(** Assigning to parts of storch tensors: Tensor.__setitem__ (storch/tensor.py:326-328). *)
From Coq Require Import String List Arith Bool ZArith.
From Verif Require Import Base Torch Plates Wrap TensorFns.
Import ListNotations.

(** The value of an assignment brought to the shape of the places assigned to: dimensions in excess have to be of size one and are dropped;
    otherwise as t.expand. RuntimeError if the shapes do not fit. *)
Definition fit_value {A} (s : list nat) (v : ten A) : res (ten A) :=
  let k := ndim v - List.length s in
  if forallb (Nat.eqb 1) (firstn k (shape v))
  then expand s (mkten (skipn k (shape v)) (fun i => el v (repeat 0 k ++ i)))
  else Err RuntimeError.
(** torch.Tensor.__setitem__: the tensor afterwards. The index selects places as for __getitem__. *)
Definition torch_assign {A} (l : list idx_item) (t v : ten A) : res (ten A) :=
  do places <- torch_index l (mkten (shape t) (fun i => i));
  do w <- fit_value (shape places) v;
  Ok (mkten (shape t) (fun i => match find (fun j => list_eqb (el places j) i) (indices (shape places)) with Some j => el w j | None => el t i end)).

Section Setitem.
Context {V : Type}.
Variable veq : V -> V -> bool.
Variable anc_unwrap : plate V -> stensor V -> res (stensor V).

(** Tensor.__setitem__ (storch/tensor.py:326-328), wrapped by deterministic(l_broadcast=False): the storch tensor assigned to, afterwards. The
    wrapped function writes into the torch tensor _unsqueeze_and_unwrap hands over (storch/wrappers.py:80-127). For the tensor assigned to this
    is a view of its torch tensor: it is the first argument, so its plates come first, in their order, and dimensions of size one are only
    added after them. Hence the assignment is seen through the storch tensor, whose other fields do not change. The function returns None,
    which the wrapper hands on. Not modelled: other tensors sharing the memory, the errors of torch about leaves that require
    gradients, and ancestral plates, whose hook hands over a copy. *)
Definition through_view (k : nat) (t u : ten V) : ten V :=
  mkten (shape t) (fun i => el u (firstn k i ++ repeat 0 (ndim u - ndim t) ++ skipn k i)).
Definition setitem (a : stensor V) (index : list idx_item) (value : pyval V) (base : nat) : res (stensor V) :=
  do (args, kwargs, parents, plates) <- prepare_args veq anc_unwrap [PT a; value] [] getitem_opts;
  match args, kwargs with
  | [PRaw u; PRaw v], [] =>
      do u' <- torch_assign index u v;
      do _ <- prepare_outputs PNone parents plates base 1 (o_flatten getitem_opts);
      Ok (mkS (sid a) (through_view (s_plate_dims a) (st a) u') (splates a) (s_plate_dims a) (s_event_shape a) (sparents a) (s_stochastic a))
  | _, _ => Err TypeError
  end.
End Setitem.
