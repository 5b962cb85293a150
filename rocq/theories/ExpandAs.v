(** right_expand_as on storch tensors (storch/sampling/seq.py). *)
From Coq Require Import List.
From Verif Require Import Base Torch Plates Wrap TensorFns Util.
Import ListNotations.

Section ExpandAs.
Context {V : Type}.
Variable veq : V -> V -> bool.
Variable anc_unwrap : plate V -> stensor V -> res (stensor V).

(** The function under the wrapper, on the tensors it is handed (storch/sampling/seq.py:673-676). *)
Definition right_expand_fn (ts : list (ten V)) : res (ten V) :=
  match ts with [t; e] => right_expand_as t e | _ => Err TypeError end.
(** right_expand_as (storch/sampling/seq.py:671-676), wrapped by deterministic(l_broadcast=False). *)
Definition st_right_expand_as (a b : pyval V) (base : nat) : res (pyval V) :=
  handle_deterministic veq anc_unwrap top_ctx (torch_fnN right_expand_fn) [a; b] [] [] getitem_opts base.
End ExpandAs.
