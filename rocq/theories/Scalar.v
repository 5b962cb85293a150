(** The numbers a tensor holds: arithmetic of torch scalars, and detach. Numerical rounding is not modelled. *)
From Coq Require Import List Ring_theory.
Import ListNotations.

Section Scalar.
Context {V : Type}.

(** [o_det] is Tensor.detach on one element. *)
Record sops : Type := mkOps {
  o_zero : V; o_one : V; o_add : V -> V -> V; o_mul : V -> V -> V; o_sub : V -> V -> V; o_opp : V -> V;
  o_det : V -> V
}.

(** torch.sum of the reduced elements. *)
Definition osum (o : sops) (l : list V) : V := fold_right (o_add o) (o_zero o) l.
Definition oprod (o : sops) (l : list V) : V := fold_right (o_mul o) (o_one o) l.

(** Arithmetic is that of a commutative ring. *)
Definition is_ring (o : sops) : Prop :=
  ring_theory (o_zero o) (o_one o) (o_add o) (o_mul o) (o_sub o) (o_opp o) (@eq V).

End Scalar.
Arguments sops : clear implicits.
