(** Specification vocabulary for the state of methods over backward calls. *)
From Coq Require Import List Arith Bool Reals.
From Coq Require Import Relations.Relation_Operators.
From Verif Require Import Base Graph SpecGraph Training.
Import ListNotations.

(** [l] lists the stochastic tensors among the costs and their ancestors, each once. *)
Definition sampled_nodes (h : heap) (stoch : nat -> bool) (costs l : list nat) : Prop :=
  NoDup l /\ forall n, In n l <-> stoch n = true /\ exists c, In c costs /\ reachable (h_parents h) false c n.

(** How many nodes of [l] were sampled by method [m]. *)
Definition uses (method : nat -> option nat) (m : nat) (l : list nat) : nat :=
  length (filter (fun n => match method n with Some k => Nat.eqb k m | None => false end) l).

(** The states of the methods before and after one backward call, on any graph. *)
Definition backward_call (before after : nat -> mstate) : Prop :=
  exists fuel h stoch method costs update, backward_methods fuel h stoch method costs update before = Some after.

(** Any number of backward calls. *)
Definition backward_calls : (nat -> mstate) -> (nat -> mstate) -> Prop := clos_refl_trans_1n _ backward_call.
