(** Which inputs an output depends on, according to PyTorch's autograd graph. *)
From Coq Require Import String List Arith Bool Lia.
From Coq Require Import Relations.Relation_Operators.
From Verif Require Import Autograd.
Import ListNotations.

(** Function [q] feeds into function [p]. *)
Definition feeds (g : autograd) (p q : nat) : Prop := In (Some q) (next_functions g p).

(** Function [p] belongs to the input: it accumulates its gradient or computed it. *)
Definition belongs (g : autograd) (p : nat) (input : tref) : Prop :=
  variable g p = Some (t_id input) \/ t_grad_fn input = Some p.

(** The autograd graph of the output reaches the input. *)
Definition depends (g : autograd) (output input : tref) : Prop :=
  exists f p, t_grad_fn output = Some f /\ clos_refl_trans_1n nat (feeds g) f p /\ belongs g p input.

(** Finitely many autograd functions. *)
Definition finite_graph (g : autograd) (univ : list nat) : Prop :=
  forall p q, In p univ -> feeds g p q -> In q univ.
