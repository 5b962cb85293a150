(** Storch tensors anywhere in a value. *)
From Coq Require Import List String.
From Verif Require Import Base Torch Plates Wrap.
Import ListNotations.

Section Spec.
Context {V : Type}.
Inductive within (a : stensor V) : pyval V -> Prop :=
| W_self : within a (PT a)
| W_list : forall l x, In x l -> within a x -> within a (PList l)
| W_tuple : forall l x, In x l -> within a x -> within a (PTuple l)
| W_dict : forall l k x, In (k, x) l -> within a x -> within a (PDict l)
| W_distr : forall c l k x, In (k, x) l -> within a x -> within a (PDistr c l).
End Spec.
