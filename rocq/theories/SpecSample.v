(** What storch tensors are for one choice of samples. *)
From Coq Require Import List.
From Verif Require Import Base Torch Plates Wrap TensorFns SpecTensor SpecWrap.
Import ListNotations.

(** The torch tensor of the samples chosen by [s]. *)
Definition at_sample {V} (s : assignment) (a : stensor V) : ten V := mkten (s_event_shape a) (fun e => den a s e).

(** An argument that is a storch tensor or a torch tensor. *)
Definition operand (V : Type) : Type := (stensor V + ten V)%type.
Definition as_value {V} (x : operand V) : pyval V := match x with inl a => PT a | inr w => PRaw w end.
Definition storch_of {V} (l : list (operand V)) : list (stensor V) := flat_map (fun x => match x with inl a => [a] | inr _ => [] end) l.
(** What it is for one choice of samples: events are padded with ones on the right to rank [ed]; a torch tensor is the same for all. *)
Definition operand_at {V} (ed : nat) (s : assignment) (x : operand V) : ten V := match x with inl a => slice ed s a | inr w => w end.
(** No torch tensor has more than [ed] dimensions. *)
Definition ranks_fit {V} (ed : nat) (l : list (operand V)) : Prop := forall w, In (inr w) l -> ndim w <= ed.

(** [full] is the index [items] of an event, written for a tensor with [k] dimensions before the [m] dimensions of the event: ":" for each
    of them, or an index that starts with "..." and addresses no more than the [m] dimensions. *)
Definition leaves_front (items full : list idx_item) (k m : nat) : Prop :=
  full = repeat IAll k ++ items \/ (full = items /\ exists r, items = IEllipsis :: r /\ consumed r <= m).
