(** Specification for losses. *)
From Coq Require Import String List.
From Verif Require Import Base Torch Plates SpecTensor.
Import ListNotations.

Section SpecLosses.
Context {V : Type}.
(** The arguments the loss is meant for: the target has no plate of more than one sample that the input lacks and its event shape
    broadcasts to the input's. *)
Definition target_fits (a b : stensor V) : Prop :=
  (forall p, In p (wide (splates b)) -> In (pname p) (map pname (splates a))) /\ s_event_dims b <= s_event_dims a /\
  broadcasts (pad (s_event_dims a) (s_event_shape b)) (s_event_shape a) (s_event_shape a).
End SpecLosses.
