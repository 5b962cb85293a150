(** When all sequences have ended. *)
From Coq Require Import String List Arith Bool Lia.
From Verif Require Import Base Torch Plates SpecTensor.
Import ListNotations.
Open Scope nat_scope.
Open Scope list_scope.

(** Every sample, for all plates, is the token eos. *)
Definition all_ended (eos : nat) (a : stensor nat) : Prop :=
  forall s e, in_range s (splates a) -> valid e (s_event_shape a) -> den a s e = eos.
Definition all_ended_torch (eos : nat) (t : ten nat) : Prop := forall i, valid i (shape t) -> el t i = eos.
(** How often the token eos is among m values. *)
Definition occurrences (eos m : nat) (x : nat -> nat) : nat := length (filter (fun j => x j =? eos) (seq 0 m)).
