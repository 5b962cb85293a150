(** Specification vocabulary for questions about the dimensions of a tensor. *)
From Coq Require Import List Arith.
From Verif Require Import Base Torch Plates SpecTensor.
Import ListNotations.

(** The order of words in a dictionary, for words of one length. *)
Inductive before : list nat -> list nat -> Prop :=
| before_here : forall x y i j, x < y -> length i = length j -> before (x :: i) (y :: j)
| before_later : forall x i j, before i j -> before (x :: i) (x :: j).

(** The indices, in the first dimensions of a tensor, of a choice of samples: the element [den a s e] is the one at [plate_index a s ++ e]. *)
Definition plate_index {V} (a : stensor V) (s : assignment) : list nat := map (fun p => s (pname p)) (wide (splates a)).
