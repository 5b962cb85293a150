(** Which stochastic tensor of a sequence contributes to the surrogate loss: SeqMethod.is_pathwise
    (storch/method/multi_sample_reinforce.py:10-31). *)
From Coq Require Import String List Arith Bool.
From Verif Require Import Base.
Import ListNotations.

(** A plate of a tensor, as far as this method looks at it: the identity of the object (for Python's [is]) and the name. *)
Definition plateref : Type := (nat * string)%type.

(** The inner loop over the plates of the cost (storch/method/multi_sample_reinforce.py:21-29). *)
Fixpoint compare_plate (name : string) (d : plateref) (cost : list plateref) : res bool :=
  match cost with
  | [] => Err ValueError
  | c :: r => if String.eqb (snd c) name then Ok (negb (fst c =? fst d)) else compare_plate name d r
  end.

(** SeqMethod.is_pathwise (storch/method/multi_sample_reinforce.py:10-31) on the plates of the tensor and the cost. *)
Fixpoint seq_is_pathwise (name : string) (tensor cost : list plateref) : res bool :=
  match tensor with
  | [] => Ok true
  | d :: r => if String.eqb (snd d) name then compare_plate name d cost else seq_is_pathwise name r cost
  end.
