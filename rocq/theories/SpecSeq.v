(** Specification vocabulary for sequence methods. *)
From Coq Require Import String List Arith Bool.
From Verif Require Import Base SeqMethod.
Import ListNotations.

(** The object that is the plate called [name] of a tensor with plates [l]. *)
Definition plate_object (name : string) (l : list plateref) : option nat :=
  option_map fst (find (fun p => String.eqb (snd p) name) l).

(** The tensor with plates [l] carries the very plate object [obj]. *)
Definition carries (name : string) (obj : nat) (l : list plateref) : bool :=
  match plate_object name l with Some x => Nat.eqb x obj | None => false end.
