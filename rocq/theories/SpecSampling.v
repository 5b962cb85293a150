(** Specification vocabulary for samples. *)
From Coq Require Import String List Arith Bool.
From Verif Require Import Base Torch Plates Sampling.
Import ListNotations.

(** The storch tensors among the parameters of a distribution. *)
Definition param_tensors {V} (l : list (@param V)) : list (stensor V) :=
  flat_map (fun p => match p with ParS a _ => [a] | ParT _ => [] end) l.
