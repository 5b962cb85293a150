(** Specification for matrix products. *)
From Coq Require Import List.
From Verif Require Import Scalar.
Import ListNotations.

(** The inner product of two vectors of [m] numbers. *)
Definition inner {V} (o : sops V) (m : nat) (f g : nat -> V) : V := osum o (map (fun l => o_mul o (f l) (g l)) (seq 0 m)).
