(** Specification vocabulary for the samples of categorical variables as storch tensors. *)
From Coq Require Import Reals List Arith.
From Verif Require Import Base Torch Plates SpecTensor.
Import ListNotations.

(** The last event dimension, of size [K], of a tensor: for the choice [s] of samples and the index [e] of the other event dimensions. *)
Definition option_row (K : nat) (a : stensor R) (s : assignment) (e : list nat) : list R := map (fun j => den a s (e ++ [j])) (seq 0 K).
(** Option [b] is the first of the largest. *)
Definition first_largest (l : list R) (b : nat) : Prop :=
  b < length l /\ (forall i, i < length l -> (nth i l 0 <= nth b l 0)%R) /\ (forall i, i < b -> (nth i l 0 < nth b l 0)%R).
