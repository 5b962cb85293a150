(** Expectations over independent categorical variables. *)
From Coq Require Import List Arith Reals.
From Verif Require Import SpecArm SpecExpect.
Import ListNotations.
Local Open Scope R_scope.

(** The expectation of [f] when the variable [e] in [l] has the value j < [K] with probability [q e j], independently of the others. *)
Fixpoint categorical (K : nat) (q : list nat -> nat -> R) (l : list (list nat)) (f : (list nat -> nat) -> R) (b : list nat -> nat) : R :=
  match l with
  | [] => f b
  | e :: r => fold_right (fun j s => q e j * categorical K q r f (at_index b e j) + s) 0 (seq 0 K)
  end.

(** [c] is continuously differentiable on the cube of its variables [l], up to the border: the derivatives [dc] are bounded and uniformly
    continuous there, and the error of the linear approximation is uniformly small. *)
Definition smooth (l : list (list nat)) (c : (list nat -> R) -> R) (dc : list nat -> (list nat -> R) -> R) : Prop :=
  cont_on l c /\ (forall e, In e l -> cont_on l (dc e)) /\
  forall eps, 0 < eps -> exists d, 0 < d /\ forall z z', cube l z -> cube l z' -> (forall e, In e l -> Rabs (z' e - z e) < d) ->
    Rabs (c z' - c z - fold_right (fun e s => dc e z * (z' e - z e) + s) 0 l) <= eps * fold_right (fun e s => Rabs (z' e - z e) + s) 0 l.
