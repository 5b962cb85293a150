(** Differentiability that is uniform in the noise. *)
From Coq Require Import List Arith Reals.
From Verif Require Import SpecTensor SpecArm SpecExpect.
Import ListNotations.
Local Open Scope R_scope.

(** At [t0] the derivative of [F] is [D u] when the noise is [u]; the error of the linear approximation is small for all noise at once. *)
Definition differentiable (dom : (list nat -> R) -> Prop) (F : R -> (list nat -> R) -> R) (D : (list nat -> R) -> R) (t0 : R) : Prop :=
  (exists B, forall u, dom u -> Rabs (D u) <= B) /\
  forall eps, 0 < eps -> exists d, 0 < d /\ forall h u, Rabs h < d -> dom u -> Rabs (F (t0 + h) u - F t0 u - h * D u) <= eps * Rabs h.

(** The function [f] of the variables [l] and of the parameter has the partial derivatives [df] and [dft] at [t0] for all values of the variables
    in [X]; they are bounded there, and the error of the linear approximation is uniformly small. *)
Definition smooth_on (X : (list nat -> R) -> Prop) (l : list (list nat)) (f : (list nat -> R) -> R -> R) (df : list nat -> (list nat -> R) -> R) (dft : (list nat -> R) -> R) (t0 : R) : Prop :=
  (forall e, In e l -> exists B, forall z, X z -> Rabs (df e z) <= B) /\
  forall eps, 0 < eps -> exists d, 0 < d /\ forall z z' h, X z -> X z' -> Rabs h < d -> (forall e, In e l -> Rabs (z' e - z e) < d) ->
    Rabs (f z' (t0 + h) - f z t0 - fold_right (fun e s => df e z * (z' e - z e) + s) 0 l - dft z * h) <= eps * (fold_right (fun e s => Rabs (z' e - z e) + s) 0 l + Rabs h).

(** The relaxed one-hot sample with the uniform noise [w]: the softmax over the last dimension of (log p + Gumbel noise) / tau. *)
Definition gumbel_softmax (K : nat) (tau : R) (p : list nat -> nat -> R) (w : list nat -> R) (e : list nat) : R :=
  let r := removelast e in
  let weight j := exp ((ln (p r j) - ln (- ln (w (r ++ [j])))) / tau) in
  weight (last e 0%nat) / fold_right (fun j s => weight j + s) 0 (seq 0 K).
