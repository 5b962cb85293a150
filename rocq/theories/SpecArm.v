(** Expectations over uniform noise and over independent binary variables. *)
From Coq Require Import List Arith Bool Reals.
From Coquelicot Require Import Coquelicot.
Import ListNotations.

Definition at_index {A : Type} (f : list nat -> A) (e : list nat) (x : A) : list nat -> A :=
  fun e' => if list_eq_dec Nat.eq_dec e' e then x else f e'.

(** [mean l F u v]: integrating [F] over the variables in [l], independent and uniform on (0, 1), one after another gives [v]; [u] has the
    values of all other variables. *)
Fixpoint mean (l : list (list nat)) (F : (list nat -> R) -> R) (u : list nat -> R) (v : R) : Prop :=
  match l with
  | [] => F u = v
  | e :: r => exists g : R -> R, (forall x, (0 < x < 1)%R -> mean r F (at_index u e x) (g x)) /\ is_RInt g 0%R 1%R v
  end.

(** The expectation of [f] when each variable in [l] is true with probability [q], independently of the others. *)
Fixpoint bernoulli (q : list nat -> R) (l : list (list nat)) (f : (list nat -> bool) -> R) (b : list nat -> bool) : R :=
  match l with
  | [] => f b
  | e :: r => (q e * bernoulli q r f (at_index b e true) + (1 - q e) * bernoulli q r f (at_index b e false))%R
  end.

(** The logistic distribution: its quantile function, and the logarithm of its density at [z] for location [loc] and scale 1
    (torch.distributions' Logistic). *)
Definition logistic_quantile (u : R) : R := ln (u / (1 - u)).
Definition logistic_density (x : R) : R := (exp (- x) / ((1 + exp (- x)) * (1 + exp (- x))))%R.
Definition logistic_lp (loc z : R) : R := ln (logistic_density (z - loc)).
