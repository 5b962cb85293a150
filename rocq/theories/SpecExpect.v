(** The expectation of a function of independent uniform variables, as a Riemann integral over the unit cube: no order of integration is
    preferred, and the function need not be continuous. *)
From Coq Require Import List Arith Reals.
From Verif Require Import SpecArm.
Import ListNotations.
Local Open Scope R_scope.

Definition cube (l : list (list nat)) (u : list nat -> R) : Prop := forall e, In e l -> 0 <= u e <= 1.
Definition open_cube (l : list (list nat)) (u : list nat -> R) : Prop := forall e, In e l -> 0 < u e < 1.

(** [F] depends on the variables in [l] only; on the cube it is bounded and uniformly continuous. *)
Definition cont_on (l : list (list nat)) (F : (list nat -> R) -> R) : Prop :=
  (exists B, forall u, cube l u -> Rabs (F u) <= B) /\
  forall eps, 0 < eps -> exists d, 0 < d /\ forall u w, cube l u -> cube l w -> (forall e, In e l -> Rabs (u e - w e) < d) -> Rabs (F u - F w) < eps.

(** [expect l F v]: the expectation of [F] is [v] if the variables in [l] are independent and uniform on (0, 1). [F] lies between two continuous
    functions whose iterated integrals are as close to [v] as wanted. *)
Definition expect (l : list (list nat)) (F : (list nat -> R) -> R) (v : R) : Prop :=
  forall d, 0 < d -> exists L U, cont_on l L /\ cont_on l U /\ (forall u, open_cube l u -> L u <= F u <= U u) /\
    forall u0, exists a b, mean l L u0 a /\ mean l U u0 b /\ v - d <= a /\ b <= v + d.
