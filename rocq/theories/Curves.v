(** Real functions of a parameter as elements of tensors; detach freezes the parameter at its current value. *)
From Coq Require Import Reals Ring FunctionalExtensionality.
From Verif Require Import Scalar.
Local Open Scope R_scope.

Definition curve_ops (t0 : R) : sops (R -> R) := mkOps
  (fun _ => 0) (fun _ => 1) (fun f g t => f t + g t) (fun f g t => f t * g t) (fun f g t => f t - g t) (fun f t => - f t)
  (fun f _ => f t0).
Definition curve_exp (f : R -> R) (t : R) : R := exp (f t).

Lemma curve_ring : forall t0, is_ring (curve_ops t0).
Proof.
  intros t0. constructor; cbn [curve_ops o_zero o_one o_add o_mul o_sub o_opp]; intros; apply functional_extensionality; intros; ring.
Qed.
