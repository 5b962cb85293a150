(** Dual numbers: a value and a derivative. Used as elements of tensors, they compute first derivatives. *)
From Coq Require Import List Ring Ring_theory.
From Verif Require Import Scalar.
Import ListNotations.

Section Dual.
Context {K : Type}.
Variable k : sops K.

Definition dual_ops : sops (K * K) := mkOps
  (o_zero k, o_zero k) (o_one k, o_zero k)
  (fun x y => (o_add k (fst x) (fst y), o_add k (snd x) (snd y)))
  (fun x y => (o_mul k (fst x) (fst y), o_add k (o_mul k (fst x) (snd y)) (o_mul k (snd x) (fst y))))
  (fun x y => (o_sub k (fst x) (fst y), o_sub k (snd x) (snd y)))
  (fun x => (o_opp k (fst x), o_opp k (snd x)))
  (fun x => (fst x, o_zero k)).

(** exp, given exp on values. *)
Definition dual_exp (ex : K -> K) (x : K * K) : K * K := (ex (fst x), o_mul k (ex (fst x)) (snd x)).

Hypothesis Hring : is_ring k.
Let Hring' : ring_theory (o_zero k) (o_one k) (o_add k) (o_mul k) (o_sub k) (o_opp k) (@eq K) := Hring.
Add Ring k_ring : Hring'.
Lemma dual_ring : is_ring dual_ops.
Proof.
  constructor; unfold dual_ops; cbn [o_zero o_one o_add o_mul o_sub o_opp fst snd]; repeat (intros [? ?]); cbn [fst snd]; f_equal; ring.
Qed.
End Dual.
