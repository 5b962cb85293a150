(** Specification vocabulary for the training of RELAX's control variate. *)
From Coq Require Import String List Arith Bool ZArith Lia.
From Verif Require Import Base Torch Plates Wrap Scalar Reduce RelaxTraining SpecTensor SpecWrap SpecOrder SpecReduce.
Import ListNotations.
Open Scope string_scope.
Open Scope nat_scope.

Section Spec.
Context {V : Type}.
Variable veq : V -> V -> bool.
Variable o : sops V.

(** The objective: the weighted mean, over the samples of all plates, of the squared norm of the gradient [d] of a
    distribution parameter. *)
Definition squared_norm (d : stensor V) (s : assignment) : V :=
  osum o (map (fun e => o_mul o (den d s e) (den d s e)) (indices (s_event_shape d))).
Definition gradient_variance (d : stensor V) : V := weighted_sum o true (splates d) (splates d) (squared_norm d) (fun _ => 0).

(** Gradients whose plates can be reduced (C17), with at least one event dimension. *)
Record trainable (d : stensor V) : Prop := {
  tr_wf : wf d;
  tr_sound : sound veq (splates d);
  tr_gaps : no_gaps (splates d);
  tr_acyclic : ~ cyclic (splates d);
  tr_weights : forall p, In p (splates d) -> weight_fits (splates d) p;
  tr_event : s_event_shape d <> []
}.

(** [G i] is the gradient of the objective for the parameters "probs" of a sample with respect to control parameter [i]. *)
Definition objective_gradient (control : list (list nat)) (agrad : V -> nat -> option (ten V)) (ds : @gradients V) (G : nat -> ten V) : Prop :=
  exists d, ds "probs" = Some (d, true) /\ trainable d /\
    forall i, i < length control -> agrad (gradient_variance d) i = Some (G i) /\ shape (G i) = nth i control [].

(** Every control parameter has the sum of the given gradients as its gradient. *)
Definition holds_sum {A} (control : list (list nat)) (cg : @cgrad V) (l : list A) (G : A -> nat -> ten V) : Prop :=
  forall i, i < length control -> exists g, cg i = Some g /\ shape g = nth i control [] /\
    forall e, valid e (nth i control []) -> el g e = osum o (map (fun x => el (G x i) e) l).

(** Every control parameter is without gradient. *)
Definition no_gradient (control : list (list nat)) (cg : @cgrad V) : Prop := forall i, i < length control -> cg i = None.
End Spec.
