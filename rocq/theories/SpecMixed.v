(** Specification vocabulary for programs whose variables use different methods. *)
From Coq Require Import String List Arith Bool ZArith Lia.
From Verif Require Import Base Torch Plates Wrap Scalar Reduce Graph Surrogate SpecTensor SpecWrap SpecOrder SpecReduce SpecGraph SpecSurrogate.
Import ListNotations.

Section Spec.
Context {V S : Type}.

(** The method of a sample returns neither a gradient term nor a control variate, and keeps no state. *)
Definition quiet (nodes : nat -> @snode V S) (a : nat) : Prop :=
  exists n lp m, nd_sto (nodes a) = Some (n, lp, true, Some m) /\ forall x rc nm sg base, me_estimator m x rc nm sg base = Ok (None, None, sg).

(** Cost [c] in graph [h] with plates [FP]. The ancestors of the cost are tensors that get no term ([scored] false: deterministic, without gradient,
    or pathwise), samples of a quiet method, and the samples [anc] with the score function without baseline; [score a] is the log-probability of [a]. *)
Record mixed_setup (veq : V -> V -> bool) (anc_unwrap : plate V -> stensor V -> res (stensor V)) (o : sops V) (o_exp : V -> V)
  (nodes : nat -> @snode V S) (h : heap) (c : nat) (FP : list (plate V)) (anc : list nat) (score : nat -> assignment -> V) : Prop := {
  mx_plates : plates_ok veq FP;
  mx_cost : over FP (nd_t (nodes c));
  mx_scalar : s_event_shape (nd_t (nodes c)) = [];
  mx_gaps : no_gaps (wide (splates (nd_t (nodes c))));
  mx_nodup : NoDup anc;
  mx_kinds : forall a, reachable (h_parents h) false c a ->
    scored nodes c a false \/ (scored nodes c a true /\ over FP (nd_t (nodes a)) /\ (quiet nodes a \/ In a anc));
  mx_anc : forall a, In a anc -> reachable (h_parents h) false c a /\ scored nodes c a true;
  mx_score : forall a, In a anc -> exists n lp m ev f, nd_sto (nodes a) = Some (n, lp, true, Some m) /\
    me_estimator m = score_estimator veq anc_unwrap o o_exp None /\ has_log_prob (nd_t (nodes a)) lp ev f /\
    forall s, in_range s (splates (nd_t (nodes a))) -> score a s = osum o (map (f s) (indices ev))
}.

(** The plates of the samples [anc] and of the cost. *)
Definition involved (nodes : nat -> @snode V S) (anc : list nat) (c : nat) : list (plate V) :=
  flat_map (fun a => splates (nd_t (nodes a))) anc ++ splates (nd_t (nodes c)).
End Spec.
