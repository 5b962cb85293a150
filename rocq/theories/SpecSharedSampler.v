(** Programs that construct estimators on sampling methods: what is expected of the calls. *)
From Coq Require Import List String.
From Verif Require Import Base Construct SpecInstall SharedSampler.
Import ListNotations.
Open Scope string_scope.

(** A call of an estimator that takes a sampling method, on one that exists, with keywords that differ. *)
Definition proper (h : heap) (c : call) : Prop :=
  In (c_cls c) takes_sampler /\ c_ref c < List.length h /\ NoDup ("sampling_method" :: map fst (c_kw c)).

(** The estimator has this function as attribute [x] of its sampling method. *)
Definition uses (h : heap) (c : call) (x f : string) : Prop :=
  exists cls a, nth_error h (c_ref c) = Some (cls, a) /\ get a x = Some (VFun f).
