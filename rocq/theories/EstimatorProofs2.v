(** What backward returns with ARM and with DisARM, on one variable of two components and one pair of samples. *)
From Coq Require Import String List Arith Bool ZArith Lia Ring.
From Verif Require Import Base Torch Plates Wrap OrderPlates Scalar Reduce Graph Surrogate Estimators SpecTensor SpecReduce SpecSurrogate SurrogateProofs2.
Import ListNotations.
Open Scope string_scope.
Open Scope nat_scope.
Open Scope list_scope.

Section Arm.
Context {V : Type} (veq : V -> V -> bool) (anc : plate V -> stensor V -> res (stensor V)) (o : sops V) (o_exp : V -> V).
Hypothesis Hring : is_ring o.
Hypothesis Hev : evaluates o o_exp.
Let Hring' : ring_theory (o_zero o) (o_one o) (o_add o) (o_mul o) (o_sub o) (o_opp o) (@eq V) := Hring.
Add Ring o_ring : Hring'.
Variables (half : V) (lgp : V -> V -> V) (dw : V -> V -> V -> V) (cost : nat -> V) (z b : nat -> nat -> V) (logit : nat -> V).

(** The sample z, with the weighting of ARM (storch/method/arm.py:53-61) or a plain one, its discretisation and a cost. *)
Definition a_plate (w : weight V) : plate V := mkPlate PlainPlate "z" 2 w [].
Definition arm_weight : weight V := WTorch (mkten [2] (fun i => match i with [0] => o_one o | _ => o_zero o end)).
Definition a_z (w : weight V) (id : nat) (f : nat -> nat -> V) (parents : list nat) : stensor V :=
  mkS id (mkten [2; 2] (fun i => f (nth 0 i 0) (nth 1 i 0))) [a_plate w] 1 [2] parents true.
Definition a_cost (w : weight V) (parent : nat) : stensor V := mkS 2 (mkten [2] (fun i => cost (nth 0 i 0))) [a_plate w] 1 [] [parent] false.
Definition a_logits : pyval V := PRaw (mkten [2] (fun i => logit (nth 0 i 0))).
Definition no_lp (x : stensor V) (base : nat) : res (pyval V) := Err NotImplementedError.

(** ARM: tensor 0 is the sample, tensor 1 what post_sample makes of it (a stochastic tensor without a method). *)
Definition arm_nodes (i : nat) : @snode V unit :=
  match i with
  | 0 => mkNode (a_z arm_weight 0 z []) "z" (Some (2, no_lp, true,
           Some (method_of (fun _ _ => Ok false) (arm_estimator veq anc o o_exp half lgp a_logits))))
  | 1 => mkNode (a_z arm_weight 1 b [0]) "z" (Some (2, no_lp, false, None))
  | _ => mkNode (a_cost arm_weight 1) "cost" None
  end.
Definition arm_heap : heap := fold_left (fun h ps => construct ps h) [[]; [0]; [1]] empty_heap.

Ltac evs := repeat (rewrite (ev_add _ _ Hev) || rewrite (ev_sub _ _ Hev) || rewrite (ev_mul _ _ Hev) || rewrite (ev_det _ _ Hev) ||
  rewrite (ev_one _ _ Hev) || rewrite (ev_zero _ _ Hev) || rewrite (ev_exp _ _ Hev)).

Theorem arm_value : exists t, backward_value veq anc o o_exp 20 arm_heap arm_nodes [2] tt 100 = Ok t /\
  o_det o (weighted_sum o false [a_plate arm_weight] [a_plate arm_weight] (fun s => den (a_cost arm_weight 1) s []) (fun _ => 0)) = o_det o (cost 0) /\
  o_det o (el t []) = o_add o (o_det o (cost 0)) (o_det o (cost 0)).
Proof.
  match goal with |- exists t, ?X = Ok t /\ _ =>
    let x := eval cbv -[o_zero o_one o_add o_mul o_sub o_opp o_det] in X in assert (E : X = x) by (vm_cast_no_check (eq_refl x)) end.
  rewrite E. eexists. split; [reflexivity|]. split.
  - cbv -[o_zero o_one o_add o_mul o_sub o_opp o_det]. evs. ring.
  - cbv -[o_zero o_one o_add o_mul o_sub o_opp o_det]. evs.
    assert (X : forall x, o_exp (o_sub o x x) = o_one o) by (intros x; rewrite <- (ev_exp0 _ _ Hev); f_equal; ring).
    rewrite ?X. ring.
Qed.

(** DisARM: the sample and a cost; the plate has the plain weighting (DisARM.plate_weighting is not registered). *)
Definition dis_weight : weight V := WTorch (tscalar half).
Definition dis_nodes (i : nat) : @snode V unit :=
  match i with
  | 0 => mkNode (a_z dis_weight 0 b []) "z" (Some (2, no_lp, true,
           Some (method_of (fun _ _ => Ok false) (disarm_estimator veq anc o half dw a_logits))))
  | _ => mkNode (a_cost dis_weight 0) "cost" None
  end.
Definition dis_heap : heap := fold_left (fun h ps => construct ps h) [[]; [0]] empty_heap.
Theorem disarm_value : exists t, backward_value veq anc o o_exp 20 dis_heap dis_nodes [1] tt 100 = Ok t /\
  o_det o (weighted_sum o false [a_plate dis_weight] [a_plate dis_weight] (fun s => den (a_cost dis_weight 0) s []) (fun _ => 0)) =
    o_mul o (o_det o half) (o_add o (o_det o (cost 0)) (o_det o (cost 1))) /\
  o_det o (el t []) = o_add o (o_mul o (o_det o half) (o_add o (o_det o (cost 0)) (o_det o (cost 1)))) (o_mul o (o_det o half) (o_det o (cost 1))).
Proof.
  match goal with |- exists t, ?X = Ok t /\ _ =>
    let x := eval cbv -[o_zero o_one o_add o_mul o_sub o_opp o_det] in X in assert (E : X = x) by (vm_cast_no_check (eq_refl x)) end.
  rewrite E. eexists. split; [reflexivity|]. split.
  - cbv -[o_zero o_one o_add o_mul o_sub o_opp o_det]. evs. ring.
  - cbv -[o_zero o_one o_add o_mul o_sub o_opp o_det]. evs.
    assert (X : forall x, o_exp (o_sub o x x) = o_one o) by (intros x; rewrite <- (ev_exp0 _ _ Hev); f_equal; ring).
    rewrite ?X. ring.
Qed.
End Arm.
