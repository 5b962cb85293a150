(** Programs whose surrogate loss is biased: x has two samples and the cost is a function of x. *)
From Coq Require Import String List Arith Bool ZArith Lia Ring.
From Verif Require Import Base Torch Plates Wrap OrderPlates Scalar Reduce Graph Surrogate SpecTensor SpecReduce SpecSurrogate SpecProgram SurrogateProofs2.
Import ListNotations.
Open Scope string_scope.
Open Scope nat_scope.
Open Scope list_scope.

Section Bias.
Context {V X : Type} (veq : V -> V -> bool) (anc : plate V -> stensor V -> res (stensor V)) (o : sops V) (o_exp : V -> V).
Hypothesis Hring : is_ring o.
Let Hring' : ring_theory (o_zero o) (o_one o) (o_add o) (o_mul o) (o_sub o) (o_opp o) (@eq V) := Hring.
Add Ring o_ring : Hring'.
Variables (half : V) (lgp : V -> V) (val : X -> V) (f : X -> V).
Notation world := (@world X).

Definition b_plate : plate V := mkPlate PlainPlate "x" 2 (WTorch (tscalar half)) [].
Definition b_x (w : world) : stensor V := mkS 0 (mkten [2] (fun i => val (w 0 i))) [b_plate] 1 [] [] true.
Definition b_lp (x : stensor V) (base : nat) : res (pyval V) := torch_op1 veq anc top_ctx lgp (PT x) base.
Definition b_cost (w : world) : stensor V := mkS 1 (mkten [2] (fun i => f (w 0 i))) [b_plate] 1 [] [0] false.
(** storch.reduce_plates of the cost: what a user who averages before add_cost registers. *)
Definition b_mean (w : world) : stensor V :=
  match reduce_plates veq anc o top_ctx (PT (b_cost w)) [] true 50 with Ok t => t | Err _ => b_cost w end.
Definition b_nodes {S : Type} (bl : option (@baseline V S)) (c : stensor V) (w : world) (i : nat) : @snode V S :=
  match i with
  | 0 => mkNode (b_x w) "x" (Some (2, b_lp, true, Some (score_method veq anc o o_exp bl)))
  | _ => mkNode c "cost" None
  end.
Definition b_heap : heap := fold_left (fun h ps => construct ps h) [[]; [0]] empty_heap.
Definition b_const (b : V) : @baseline V unit := fun _ _ _ sg _ => Ok (PRaw (tscalar b), sg).
Definition bx (x : X) : V := box o o_exp (lgp (val x)).

Definition direct_of (x y : X) : V := o_mul o half (o_add o (o_mul o (bx x) (f x)) (o_mul o (bx y) (f y))).
Definition mean_of (x y : X) : V := let m := o_mul o (o_det o half) (o_add o (f x) (f y)) in o_mul o half (o_add o (o_mul o (bx x) m) (o_mul o (bx y) m)).
Definition with_baseline (b : V) (x y : X) : V :=
  let one x := o_mul o (bx x) (o_add o (f x) (o_mul o (o_sub o (o_one o) (bx x)) b)) in o_mul o half (o_add o (one x) (one y)).
Definition moved (d m : V) (x y : X) : V :=
  o_add o (o_mul o d m) (o_mul o (o_sub o (o_one o) d) (o_det o (o_mul o (o_add o (f x) (f y)) (o_det o half)))).
Lemma add0 : forall x, o_add o (o_zero o) x = x.
Proof. intros. ring. Qed.
Lemma add0r : forall x, o_add o x (o_zero o) = x.
Proof. intros. ring. Qed.
Ltac evalp := match goal with |- exists t, ?X = Ok t /\ _ =>
    let x := eval cbv -[o_zero o_one o_add o_mul o_sub o_opp o_det] in X in
    let E := fresh in assert (E : X = x) by (vm_cast_no_check (eq_refl x)); rewrite E; clear E end.

(** The cost itself is registered. *)
Lemma direct_loss : forall w, exists t, backward_value veq anc o o_exp 20 b_heap (b_nodes (S := unit) None (b_cost w) w) [1] tt 100 = Ok t /\
  el t [] = direct_of (w 0 [0]) (w 0 [1]).
Proof.
  intros w. evalp. eexists. split; [reflexivity|]. cbv -[o_zero o_one o_add o_mul o_sub o_opp o_det]. rewrite ?add0. ring.
Qed.
Lemma mean_loss : forall w, exists t, backward_value veq anc o o_exp 20 b_heap (b_nodes (S := unit) None (b_mean w) w) [1] tt 100 = Ok t /\
  el t [] = mean_of (w 0 [0]) (w 0 [1]).
Proof.
  intros w. evalp. eexists. split; [reflexivity|]. cbv -[o_zero o_one o_add o_mul o_sub o_opp o_det]. rewrite ?add0. ring.
Qed.
Lemma const_loss : forall b w, exists t, backward_value veq anc o o_exp 20 b_heap (b_nodes (Some (b_const b)) (b_cost w) w) [1] tt 100 = Ok t /\
  el t [] = with_baseline b (w 0 [0]) (w 0 [1]).
Proof.
  intros b w. evalp. eexists. split; [reflexivity|]. cbv -[o_zero o_one o_add o_mul o_sub o_opp o_det]. rewrite ?add0. ring.
Qed.
Lemma moving_loss : forall d (g : string -> V) w,
  exists t, backward_value veq anc o o_exp 20 b_heap (b_nodes (Some (moving_average veq anc o d)) (b_cost w) w) [1] (fun k => tscalar (g k)) 100 = Ok t /\
  el t [] = with_baseline (moved d (g "_b_x_cost") (w 0 [0]) (w 0 [1])) (w 0 [0]) (w 0 [1]).
Proof.
  intros d g w. evalp. eexists. split; [reflexivity|]. cbv -[o_zero o_one o_add o_mul o_sub o_opp o_det]. rewrite ?add0, ?add0r. ring.
Qed.
End Bias.
