(** Where baselines keep what they remember (C99). *)
From Coq Require Import String List Arith.
From Verif Require Import Base Torch Plates Wrap OrderPlates Scalar Reduce Graph Surrogate SpecTensor SpecWrap SpecOrder SpecReduce SpecGraph SpecSurrogate.
Import ListNotations.

(** The attribute of a score function for a variable and a cost, by their names (storch/method/method.py:568). *)
Definition slot (variable cost : string) : string := ("_b_" ++ variable ++ "_" ++ cost)%string.

Section Own.
Context {V T : Type}.
(** A baseline that, called for an attribute, reads and changes nothing else of the averages. *)
Definition keeps_to_itself (bl : @baseline V (string -> T)) : Prop := forall x c key sg base b sg1, bl x c key sg base = Ok (b, sg1) ->
  (forall k, k <> key -> sg1 k = sg k) /\
  forall sg', sg' key = sg key -> exists sg1', bl x c key sg' base = Ok (b, sg1') /\ sg1' key = sg1 key /\ forall k, k <> key -> sg1' k = sg' k.
End Own.

(** Whether the weight of a plate is a single number. *)
Definition one_number {V : Type} (p : plate V) : bool := match pweight p with WTorch w | WStorch _ w _ => ndim w =? 0 end.
(** A ScoreFunction, without baseline or with one that keeps to its attribute. *)
Definition score_function {V T : Type} (veq : V -> V -> bool) (anc_unwrap : plate V -> stensor V -> res (stensor V)) (o : sops V) (o_exp : V -> V)
  (m : @meth V (string -> T)) : Prop :=
  exists bl, m = score_method veq anc_unwrap o o_exp bl /\ match bl with Some f => keeps_to_itself f | None => True end.

(** A cost [c] without event dimensions, with the variables it was computed from. All variables that get a gradient
    term do so with a score function, and have all plates of the cost. *)
Record covered {V T : Type} (veq : V -> V -> bool) (anc_unwrap : plate V -> stensor V -> res (stensor V)) (o : sops V) (o_exp : V -> V)
  (nodes : nat -> @snode V (string -> T)) (FP : list (plate V)) (c : nat) (order : list nat) : Prop := {
  cv_plates : plates_ok veq FP; cv_over : over FP (nd_t (nodes c)); cv_scalar : s_event_shape (nd_t (nodes c)) = [];
  cv_gaps : no_gaps (wide (splates (nd_t (nodes c))));
  cv_variables : forall p n lp m, In p order -> nd_sto (nodes p) = Some (n, lp, true, Some m) ->
    score_function veq anc_unwrap o o_exp m /\ over FP (nd_t (nodes p)) /\ foreign (nd_t (nodes c)) (splates (nd_t (nodes p))) = []
}.
