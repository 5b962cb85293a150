(** Specification vocabulary for orderings of plates: by name, since distinct plates of a tensor have distinct names. *)
From Coq Require Import String List Arith Bool Lia.
From Verif Require Import Base Torch Plates SpecTensor.
Import ListNotations.

Section Spec.
Context {V : Type}.

(** [p] is (by name) a direct parent of [q]. *)
Definition parent_of (p q : plate V) : Prop := In (pname p) (map pname (pparents q)).

(** All proper ancestors of a plate. *)
Inductive above : plate V -> plate V -> Prop :=
| A_parent : forall a p, In a (pparents p) -> above a p
| A_up : forall a q p, In q (pparents p) -> above a q -> above a p.

(** Every plate of the list has all its direct parents in the list, or has no ancestor in the list at all. *)
Definition no_gaps (l : list (plate V)) : Prop :=
  forall p, In p l ->
    (forall q, In q (pparents p) -> In (pname q) (map pname l)) \/
    (forall a, above a p -> ~ In (pname a) (map pname l)).

(** Parents come before children. *)
Definition parents_first (l : list (plate V)) : Prop :=
  forall i j p q, nth_error l i = Some p -> nth_error l j = Some q -> parent_of p q -> i < j.

(** A cycle: a non-empty set of listed plates each of which has a parent in the set. *)
Definition cyclic (l : list (plate V)) : Prop :=
  exists c, c <> [] /\ incl c l /\ forall q, In q c -> exists p, In p c /\ parent_of p q.

(** Sensible input: distinct names, no plate lists a parent twice, equally named plates (also among all ancestors) are ==. *)
Definition ancestry (l : list (plate V)) (p : plate V) : Prop := In p l \/ exists q, In q l /\ above p q.
Definition orderable (veq : V -> V -> bool) (l : list (plate V)) : Prop :=
  NoDup (map pname l) /\ (forall p, In p l -> NoDup (map pname (pparents p))) /\
  (forall p q, ancestry l p -> ancestry l q -> pname p = pname q -> peq veq p q = true).

End Spec.
