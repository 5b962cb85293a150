(** Specification vocabulary for the plates of variables sampled in a sequence. *)
From Coq Require Import String List Arith Bool.
From Verif Require Import Base Torch Plates.
Import ListNotations.

Section Spec.
Context {V : Type}.
(** The plate sampled before the variable number [vi], if any, has at most [n] samples and belongs to an earlier variable. *)
Definition follows (vi n : nat) (prev : option (plate V)) : Prop :=
  match prev with None => vi = 0 | Some q => pn q <= n /\ exists v o, pcls q = Ancestral v o /\ v < vi end.
(** The plates that are not called [name]. *)
Definition other_plates (name : string) (l : list (plate V)) : list (plate V) := filter (fun p => negb (String.eqb (pname p) name)) l.
End Spec.
