(** What the gradients of a sample's parameters should be. *)
From Coq Require Import String List Arith Bool.
From Verif Require Import Base Torch Plates Scalar Hooks.
Import ListNotations.

Section SpecHooks.
Context {V : Type}.

(** The gradients delivered before the first cleaning, with the hook they were delivered to. *)
Fixpoint before (evs : list (@event V)) : list (nat * ten V) :=
  match evs with
  | Deliver i g :: r => (i, g) :: before r
  | _ => []
  end.

(** Those for the parameter [name]. *)
Definition delivered (hs : list (@hook V)) (name : string) (evs : list (@event V)) : list (ten V) :=
  map snd (filter (fun d => match nth_error hs (fst d) with Some h => String.eqb (hk_name h) name | None => false end)
                  (before evs)).

(** A parameter of shape [shp]: its plates come first. *)
Definition fits (h : @hook V) (shp : list nat) : Prop :=
  NoDup (map pname (hk_plates h)) /\ (forall p, In p (hk_plates h) -> 1 <= pn p) /\
  exists ev, shp = map pn (filter (fun p => 1 <? pn p) (hk_plates h)) ++ ev.

(** The gradients of a parameter have its shape. *)
Definition shaped (shp : nat -> list nat) (n : nat) (e : @event V) : Prop :=
  match e with Deliver i g => i < n /\ shape g = shp i | Clean => True end.

End SpecHooks.
