(** Specification vocabulary for storch tensors: what a tensor with plates means.
    Uses only the data types of the model (tensors, plates) and Python's plate comparison. *)
From Coq Require Import String List Arith Bool Lia.
From Verif Require Import Base Torch Plates.
Import ListNotations.

Section Spec.
Context {V : Type}.

(** A choice of sample index for every plate name. *)
Definition assignment : Type := string -> nat.

(** Plates that occupy a dimension. *)
Definition wide (l : list (plate V)) : list (plate V) := filter (fun p => 1 <? pn p) l.

(** The element of a storch tensor at a choice of plate indices [s] and an event index [e]. *)
Definition den (a : stensor V) (s : assignment) (e : list nat) : V :=
  el (st a) (map (fun p => s (pname p)) (wide (splates a)) ++ e).

(** [s] picks an existing sample of every plate in [l]. *)
Definition in_range (s : assignment) (l : list (plate V)) : Prop := forall p, In p l -> s (pname p) < pn p.

Definition has (l : list (plate V)) (name : string) : bool := existsb (fun p => String.eqb (pname p) name) l.

(** A storch tensor as users see it: distinct plate names, positive sizes, plate dimensions first. *)
Record wf (a : stensor V) : Prop := {
  wf_names : NoDup (map pname (splates a));
  wf_pos : forall p, In p (splates a) -> 1 <= pn p;
  wf_shape : shape (st a) = map pn (wide (splates a)) ++ s_event_shape a;
  wf_dims : s_plate_dims a = length (wide (splates a))
}.

(** Equally named plates in [l] are equal in the sense of == and have the same size. *)
Definition agree (veq : V -> V -> bool) (l : list (plate V)) : Prop :=
  forall p q, In p l -> In q l -> pname p = pname q -> peq veq p q = true /\ pn p = pn q.

(** Only ordinary (non-ancestral) plates. *)
Definition plain (l : list (plate V)) : Prop := forall p, In p l -> pcls p = PlainPlate.

(** Not in the middle of unwrapping: _override_equality is off. *)
Definition settled (p : plate V) : Prop := match pcls p with Ancestral _ ov => ov = false | PlainPlate => True end.

(** One object identity, one tensor. *)
Definition obj_ok (p q : plate V) : Prop :=
  forall o t w o' t' w', pweight p = WStorch o t w -> pweight q = WStorch o' t' w' -> o = o' -> t = t'.

(** Union of two plate lists, first-seen order. *)
Definition union (l m : list (plate V)) : list (plate V) := l ++ filter (fun q => negb (has l (pname q))) m.

(** Event shapes padded with ones on the right to a common rank. *)
Definition pad (m : nat) (ev : list nat) : list nat := ev ++ repeat 1 (m - length ev).

(** Elementwise broadcasting of two shapes of equal rank. *)
Inductive broadcasts : list nat -> list nat -> list nat -> Prop :=
| B_nil : broadcasts [] [] []
| B_same : forall n a b c, broadcasts a b c -> broadcasts (n :: a) (n :: b) (n :: c)
| B_left : forall n a b c, broadcasts a b c -> broadcasts (1 :: a) (n :: b) (n :: c)
| B_right : forall n a b c, broadcasts a b c -> broadcasts (n :: a) (1 :: b) (n :: c).

(** The index of an operand of event shape [ev] for an event index of the result: dimensions the operand lacks
    are dropped, singleton dimensions are read at 0. *)
Fixpoint proj (ev e : list nat) : list nat :=
  match ev, e with
  | d :: r, i :: s => (if d =? 1 then 0 else i) :: proj r s
  | _, _ => []
  end.

End Spec.
