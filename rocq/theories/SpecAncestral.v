(** Specification vocabulary for sequential sampling: which earlier sample a sample continues. *)
From Coq Require Import String List Arith Bool.
From Verif Require Import Base Torch Plates SpecTensor SpecReduce.
Import ListNotations.

Section Spec.
Context {V : Type}.
(** The number an element of an index tensor holds. *)
Variable toi : V -> nat.

(** The sample of the previous variable that is continued, for a choice [s] of samples. *)
Definition chosen (sel : stensor V) (s : assignment) : nat := toi (den sel s []).

(** The sample of the first of some consecutive variables that is continued: [sels] are the selections made since, the
    last one first. *)
Fixpoint ancestor (x : string) (sels : list (stensor V)) (s : assignment) : nat :=
  match sels with
  | [] => s x
  | sel :: r => ancestor x r (set_to s x (chosen sel s))
  end.

(** [sel] selects for every sample of plate [p] the sample of plate [q] it continues. Its plates are [p] and ordinary
    plates from [G]; as the decoder makes it, it still counts the dimension of [p] as its event. *)
Record selects (G : list (plate V)) (q p : plate V) (sel : stensor V) : Prop := {
  sel_names : NoDup (map pname (splates sel));
  sel_plates : forall r, In r (splates sel) -> r = p \/ In r G;
  sel_has : In p (splates sel);
  sel_pos : forall r, In r (splates sel) -> 1 <= pn r;
  sel_shape : shape (st sel) = map pn (wide (splates sel));
  sel_event : s_event_shape sel = [pn p];
  sel_range : forall s, in_range s (wide (splates sel)) -> chosen sel s < pn q
}.

(** A well-formed tensor over the samples of plate [q] and ordinary plates from [G]. *)
Record over (G : list (plate V)) (q : plate V) (a : stensor V) : Prop := {
  over_wf : wf a;
  over_in : In q (splates a);
  over_rest : forall r, In r (splates a) -> r = q \/ In r G
}.

(** [p] is the sampling plate [x] of the variable number [v], with more than one sample. *)
Record variable_plate (x : string) (v : nat) (p : plate V) : Prop := {
  vp_class : pcls p = Ancestral v false;
  vp_name : pname p = x;
  vp_wide : 1 < pn p
}.

(** [lineage q p l]: the decoder went from plate [q] to plate [p] through the plates of [l], the last one first, each with
    the selection made for it. [parent_plate] and [selected_samples] are the attributes the plates have. *)
Inductive lineage (parent_plate : string -> nat -> option (plate V)) (selected_samples : string -> nat -> option (stensor V))
  (G : list (plate V)) (x : string) (q : plate V) : plate V -> list (plate V * stensor V) -> Prop :=
| Lhere : forall v, variable_plate x v q -> lineage parent_plate selected_samples G x q q []
| Lnext : forall vm m p vp sel l,
    lineage parent_plate selected_samples G x q m l ->
    variable_plate x vm m -> variable_plate x vp p -> vm < vp ->
    parent_plate x vp = Some m -> selected_samples x vp = Some sel ->
    pn m <= pn p -> selects G m p sel ->
    lineage parent_plate selected_samples G x q p ((p, sel) :: l).

(** What the code computes instead of [ancestor]: every selection is followed twice. *)
Fixpoint ancestor_twice (x : string) (sels : list (stensor V)) (s : assignment) : nat :=
  match sels with
  | [] => s x
  | sel :: r => ancestor_twice x r (set_to s x (chosen sel (set_to s x (chosen sel s))))
  end.
Definition reached (x : string) (sels : list (stensor V)) (s : assignment) : nat :=
  match sels with
  | [] => s x
  | sel :: r => ancestor_twice x r (set_to s x (chosen sel s))
  end.

(** A selection that, followed twice, gives the same sample as followed once. *)
Definition settles (x : string) (sel : stensor V) : Prop :=
  forall s, in_range s (wide (splates sel)) -> chosen sel (set_to s x (chosen sel s)) = chosen sel s.
End Spec.
