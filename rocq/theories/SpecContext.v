(** Specification vocabulary for the wrapping context. *)
From Coq Require Import String List Arith Bool Lia.
From Verif Require Import Base Context.
Import ListNotations.

(** Everything but the ignore flag is the same. *)
Definition same_ctx (g g' : gctx) : Prop :=
  g_stochastic g' = g_stochastic g /\ g_deterministic g' = g_deterministic g /\ g_parents g' = g_parents g /\
  g_name g' = g_name g /\ g_links g' = g_links g.

(** Outside of a stochastic call nothing is recorded about one. *)
Definition tidy (g : gctx) : Prop :=
  g_stochastic g = false -> g_parents g = [] /\ g_name g = None /\ g_links g = [].

(** The program contains no ignore_wrapping block. *)
Inductive no_blocks : prog -> Prop :=
| NB_done : no_blocks PDone
| NB_raise : forall e, no_blocks (PRaise e)
| NB_seq : forall p q, no_blocks p -> no_blocks q -> no_blocks (PSeq p q)
| NB_try : forall p h, no_blocks p -> (forall e, no_blocks (h e)) -> no_blocks (PTry p h)
| NB_look : forall k, (forall g, no_blocks (k g)) -> no_blocks (PLook k)
| NB_top : no_blocks PTop
| NB_det : forall prep b o, no_blocks b -> no_blocks (PDet prep b o)
| NB_stoch : forall n prep b o, no_blocks b -> no_blocks (PStoch n prep b o).

(** No ignore_wrapping block contains another one, or a [raise], or a call or check that can raise: every block is
    entered with wrapping on and left normally. *)
Inductive calm : prog -> Prop :=
| CA_done : calm PDone
| CA_raise : forall e, calm (PRaise e)
| CA_seq : forall p q, calm p -> calm q -> calm (PSeq p q)
| CA_try : forall p h, calm p -> (forall e, calm (h e)) -> calm (PTry p h)
| CA_look : forall k, (forall g, calm (k g)) -> calm (PLook k)
| CA_top : calm PTop
| CA_det : forall prep b o, calm b -> calm (PDet prep b o)
| CA_stoch : forall n prep b o, calm b -> calm (PStoch n prep b o)
| CA_ignore : forall b, no_blocks b -> (forall g, snd (run b g) = None) -> calm (PIgnore b).
