(** C09, C10: the wrapping context. *)
From Coq Require Import String List Arith Bool Lia.
From Verif Require Import Base Context SpecContext ContextProofs.
Import ListNotations.
Open Scope string_scope.
Open Scope list_scope.

(** C09. Whatever wrapped calls a program makes and wherever it raises, afterwards the deterministic depth, the
    stochastic flag and what is recorded about a stochastic call are as before. *)
Theorem C09_context_restored : forall p g, tidy g -> same_ctx g (fst (run p g)).
Proof. exact run_restores. Qed.
Print Assumptions C09_context_restored.

(** A nest of calls that raises in the middle and recovers: the innermost function sees depth 2. *)
Definition c09_body : prog := PLook (fun g => if Nat.eqb (g_deterministic g) 2 then PRaise (UserExn 5) else PDone).
Definition c09_prog : prog :=
  PSeq (PStoch "f" (Ok ([3], [4])) (PTry (PDet (Ok ([1], [])) PDone None) (fun _ => PDone)) None)
       (PDet (Ok ([1; 2], [9])) (PSeq (PTry (PStoch "g" (Ok ([3], [4])) PDone None) (fun _ => PDone)) (PDet (Ok ([1], [])) c09_body None)) None).
Example C09_example : tidy g_init /\ run c09_prog g_init = (g_init, Some (UserExn 5)).
Proof. split; [intros _; repeat split|reflexivity]. Qed.

(** C10. Part: when no block contains another block and no exception leaves a block, programs started with wrapping
    on end with wrapping on. Missing: nested blocks and exceptions, see below. *)
Theorem C10_ignore_scoped_partial : forall p, calm p -> forall g, g_ignore g = false -> g_ignore (fst (run p g)) = false.
Proof. exact calm_restores. Qed.
Print Assumptions C10_ignore_scoped_partial.

Example C10_calm_example :
  calm (PSeq (PIgnore (PTry (PDet (Ok ([1], [])) (PRaise ValueError) None) (fun _ => PDone))) (PRaise TypeError)).
Proof.
  repeat constructor. intros g. simpl. destruct (g_stochastic g); reflexivity.
Qed.

(** An exception in the body leaves wrapping switched off, for every body without inner blocks. *)
Theorem C10_exception_refuted : forall b g g' e, no_blocks b -> run (PIgnore b) g = (g', Some e) -> g_ignore g' = true.
Proof. exact raise_keeps_ignoring. Qed.
Print Assumptions C10_exception_refuted.
Example C10_exception_example : exists g', run (PIgnore (PRaise ValueError)) g_init = (g', Some ValueError) /\
  g_ignore g_init = false /\ g_ignore g' = true.
Proof. eexists. repeat split; reflexivity. Qed.

(** Leaving an inner block switches wrapping on inside the outer block. *)
Theorem C10_nested_refuted : exists g', run (PIgnore PDone) (set_ignore true g_init) = (g', None) /\ g_ignore g' = false.
Proof. eexists. split; reflexivity. Qed.
Print Assumptions C10_nested_refuted.
