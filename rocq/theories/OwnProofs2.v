(** The losses of several costs one after the other (C99). *)
From Coq Require Import String List Arith Bool ZArith Lia Permutation Ring.
From Verif Require Import Base Torch Plates Wrap OrderPlates Scalar Reduce Graph Surrogate SpecTensor SpecWrap
  SpecOrder SpecReduce SpecGraph SpecSurrogate SpecOwn OwnProofs.
Import ListNotations.

Section Order.
Context {V : Type}.
Variable veq : V -> V -> bool.
Variable anc_unwrap : plate V -> stensor V -> res (stensor V).
Variable o : sops V.
Variable o_exp : V -> V.
Hypothesis Hring : is_ring o.
Variable nodes : nat -> @snode V (averages V).
Variable FP : nat -> list (plate V).
Variable order : nat -> list nat.
Variable fuel : nat.
Variable h : heap.
Variable base : nat.
Notation loss c sg := (surrogate_cost veq anc_unwrap o o_exp fuel h nodes base c sg).
Notation slots_differ c d := (forall p q, In p (order c) -> In q (order d) -> slot (nd_name (nodes p)) (nd_name (nodes c)) <> slot (nd_name (nodes q)) (nd_name (nodes d))).

Theorem losses_alone : forall cs, (forall c, In c cs -> covered veq anc_unwrap o o_exp nodes (FP c) c (order c) /\ surrogate_order fuel h c = Some (order c)) ->
  ForallOrdPairs (fun c d => slots_differ c d) cs ->
  forall sg vs sg', surrogate_costs veq anc_unwrap o o_exp fuel h nodes base cs sg = Ok (vs, sg') ->
  Forall2 (fun c v => exists sg1, loss c sg = Ok (v, sg1)) cs vs.
Proof.
  induction cs as [|c cs IH]; intros Hc Hd sg vs sg' H; cbn [surrogate_costs] in H; [injection H as <- <-; constructor|].
  destruct (surrogate_cost _ _ _ _ _ _ _ _ c sg) as [[x sg1]|] eqn:E1; [|discriminate]. cbn [bind] in H.
  destruct (surrogate_costs _ _ _ _ _ _ _ _ cs sg1) as [[xs sg2]|] eqn:E2; [|discriminate]. cbn [bind] in H. injection H as <- <-.
  inversion Hd as [|c' cs' Hd1 Hd2]; subst. destruct (Hc c (or_introl eq_refl)) as [C1 C2].
  destruct (own_spec veq anc_unwrap o o_exp Hring nodes (FP c) fuel h base c (order c) C1 C2 sg x sg1 E1) as [A _].
  constructor; [eauto|]. specialize (IH (fun d Hin => Hc d (or_intror Hin)) Hd2 sg1 xs sg2 E2).
  assert (G : forall d, In d cs -> forall v s1, loss d sg1 = Ok (v, s1) -> exists s2, loss d sg = Ok (v, s2)).
  { intros d Hin v s1 E. destruct (Hc d (or_intror Hin)) as [D1 D2].
    destruct (own_spec veq anc_unwrap o o_exp Hring nodes (FP d) fuel h base d (order d) D1 D2 sg1 v s1 E) as [_ B].
    destruct (B sg) as [s2 [F _]]; [|eauto]. intros q Hq. symmetry. apply A. intros p Hp Es. rewrite Forall_forall in Hd1. exact (Hd1 d Hin p q Hp Hq (eq_sym Es)). }
  clear - IH G. induction IH as [|d v ds ws [s1 E] _ IH]; constructor; [exact (G d (or_introl eq_refl) v s1 E)|]. apply IH. intros e He. apply G. now right.
Qed.

(** Hence the order in which the costs are handled does not matter. *)
Theorem losses_order : forall cs cs', Permutation cs cs' -> (forall c, In c cs -> covered veq anc_unwrap o o_exp nodes (FP c) c (order c) /\ surrogate_order fuel h c = Some (order c)) ->
  (forall c d, In c cs -> In d cs -> c <> d -> slots_differ c d) -> NoDup cs ->
  forall sg vs vs' sg1 sg2, surrogate_costs veq anc_unwrap o o_exp fuel h nodes base cs sg = Ok (vs, sg1) ->
  surrogate_costs veq anc_unwrap o o_exp fuel h nodes base cs' sg = Ok (vs', sg2) -> Permutation (combine cs vs) (combine cs' vs').
Proof.
  intros cs cs' Hp Hc Hd Hn sg vs vs' sg1 sg2 H1 H2.
  assert (P : forall l, NoDup l -> incl l cs -> ForallOrdPairs (fun c d => slots_differ c d) l).
  { induction l as [|c l IH]; intros Nl Il; [constructor|]. inversion Nl as [|c' l' Hi Nl' Eq]; subst. constructor.
    - apply Forall_forall. intros d Hin. apply Hd; [apply Il; now left|apply Il; now right|]. intros ->. contradiction.
    - apply IH; [exact Nl'|]. intros d Hin. apply Il. now right. }
  pose proof (losses_alone cs Hc (P cs Hn (incl_refl _)) sg vs sg1 H1) as A.
  assert (Ic : incl cs' cs) by (intros c Hin; eapply Permutation_in; [apply Permutation_sym|]; eauto).
  pose proof (losses_alone cs' (fun c Hin => Hc c (Ic c Hin)) (P cs' (Permutation_NoDup Hp Hn) Ic) sg vs' sg2 H2) as B.
  set (f := fun c => match loss c sg with Ok (v, _) => v | Err _ => PRaw (tscalar (o_zero o)) end).
  assert (F : forall l ws, Forall2 (fun c v => exists s, loss c sg = Ok (v, s)) l ws -> combine l ws = map (fun c => (c, f c)) l).
  { intros l ws K. induction K as [|c v l ws [s E] _ IH]; [reflexivity|]. cbn [combine map]. rewrite IH. unfold f. now rewrite E. }
  rewrite (F _ _ A), (F _ _ B). now apply Permutation_map.
Qed.
End Order.
