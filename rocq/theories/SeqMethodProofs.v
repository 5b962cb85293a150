(** Sequence methods: one term per cost. *)
From Coq Require Import String List Arith Bool Lia.
From Verif Require Import Base Torch Plates Wrap Scalar Reduce Graph Surrogate SeqMethod SpecSeq.
Import ListNotations.

Lemma compare_found : forall name d cost c, plate_object name cost = Some c ->
  compare_plate name d cost = Ok (negb (c =? fst d)).
Proof.
  intros name d. unfold plate_object. induction cost as [|x cost IH]; intros c H; simpl in *; [discriminate|].
  destruct (String.eqb (snd x) name); auto. simpl in H. injection H as <-. reflexivity.
Qed.
Lemma compare_missing : forall name d cost, plate_object name cost = None -> compare_plate name d cost = Err ValueError.
Proof.
  intros name d. unfold plate_object. induction cost as [|x cost IH]; intros H; simpl in *; auto.
  destruct (String.eqb (snd x) name); auto. discriminate.
Qed.

Lemma seq_pathwise_spec : forall name tensor cost,
  seq_is_pathwise name tensor cost =
  match plate_object name tensor, plate_object name cost with
  | None, _ => Ok true
  | Some _, None => Err ValueError
  | Some t, Some c => Ok (negb (t =? c))
  end.
Proof.
  intros name tensor cost. induction tensor as [|d r IH]; simpl; auto. unfold plate_object at 1. simpl.
  destruct (String.eqb (snd d) name) eqn:E; simpl.
  - destruct (plate_object name cost) as [c|] eqn:C.
    + rewrite (compare_found _ _ _ c) by auto. now rewrite Nat.eqb_sym.
    + now rewrite compare_missing.
  - exact IH.
Qed.

Section InSurrogate.
Context {V S : Type}.
Variable veq : V -> V -> bool.
Variable anc_unwrap : plate V -> stensor V -> res (stensor V).
Variable o : sops V.
Variable o_exp : V -> V.

(** The samples for which [isseq] holds come from sequence methods with plate [name]; the plates of tensor [p] are [plates p]. *)
Definition seq_graph (name : string) (isseq : nat -> bool) (plates : nat -> list plateref) (nodes : nat -> @snode V S)
  (order : list nat) : Prop :=
  forall p n lp req m, In p order -> isseq p = true -> nd_sto (nodes p) = Some (n, lp, req, Some m) ->
    forall c, me_pathwise m p c = seq_is_pathwise name (plates p) (plates c).

Lemma one_term : forall name isseq plates nodes c obj base order s, seq_graph name isseq plates nodes order ->
  plate_object name (plates c) = Some obj ->
  foldM (add_parent veq anc_unwrap o o_exp nodes c base) order s
  = foldM (add_parent veq anc_unwrap o o_exp nodes c base)
          (filter (fun p => negb (isseq p) || carries name obj (plates p)) order) s.
Proof.
  intros name isseq plates nodes c obj base order. induction order as [|p order IH]; intros s HG Hc; [reflexivity|].
  assert (HG' : seq_graph name isseq plates nodes order) by (intros q n lp req m Hq; apply HG; right; auto).
  cbn [foldM filter]. destruct (negb (isseq p) || carries name obj (plates p)) eqn:E.
  - cbn [foldM]. destruct (add_parent veq anc_unwrap o o_exp nodes c base s p); cbn [bind]; auto.
  - apply orb_false_iff in E as [Es E]. apply negb_false_iff in Es.
    assert (A : add_parent veq anc_unwrap o o_exp nodes c base s p = Ok s).
    { unfold add_parent. destruct s as [[L acc] sg]. destruct (nd_sto (nodes p)) as [[[[n lp] req] m]|] eqn:N; auto.
      destruct m as [m|]; auto. destruct req; auto.
      rewrite (HG p n lp true m (or_introl eq_refl) Es N c), seq_pathwise_spec, Hc. unfold carries in E.
      destruct (plate_object name (plates p)) as [x|]; cbn [bind]; auto. rewrite E. reflexivity. }
    rewrite A. cbn [bind]. now apply IH.
Qed.

Lemma unique_member : forall (f : nat -> bool) (order : list nat), NoDup order ->
  (forall p q, In p order -> In q order -> f p = true -> f q = true -> p = q) ->
  forall p, In p order -> f p = true -> filter f order = [p].
Proof.
  intros f order. induction order as [|q l IH]; intros ND Hu p Hp Hf; [destruct Hp|]. inversion ND; subst. simpl.
  destruct Hp as [->|Hp].
  - rewrite Hf. f_equal. destruct (filter f l) as [|r l'] eqn:Fl; auto. exfalso.
    assert (Hr : In r (filter f l)) by (rewrite Fl; left; auto). apply filter_In in Hr as [Hr Hc].
    apply H1. replace p with r; auto. apply Hu; simpl; auto.
  - destruct (f q) eqn:E.
    + exfalso. apply H1. replace q with p; auto. apply Hu; simpl; auto.
    + apply IH; auto. intros x y Hx Hy. apply Hu; right; auto.
Qed.

Lemma at_most_one : forall name (isseq : nat -> bool) (plates : nat -> list plateref) obj order, NoDup order ->
  (forall (p q x : nat), In p order -> In q order -> isseq p = true -> isseq q = true ->
     plate_object name (plates p) = Some x -> plate_object name (plates q) = Some x -> p = q) ->
  length (filter (fun p => isseq p && carries name obj (plates p)) order) <= 1 /\
  (forall p, In p order -> isseq p = true -> plate_object name (plates p) = Some obj ->
     filter (fun p => isseq p && carries name obj (plates p)) order = [p]).
Proof.
  intros name isseq plates obj order ND Hu.
  assert (C : forall p, carries name obj (plates p) = true <-> plate_object name (plates p) = Some obj).
  { intros p. unfold carries. destruct (plate_object name (plates p)) as [x|]; split; intros H; try discriminate.
    - apply Nat.eqb_eq in H. congruence.
    - injection H as ->. apply Nat.eqb_refl. }
  set (f := fun p => isseq p && carries name obj (plates p)).
  assert (U : forall p q, In p order -> In q order -> f p = true -> f q = true -> p = q).
  { intros p q Hp Hq Fp Fq. apply andb_true_iff in Fp as [Sp Cp], Fq as [Sq Cq]. apply C in Cp, Cq. apply (Hu p q obj); auto. }
  split.
  - destruct (filter f order) as [|p l] eqn:Fo; [simpl; lia|].
    assert (Hp : In p (filter f order)) by (rewrite Fo; left; auto).
    apply filter_In in Hp as [Hp Hc]. rewrite (unique_member f order ND U p Hp Hc) in Fo. injection Fo as <-. simpl; lia.
  - intros p Hp Hs Ho. apply unique_member; auto. unfold f. rewrite Hs. now apply C.
Qed.

Lemma cost_lacks_plate : forall name plates (nodes : nat -> @snode V S) c base p n lp m s x,
  nd_sto (nodes p) = Some (n, lp, true, Some m) -> me_pathwise m p c = seq_is_pathwise name (plates p) (plates c) ->
  plate_object name (plates p) = Some x -> plate_object name (plates c) = None ->
  add_parent veq anc_unwrap o o_exp nodes c base s p = Err ValueError.
Proof.
  intros name plates nodes c base p n lp m [[L acc] sg] x N Hm Hp Hc. unfold add_parent. rewrite N, Hm, seq_pathwise_spec, Hp, Hc.
  reflexivity.
Qed.

End InSurrogate.
