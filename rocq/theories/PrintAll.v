(** print_graph on the graphs that storch constructs. *)
From Coq Require Import String List Arith Bool Lia Relations.Relation_Operators.
From Verif Require Import Base Graph PrintGraph SpecGraph SpecPrint GraphProofs TopoExact PrintProofs.
Import ListNotations.

Lemma print_listed ops info costs : history ops -> NoDup costs ->
  (forall c, In c costs -> i_cost (info c) = true /\ c < length ops /\ h_children (build ops) c = []) ->
  exists l f, (forall fuel, length ops < fuel -> print_graph fuel (build ops) info costs = Ok (listing f (build ops) l)) /\ NoDup l /\
    (forall x, In x l <-> forall y, reachable (h_children (build ops)) false x y -> h_children (build ops) y = [] -> In y costs) /\
    (forall x, In x l -> numbered (label_of (info x)) (f x)) /\ (forall x y, In x l -> In y l -> f x = f y -> x = y).
Proof.
  intros O N C. destruct (topo_exact ops (fun c => i_cost (info c)) costs O N C) as (l & E & R1 & R2 & _).
  pose proof (print_graph_spec (S (length ops)) (build ops) info costs) as P. rewrite E in P by lia. destruct P as (f & F1 & F2 & F3).
  exists l, f. split; [|split; [exact R1|split; [exact R2|split]]].
  - intros fuel F. rewrite <- F1. unfold print_graph. now rewrite !E by lia.
  - intros x Hx. apply F2. apply in_app_iff. now left.
  - intros x y Hx Hy. apply F3; apply in_app_iff; now left.
Qed.
Lemma print_all ops info costs : history ops -> NoDup costs ->
  (forall c, In c costs -> i_cost (info c) = true /\ c < length ops /\ h_children (build ops) c = []) ->
  (forall k x y, In k costs -> reachable (h_parents (build ops)) false k x -> reachable (h_children (build ops)) false x y -> h_children (build ops) y = [] -> In y costs) ->
  exists l f, (forall fuel, length ops < fuel -> print_graph fuel (build ops) info costs = Ok (listing f (build ops) l)) /\ NoDup l /\
    (forall x, In x l <-> exists k, In k costs /\ reachable (h_parents (build ops)) false k x) /\
    (forall x, In x l -> numbered (label_of (info x)) (f x)) /\ (forall x y, In x l -> In y l -> f x = f y -> x = y).
Proof.
  intros O N C SD. destruct (print_listed ops info costs O N C) as (l & f & E & R1 & R2 & R3 & R4). exists l, f. split; [exact E|]. split; [exact R1|].
  split; [|split; assumption]. intros x. rewrite R2. split.
  - (* a tensor reaches a childless one, which is a cost *)
    intros P. pose proof (all_built ops O) as B.
    assert (SYM : forall p c, cnt (map fst (h_children (build ops) p)) c = cnt (map fst (h_parents (build ops) c)) p) by (intros p c; apply (built_sym ops); auto).
    assert (UP : forall p c, In p (map fst (h_parents (build ops) c)) -> p < c) by (intros p c; apply (built_up ops); auto).
    assert (SIZE : forall c, length ops <= c -> map fst (h_parents (build ops) c) = []).
    { intros c L. rewrite (built_par ops) by auto. now apply nth_overflow. }
    remember (length ops - x) as k eqn:K. revert x K P. induction k as [k IH] using lt_wf_ind. intros x K P.
    destruct (h_children (build ops) x) as [|[c d] r] eqn:Ex.
    + exists x. split; [apply P; [apply rt1n_refl|exact Ex]|apply rt1n_refl].
    + assert (Hc : In c (map fst (h_children (build ops) x))) by (rewrite Ex; now left).
      pose proof (child_parent (build ops) SYM x c Hc) as Hp. pose proof (UP _ _ Hp).
      assert (c < length ops). { destruct (Nat.lt_ge_cases c (length ops)) as [|G]; auto. apply SIZE in G. rewrite G in Hp. destruct Hp. }
      destruct (IH (length ops - c) ltac:(lia) c eq_refl) as (k' & K1 & K2).
      * intros y R. apply P. eapply rt1n_trans; [|exact R]. now apply child_follows.
      * exists k'. split; auto. eapply reach_step; [exact K2|]. apply in_map_iff in Hp as ([w d'] & W & Hp). cbn in W. subst w. exists d'. split; auto. discriminate.
  - intros (k & K1 & K2) y R E'. eapply SD; eauto.
Qed.
Lemma print_side ops info costs k x y : history ops -> NoDup costs ->
  (forall c, In c costs -> i_cost (info c) = true /\ c < length ops /\ h_children (build ops) c = []) ->
  In k costs -> reachable (h_parents (build ops)) false k x -> reachable (h_children (build ops)) false x y -> h_children (build ops) y = [] -> ~ In y costs ->
  exists lines, (forall fuel, length ops < fuel -> print_graph fuel (build ops) info costs = Ok lines) /\ forall s, ~ In (LNode s x) lines.
Proof.
  intros O N C _ _ R E Ny. destruct (print_listed ops info costs O N C) as (l & f & P & _ & R2 & _). exists (listing f (build ops) l). split; [exact P|].
  intros s H. unfold listing in H. apply in_app_or in H as [H|H].
  - apply in_map_iff in H as (n & En & H). injection En as _ ->. rewrite R2 in H. apply Ny. now apply H.
  - apply in_flat_map in H as (n & _ & H). apply in_map_iff in H as (e & D & _). discriminate.
Qed.
