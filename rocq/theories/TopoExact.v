(** Exactly which tensors topological_sort lists. *)
From Coq Require Import String List Arith Bool Lia Relations.Relation_Operators.
From Verif Require Import Base ListLemmas Graph SpecGraph GraphProofs.
Import ListNotations.

Section Exact.
Variable h : heap.
Notation par c := (map fst (h_parents h c)).
Notation ch p := (map fst (h_children h p)).
Hypothesis SYM : forall p c, cnt (ch p) c = cnt (par c) p.
Hypothesis UP : forall p c, In p (par c) -> p < c.
Hypothesis SIZE : forall c, h_size h <= c -> par c = [].
Variable costs : list nat.

Lemma child_follows p c : In c (ch p) <-> follows (h_children h) false p c.
Proof.
  split.
  - intros H. apply in_map_iff in H as ([w d] & <- & H). exists d. split; auto. discriminate.
  - intros (d & H & _). apply in_map_iff. exists (c, d). auto.
Qed.
Lemma child_parent p c : In c (ch p) -> In p (par c).
Proof. intros H. apply (count_occ_In Nat.eq_dec). rewrite <- SYM. now apply count_occ_In. Qed.

Lemma listed_exact edges l : J h costs [] edges l ->
  forall x, In x l <-> (forall y, reachable (h_children h) false x y -> h_children h y = [] -> In y costs).
Proof.
  intros [j1 j2 j3 j4 j6]. rewrite app_nil_r in *.
  assert (step : forall x c, In x l -> In c (ch x) -> In c l).
  { intros x c Hx Hc. apply in_split in Hx as (l1 & l2 & E). specialize (j6 x l1 l2 E c Hc). rewrite E. apply in_app_iff. right. now right. }
  assert (j4' : forall p, In p l <-> In p costs \/ (ch p <> [] /\ rem h edges p = [])).
  { exact j4. }
  intros x. split.
  - intros Hx y R. induction R as [x|x c y F R IH].
    + intros E. apply j4' in Hx as [Hx|[N _]]; auto. exfalso. apply N. now rewrite E.
    + apply IH. apply step with x; auto. now apply child_follows.
  - remember (h_size h - x) as k eqn:K. revert x K. induction k as [k IH] using lt_wf_ind. intros x K P.
    destruct (list_eq_dec Nat.eq_dec (ch x) []) as [E|NE].
    + apply j4'. left. apply P; [apply rt1n_refl|]. now destruct (h_children h x).
    + apply j4'. right. split; auto. apply cnt_nil. intros c. rewrite j3. destruct (mem c l) eqn:Mc; auto.
      destruct (in_dec Nat.eq_dec c (ch x)) as [H|H]; [|now apply count_occ_not_In].
      exfalso. apply mem_notIn in Mc. apply Mc.
      assert (x < c) by (apply UP; now apply child_parent).
      assert (c < h_size h). { destruct (Nat.lt_ge_cases c (h_size h)) as [|G]; auto. apply SIZE in G. apply child_parent in H. rewrite G in H. destruct H. }
      apply IH with (m := h_size h - c); [lia|auto|]. intros y R. apply P. eapply rt1n_trans; [|exact R]. now apply child_follows.
Qed.
End Exact.

Notation build ops := (fold_left (fun h ps => construct ps h) ops empty_heap).
Lemma topo_exact ops is_cost costs : history ops -> NoDup costs ->
  (forall c, In c costs -> is_cost c = true /\ c < length ops /\ h_children (build ops) c = []) ->
  exists l, (forall fuel, length ops < fuel -> topological_sort fuel (build ops) is_cost costs = Ok l) /\
    NoDup l /\
    (forall x, In x l <-> forall y, reachable (h_children (build ops)) false x y -> h_children (build ops) y = [] -> In y costs) /\
    (forall p c, In p l -> In c (map fst (h_children (build ops) p)) -> before l c p).
Proof.
  intros O N C. pose proof (all_built ops O) as B. set (h := build ops) in *.
  assert (SYM : forall p c, cnt (map fst (h_children h p)) c = cnt (map fst (h_parents h c)) p) by (intros p c; apply (built_sym ops); auto).
  assert (UP : forall p c, In p (map fst (h_parents h c)) -> p < c) by (intros p c; apply (built_up ops); auto).
  assert (SIZE : forall c, h_size h <= c -> map fst (h_parents h c) = []).
  { intros c L. rewrite (built_par ops) by auto. apply nth_overflow. now rewrite <- (B_size _ _ B). }
  assert (E0 : existsb (fun c => negb (is_cost c) || negb (match h_children h c with [] => true | _ => false end)) costs = false).
  { destruct (existsb _ costs) eqn:E; auto. apply existsb_exists in E as (c & K & E). destruct (C c K) as (C1 & _ & C3). rewrite C1, C3 in E. discriminate. }
  assert (G : forall fuel, length ops < fuel -> exists out edges, topo_loop fuel h (rev costs) (fun _ => None) [] = Ok (rev out) /\ J h costs [] edges out).
  { intros fuel F. apply topo_loop_spec; auto.
    - intros c K. now apply C.
    - intros c K. rewrite (B_size _ _ B). now apply C.
    - rewrite (B_size _ _ B). cbn. lia.
    - constructor; cbn [app].
      + now apply NoDup_rev.
      + intros x H. apply in_rev in H. exists x. split; auto. apply rt1n_refl.
      + reflexivity.
      + intros p. rewrite <- in_rev. unfold rem. tauto.
      + intros p l1 l2 H. now destruct l1. }
  destruct (G (S (length ops)) (Nat.lt_succ_diag_r _)) as (out & edges & E & HJ).
  exists (rev out). split; [|split; [|split]].
  - intros fuel F.
    assert (M : forall k s edges acc r m, topo_loop k h s edges acc = Ok r -> k <= m -> topo_loop m h s edges acc = Ok r).
    { induction k as [|k IH]; intros s e' acc r m X L; [discriminate|]. destruct m; [lia|]. cbn [topo_loop] in *.
      destruct s; auto. destruct (foldM _ _ _); [|discriminate]. cbn [bind] in *. apply IH with (m := m) in X; auto. lia. }
    unfold topological_sort. rewrite E0. eapply M; eauto.
  - destruct HJ as [j1 _ _ _ _]. rewrite app_nil_r in j1. now apply NoDup_rev.
  - intros x. rewrite <- in_rev. apply (listed_exact h SYM UP SIZE costs edges out HJ).
  - destruct HJ as [_ _ _ _ j6]. intros p c Hp Hc. apply in_rev in Hp. apply in_split in Hp as (l1 & l2 & ->).
    apply before_rev. eapply before_split; eauto.
Qed.
