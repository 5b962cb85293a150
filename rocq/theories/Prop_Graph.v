(** C12-C16, C37: the computation graph. *)
From Coq Require Import String List Arith Bool Lia.
From Coq Require Import Relations.Relation_Operators.
From Verif Require Import Base Graph SpecGraph GraphProofs TopoExact TwiceProofs.
Import ListNotations.

(** C12. In every finite graph (the tensors in [univ] are closed under links) every walk without repetitions, depth
    first, breadth first or reversed breadth first, over all or only differentiable links, ends and yields each tensor
    reachable from the start exactly once. *)
Theorem C12_walk_reachable : forall expand univ depth_first reverse only_diff self,
  closed_under expand univ -> In self univ ->
  exists l, NoDup l /\ (forall x, In x l <-> reachable expand only_diff self x) /\
    (exists enough, forall fuel, enough <= fuel -> walk fuel expand depth_first reverse only_diff false self = Some l) /\
    (forall fuel l', walk fuel expand depth_first reverse only_diff false self = Some l' -> l' = l).
Proof. exact walk_spec. Qed.
Print Assumptions C12_walk_reachable.

(** A graph with a diamond, a double link, a non-differentiable link and a cycle. *)
Definition c12_links (v : nat) : list edge :=
  match v with
  | 0 => [(1, true); (2, true); (2, true)] | 1 => [(3, false)] | 2 => [(3, true); (4, false)] | 4 => [(0, true)] | _ => []
  end.
Example C12_example : closed_under c12_links [0; 1; 2; 3; 4] /\ In 0 [0; 1; 2; 3; 4] /\
  walk 20 c12_links true false false false 0 = Some [0; 2; 4; 3; 1] /\
  walk 20 c12_links false false false false 0 = Some [0; 1; 2; 3; 4] /\
  walk 20 c12_links false true true false 0 = Some [3; 2; 1; 0].
Proof.
  split; [|repeat split; try reflexivity; now left].
  intros v w d Hv H. unfold c12_links in H.
  repeat (destruct Hv as [<-|Hv]; [cbn in H; repeat (destruct H as [[= <- <-]|H]; [cbn; tauto|]); destruct H|]).
  destruct Hv.
Qed.

(** C13. Part: the walk of the surrogate loss over the ancestors of [c] is a topological order (every tensor after all
    its ancestors) when all paths from [c] to a tensor have the same length, expressed by a depth function. Missing:
    graphs with paths of different lengths, see C13_topological_refuted. *)
Theorem C13_topological_partial : forall ops c depth, history ops -> c < length ops ->
  let h := fold_left (fun h ps => construct ps h) ops empty_heap in
  (forall v w, reachable (h_parents h) false c v -> follows (h_parents h) false v w -> depth w = S (depth v)) ->
  exists l, (exists enough, forall fuel, enough <= fuel -> surrogate_order fuel h c = Some l) /\ NoDup l /\
    (forall x, In x l <-> reachable (h_parents h) false c x) /\
    (forall x y, In x l -> ancestor (h_parents h) x y -> before l y x).
Proof. exact surrogate_layered. Qed.
Print Assumptions C13_topological_partial.

(** Two tensors 1 and 2 computed from 0, tensor 3 from both, 4 the cost. *)
Example C13_example :
  let ops := [[]; [0]; [0]; [1; 2]; [3]] in
  let h := fold_left (fun h ps => construct ps h) ops empty_heap in
  let depth v := match v with 4 => 0 | 3 => 1 | 2 | 1 => 2 | _ => 3 end in
  history ops /\ 4 < length ops /\
  (forall v w, reachable (h_parents h) false 4 v -> follows (h_parents h) false v w -> depth w = S (depth v)) /\
  surrogate_order 9 h 4 = Some [0; 2; 1; 3; 4].
Proof.
  cbv zeta. split; [|split; [cbn; lia|split; [|reflexivity]]].
  - intros i p. do 6 (destruct i as [|i]; [cbn; lia|]). cbn. destruct i; intros [].
  - intros v w _ (d & H & _). do 6 (destruct v as [|v]; [cbn in H; repeat (destruct H as [[= <- <-]|H]; [reflexivity|]); destruct H|]).
    cbn in H. destruct H.
Qed.

(** A cost [c = f(a, b)] with [b] sampled from a distribution that depends on [a]: [b] is processed before its
    ancestor [a]. *)
Theorem C13_topological_refuted :
  let ops := [[]; [0]; [0; 1]] in
  let h := fold_left (fun h ps => construct ps h) ops empty_heap in
  history ops /\ ancestor (h_parents h) 1 0 /\
  (forall fuel, 4 <= fuel -> surrogate_order fuel h 2 = Some [1; 0; 2]) /\ ~ before [1; 0; 2] 0 1.
Proof. exact not_topological. Qed.
Print Assumptions C13_topological_refuted.

(** C14. Part: for every graph of constructed tensors and distinct childless costs, when every child of an ancestor of
    the costs is itself an ancestor of the costs or one of them, topological_sort lists exactly the costs and their
    ancestors, once each, children first. Missing: graphs with other children, see C14_side_branch_refuted. *)
Theorem C14_topological_sort_partial : forall ops is_cost costs,
  let h := fold_left (fun h ps => construct ps h) ops empty_heap in
  history ops -> NoDup costs ->
  (forall c, In c costs -> is_cost c = true /\ c < length ops /\ h_children h c = []) ->
  (forall p c k, In k costs -> reachable (h_parents h) false k p -> In c (map fst (h_children h p)) ->
     exists k', In k' costs /\ reachable (h_parents h) false k' c) ->
  exists l, (forall fuel, length ops < fuel -> topological_sort fuel h is_cost costs = Ok l) /\
    NoDup l /\
    (forall x, In x l <-> exists k, In k costs /\ reachable (h_parents h) false k x) /\
    (forall p c, In p l -> In c (map fst (h_children h p)) -> before l c p).
Proof. exact topo_sorted. Qed.
Print Assumptions C14_topological_sort_partial.

(** A diamond with a double link and two costs. *)
Example C14_example :
  let ops := [[]; [0]; [0; 0; 1]; [1]; [2]] in
  let h := fold_left (fun h ps => construct ps h) ops empty_heap in
  let is_cost := Nat.leb 3 in
  history ops /\ NoDup [3; 4] /\
  (forall c, In c [3; 4] -> is_cost c = true /\ c < length ops /\ h_children h c = []) /\
  (forall p c k, In k [3; 4] -> reachable (h_parents h) false k p -> In c (map fst (h_children h p)) ->
     exists k', In k' [3; 4] /\ reachable (h_parents h) false k' c) /\
  topological_sort 6 h is_cost [3; 4] = Ok [4; 2; 3; 1; 0].
Proof.
  cbv zeta. split; [|split; [|split; [|split; [|reflexivity]]]].
  - intros i p. do 6 (destruct i as [|i]; [cbn; lia|]). cbn. destruct i; intros [].
  - repeat constructor; cbn; lia.
  - intros c [<-|[<-|[]]]; repeat split; cbn; lia.
  - intros p c k _ _ H.
    assert (R : forall x, In x [1; 2; 3; 4] -> exists k', In k' [3; 4] /\
       reachable (h_parents (fold_left (fun h ps => construct ps h) [[]; [0]; [0; 0; 1]; [1]; [2]] empty_heap)) false k' x).
    { intros x [<-|[<-|[<-|[<-|[]]]]].
      - exists 3. split; [now left|]. eapply rt1n_trans; [|apply rt1n_refl]. exists false. split; [now left|easy].
      - exists 4. split; [right; now left|]. eapply rt1n_trans; [|apply rt1n_refl]. exists false. split; [now left|easy].
      - exists 3. split; [now left|]. apply rt1n_refl.
      - exists 4. split; [right; now left|]. apply rt1n_refl. }
    apply R. do 6 (destruct p as [|p]; [cbn in H |- *; tauto|]). cbn in H. destruct H.
Qed.

(** A tensor computed from an ancestor of the cost but not used by it keeps that ancestor, and all its own ancestors,
    out of the list: 2 is the cost, 3 a side result of 1, and neither 1 nor 0 is listed. *)
Theorem C14_side_branch_refuted :
  let ops := [[]; [0]; [1]; [1]] in
  let h := fold_left (fun h ps => construct ps h) ops empty_heap in
  history ops /\ h_children h 2 = [] /\ ancestor (h_parents h) 2 1 /\ ancestor (h_parents h) 2 0 /\
  (forall fuel, 4 < fuel -> topological_sort fuel h (Nat.eqb 2) [2] = Ok [2]).
Proof. exact side_branch. Qed.
Print Assumptions C14_side_branch_refuted.

(** A list that mentions a cost twice is not rejected: the second time, the link from its parent is gone. If there are no
    other links, IndexError is raised; otherwise the link to another child is deleted instead, and the parent is listed
    although this child is not. *)
Theorem C14_twice_refuted : forall h is_cost c p d, is_cost c = true -> h_children h c = [] ->
  h_parents h c = [(p, d)] -> h_parents h p = [] -> map fst (h_children h p) = [c] ->
  forall fuel, 2 < fuel -> topological_sort fuel h is_cost [c; c] = Err IndexError.
Proof. exact twice_only. Qed.
Print Assumptions C14_twice_refuted.
Theorem C14_twice_other_refuted : forall h is_cost c p d y, c <> y -> is_cost c = true -> h_children h c = [] ->
  h_parents h c = [(p, d)] -> h_parents h p = [] -> map fst (h_children h p) = [c; y] ->
  forall fuel, 3 < fuel -> topological_sort fuel h is_cost [c; c] = Ok [c; c; p].
Proof. exact twice_other. Qed.
Print Assumptions C14_twice_other_refuted.
Example C14_twice_witness :
  let h := fold_left (fun h ps => construct ps h) [[]; [0]] empty_heap in
  let h' := fold_left (fun h ps => construct ps h) [[]; [0]; [0]] empty_heap in
  h_children h 1 = [] /\ (exists d, h_parents h 1 = [(0, d)]) /\ h_parents h 0 = [] /\ map fst (h_children h 0) = [1] /\
  h_children h' 1 = [] /\ (exists d, h_parents h' 1 = [(0, d)]) /\ h_parents h' 0 = [] /\ map fst (h_children h' 0) = [1; 2].
Proof. cbv zeta. repeat split; eexists; reflexivity. Qed.

(** In general, for every graph of constructed tensors: topological_sort lists exactly the tensors all whose childless
    descendants are among the costs, once each, children first. Every ancestor of the costs with another childless
    descendant is missing; [C14_topological_sort_partial] is the case without such. *)
Theorem C14_listed_partial : forall ops is_cost costs,
  let h := fold_left (fun h ps => construct ps h) ops empty_heap in
  history ops -> NoDup costs ->
  (forall c, In c costs -> is_cost c = true /\ c < length ops /\ h_children h c = []) ->
  exists l, (forall fuel, length ops < fuel -> topological_sort fuel h is_cost costs = Ok l) /\
    NoDup l /\
    (forall x, In x l <-> forall y, reachable (h_children h) false x y -> h_children h y = [] -> In y costs) /\
    (forall p c, In p l -> In c (map fst (h_children h p)) -> before l c p).
Proof. exact topo_exact. Qed.
Print Assumptions C14_listed_partial.

(** Two costs 4 and 5 and a side result 3 of 1: 1 and its ancestor 0 are missing, 2 is listed. *)
Example C14_listed_example :
  let ops := [[]; [0]; []; [1]; [1; 2]; [2]] in
  let h := fold_left (fun h ps => construct ps h) ops empty_heap in
  history ops /\ NoDup [4; 5] /\ (forall c, In c [4; 5] -> Nat.leb 4 c = true /\ c < length ops /\ h_children h c = []) /\
  reachable (h_children h) false 0 3 /\ h_children h 3 = [] /\ ~ In 3 [4; 5] /\
  topological_sort 7 h (Nat.leb 4) [4; 5] = Ok [5; 4; 2].
Proof.
  cbv zeta. split; [|split; [|split; [|split; [|split; [|split]]]]]; try reflexivity.
  - intros i p. do 7 (destruct i as [|i]; [cbn; lia|]). cbn. destruct i; intros [].
  - repeat constructor; cbn; lia.
  - intros c [<-|[<-|[]]]; repeat split; cbn; lia.
  - eapply rt1n_trans; [exists false; split; [now left|easy]|]. eapply rt1n_trans; [exists false; split; [now left|easy]|]. apply rt1n_refl.
  - cbn. lia.
Qed.

(** C15. Whatever tensors are constructed from tensors that exist, tensor [c] lists exactly the given parents, in
    order, child and parent links occur equally often, and no tensor is its own ancestor. *)
Theorem C15_links : forall ops, history ops ->
  let h := fold_left (fun h ps => construct ps h) ops empty_heap in
  (forall c, map fst (h_parents h c) = nth c ops []) /\
  (forall p c, occurrences c (h_children h p) = occurrences p (h_parents h c)) /\
  (forall x, ~ ancestor (h_parents h) x x).
Proof. exact constructed_links. Qed.
Print Assumptions C15_links.

Example C15_example : history [[]; [0]; [0; 0; 1]] /\
  let h := fold_left (fun h ps => construct ps h) [[]; [0]; [0; 0; 1]] empty_heap in
  occurrences 2 (h_children h 0) = 2 /\ occurrences 1 (h_children h 0) = 1.
Proof.
  split; [|split; reflexivity]. intros i p. do 4 (destruct i as [|i]; [cbn; lia|]). cbn. destruct i; intros [].
Qed.

(** The stand-in tensors that surrogate_loss puts into the graph break the symmetry: 3 stands in for 1, lists the cost
    2 as its child, but 2 does not list 3 as a parent. *)
Theorem C15_surrogate_refuted :
  let h := fake_parent 1 (fold_left (fun h ps => construct ps h) [[]; [0]; [1]] empty_heap) in
  occurrences 2 (h_children h 3) = 1 /\ occurrences 3 (h_parents h 2) = 0.
Proof. split; reflexivity. Qed.
Print Assumptions C15_surrogate_refuted.

(** C16. Part: when no tensor connected to a registered cost (or to the surrogate loss [sl]) has been cleaned before,
    the clean-up at the end of [backward], and [reset], forget the registries, reset each registered method once,
    remove all links of exactly the tensors connected to a registered cost (or [sl]) and change no other links.
    Missing: tensors used again after they have been cleaned, see C16_reuse_refuted. *)
Theorem C16_backward_cleanup_partial : forall sl g, links_exist (g_heap g) ->
  (forall c, In c (sl :: g_costs g) -> c < h_size (g_heap g)) ->
  (forall c x, In c (sl :: g_costs g) -> connected (h_parents (g_heap g)) (h_children (g_heap g)) c x ->
     h_cleaned (g_heap g) x = false) ->
  NoDup (g_methods g) ->
  exists g', (forall fuel, h_size (g_heap g) < fuel -> backward_cleanup fuel sl g = Some g') /\
    cleaned_up (sl :: g_costs g) g g'.
Proof. exact backward_cleanup_spec. Qed.
Print Assumptions C16_backward_cleanup_partial.

Theorem C16_reset_partial : forall g, links_exist (g_heap g) ->
  (forall c, In c (g_costs g) -> c < h_size (g_heap g)) ->
  (forall c x, In c (g_costs g) -> connected (h_parents (g_heap g)) (h_children (g_heap g)) c x ->
     h_cleaned (g_heap g) x = false) ->
  NoDup (g_methods g) ->
  exists g', (forall fuel, h_size (g_heap g) < fuel -> reset fuel g = Some g') /\ cleaned_up (g_costs g) g g'.
Proof. exact reset_spec. Qed.
Print Assumptions C16_reset_partial.

(** The hypotheses hold for every history of constructions before the first clean-up, and the list of methods never
    has duplicates. *)
Theorem C16_first_iteration : forall ops, history ops ->
  let h := fold_left (fun h ps => construct ps h) ops empty_heap in
  links_exist h /\ (forall x, h_cleaned h x = false).
Proof. exact first_iteration. Qed.
Print Assumptions C16_first_iteration.

Theorem C16_methods_registered_once : forall ms g, g_methods g = [] ->
  let g' := fold_left (fun g m => register_method m g) ms g in
  NoDup (g_methods g') /\ (forall m, In m (g_methods g') <-> In m ms).
Proof. exact methods_registered. Qed.
Print Assumptions C16_methods_registered_once.

(** Two costs, 5 and 6, on a common tensor 0, with one side branch 3 and one unconnected tensor 4 with a child 7. *)
Example C16_example :
  let h := fold_left (fun h ps => construct ps h) [[]; [0]; [0]; [1]; []; [1]; [2]; [4]] empty_heap in
  let g := mkG h [5; 6] [8; 9] (fun _ => 0) in
  exists g', reset 9 g = Some g' /\ h_children (g_heap g') 0 = [] /\ h_parents (g_heap g') 3 = [] /\
             h_children (g_heap g') 4 = [(7, false)] /\ g_resets g' 9 = 1.
Proof. eexists. repeat split. Qed.

(** A tensor that is used again after a clean-up keeps its links: 0 is used in a cost, cleaned, and used in a second
    cost; after the second clean-up it still lists that cost as a child. *)
Theorem C16_reuse_refuted :
  let g1 := register_cost 0 (mkG (construct [] empty_heap) [] [] (fun _ => 0)) in
  exists g2, (forall fuel, 3 <= fuel -> reset fuel g1 = Some g2) /\
  let g3 := register_cost 0 g2 in
  connected (h_parents (g_heap g3)) (h_children (g_heap g3)) 2 0 /\ g_costs g3 = [2] /\
  exists g4, (forall fuel, 3 <= fuel -> reset fuel g3 = Some g4) /\ h_children (g_heap g4) 0 = [(2, false)].
Proof. exact reuse. Qed.
Print Assumptions C16_reuse_refuted.

(** C37. Every graph of constructed tensors: Infer never recognises a pathwise gradient, so that it adds the score
    function to a reparameterised sample, and with the check switched on Reparameterization (as GumbelSoftmax and
    GumbelSparseMax) raises ValueError for every cost. *)
Theorem C37_infer_refuted : forall ops cost tensor, history ops -> tensor < length ops -> cost <> tensor ->
  let h := fold_left (fun h ps => construct ps h) ops empty_heap in
  exists enough, forall fuel, enough <= fuel -> infer_is_pathwise fuel h tensor cost = Ok false.
Proof. exact infer_never_pathwise. Qed.
Print Assumptions C37_infer_refuted.

Theorem C37_check_refuted : forall ops cost tensor, history ops -> tensor < length ops -> cost <> tensor ->
  let h := fold_left (fun h ps => construct ps h) ops empty_heap in
  exists enough, forall fuel, enough <= fuel -> reparam_is_pathwise fuel true h tensor cost = Err ValueError.
Proof. exact check_always_raises. Qed.
Print Assumptions C37_check_refuted.

Example C37_example : history [[]; [0]; [1]] /\
  infer_is_pathwise 9 (fold_left (fun h ps => construct ps h) [[]; [0]; [1]] empty_heap) 0 2 = Ok false.
Proof.
  split; [|reflexivity]. intros i p. do 4 (destruct i as [|i]; [cbn; lia|]). cbn. destruct i; intros [].
Qed.
