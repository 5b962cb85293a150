(** C83: print_graph. *)
From Coq Require Import Ascii String List Arith Bool Lia Relations.Relation_Operators.
From Verif Require Import Base Graph PrintGraph SpecGraph SpecPrint GraphProofs PrintProofs TopoExact PrintAll.
Import ListNotations.
Open Scope string_scope.
Open Scope nat_scope.
Open Scope list_scope.

(** C83, the names: for every graph, names of tensors and list of costs, print_graph prints one line for each tensor that topological_sort
    lists and one for each link to a parent, and names them all differently: the name of the tensor, or a letter, and a number in
    brackets. It raises exactly what topological_sort raises. *)
Theorem C83_names_partial : forall fuel h info costs,
  match topological_sort fuel h (fun c => i_cost (info c)) costs with
  | Err e => print_graph fuel h info costs = Err e
  | Ok l => exists f, print_graph fuel h info costs = Ok (listing f h l) /\
      let shown := l ++ flat_map (fun n => map fst (h_parents h n)) l in
      (forall x, In x shown -> numbered (label_of (info x)) (f x)) /\ (forall x y, In x shown -> In y shown -> f x = f y -> x = y)
  end.
Proof. exact print_graph_spec. Qed.
Print Assumptions C83_names_partial.

(** C83, in part: if every childless descendant of an ancestor of the costs is a cost, every ancestor of the costs is printed once, and
    every link between them. Missing: graphs with other results (below). *)
Theorem C83_all_partial : forall ops info costs,
  let h := fold_left (fun h ps => construct ps h) ops empty_heap in
  history ops -> NoDup costs ->
  (forall c, In c costs -> i_cost (info c) = true /\ c < length ops /\ h_children h c = []) ->
  (forall k x y, In k costs -> reachable (h_parents h) false k x -> reachable (h_children h) false x y -> h_children h y = [] -> In y costs) ->
  exists l f, (forall fuel, length ops < fuel -> print_graph fuel h info costs = Ok (listing f h l)) /\ NoDup l /\
    (forall x, In x l <-> exists k, In k costs /\ reachable (h_parents h) false k x) /\
    (forall x, In x l -> numbered (label_of (info x)) (f x)) /\ (forall x y, In x l -> In y l -> f x = f y -> x = y).
Proof. exact print_all. Qed.
Print Assumptions C83_all_partial.

(** C83 is false with another result: an ancestor of a cost that has a childless descendant which is not a cost is not printed. *)
Theorem C83_side_branch_refuted : forall ops info costs k x y,
  let h := fold_left (fun h ps => construct ps h) ops empty_heap in
  history ops -> NoDup costs ->
  (forall c, In c costs -> i_cost (info c) = true /\ c < length ops /\ h_children h c = []) ->
  In k costs -> reachable (h_parents h) false k x -> reachable (h_children h) false x y -> h_children h y = [] -> ~ In y costs ->
  exists lines, (forall fuel, length ops < fuel -> print_graph fuel h info costs = Ok lines) /\ forall s, ~ In (LNode s x) lines.
Proof. exact print_side. Qed.
Print Assumptions C83_side_branch_refuted.

(** Two samples of the same name, one of them called "s" as if unnamed, and two unnamed tensors. *)
Section Witness.
Let ops := [[]; []; [0; 1]; [2; 0]; [3]].
Let h := fold_left (fun h ps => construct ps h) ops empty_heap.
Let info (n : nat) : pinfo := match n with 0 | 1 => mkInfo "s" true false | 2 => mkInfo "" true false | 3 => mkInfo "" false false | _ => mkInfo "" false true end.
Example C83_witness : history ops /\ NoDup [4] /\ (forall c, In c [4] -> i_cost (info c) = true /\ c < length ops /\ h_children h c = []) /\
  (forall k x y, In k [4] -> reachable (h_parents h) false k x -> reachable (h_children h) false x y -> h_children h y = [] -> In y [4]) /\
  print_graph 6 h info [4] = Ok [LNode "c[1]" 4; LNode "d[1]" 3; LNode "s[1]" 2; LNode "s[2]" 1; LNode "s[3]" 0;
    LEdge "d[1]-X->c[1]"; LEdge "s[1]-X->d[1]"; LEdge "s[3]-X->d[1]"; LEdge "s[3]-X->s[1]"; LEdge "s[2]-X->s[1]"].
Proof.
  split; [|split; [|split; [|split]]].
  - intros i p. do 6 (destruct i as [|i]; [cbn; lia|]). cbn. destruct i; intros [].
  - repeat constructor; cbn; lia.
  - intros c [<-|[]]; repeat split; cbn; lia.
  - assert (C : closed_under (h_children h) [0; 1; 2; 3; 4]).
    { intros v w d Hv. cbn in Hv. destruct Hv as [<-|[<-|[<-|[<-|[<-|[]]]]]]; cbn; intuition congruence. }
    assert (P : closed_under (h_parents h) [0; 1; 2; 3; 4]).
    { intros v w d Hv. cbn in Hv. destruct Hv as [<-|[<-|[<-|[<-|[<-|[]]]]]]; cbn; intuition congruence. }
    intros k x y [<-|[]] R1 R2 E. apply (reach_univ _ _ _ P) in R1; [|cbn; tauto]. apply (reach_univ _ _ _ C) in R2; auto.
    cbn in R2. destruct R2 as [<-|[<-|[<-|[<-|[<-|[]]]]]]; try discriminate. now left.
  - vm_compute. reflexivity.
Qed.
End Witness.
Example C83_side_witness : let h := fold_left (fun h ps => construct ps h) [[]; [0]; [1]; [1]] empty_heap in
  history [[]; [0]; [1]; [1]] /\ reachable (h_parents h) false 2 0 /\ reachable (h_children h) false 0 3 /\ h_children h 3 = [] /\
  print_graph 5 h (fun n => mkInfo (if n =? 0 then "x" else "") false (n =? 2)) [2] = Ok [LNode "c[1]" 2; LEdge "d[1]-X->c[1]"].
Proof.
  cbv zeta. split; [|split; [|split; [|split]]]; try reflexivity.
  - intros i p. do 5 (destruct i as [|i]; [cbn; lia|]). cbn. destruct i; intros [].
  - eapply rt1n_trans; [exists false; split; [now left|easy]|]. eapply rt1n_trans; [exists false; split; [now left|easy]|]. apply rt1n_refl.
  - eapply rt1n_trans; [exists false; split; [now left|easy]|]. eapply rt1n_trans; [exists false; split; [right; now left|easy]|]. apply rt1n_refl.
Qed.
