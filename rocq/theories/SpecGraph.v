(** Specifications for graphs, in terms of edges as a relation. *)
From Coq Require Import String List Arith Bool Lia.
From Coq Require Import Relations.Relation_Operators.
From Verif Require Import Graph.
Import ListNotations.

(** [w] is a successor of [v] over a link that the walk may follow. *)
Definition follows (expand : nat -> list (nat * bool)) (only_diff : bool) (v w : nat) : Prop :=
  exists d, In (w, d) (expand v) /\ (only_diff = true -> d = true).

(** [x] can be reached from [self] in zero or more steps. *)
Definition reachable expand only_diff (self x : nat) : Prop :=
  clos_refl_trans_1n nat (follows expand only_diff) self x.

(** A finite graph: the nodes in [univ] are closed under links. *)
Definition closed_under (expand : nat -> list (nat * bool)) (univ : list nat) : Prop :=
  forall v w d, In v univ -> In (w, d) (expand v) -> In w univ.

(** [x] occurs before [y] in [l]. *)
Definition before (l : list nat) (x y : nat) : Prop :=
  exists l1 l2 l3, l = l1 ++ x :: l2 ++ y :: l3.

(** How often [x] occurs among the targets of a list of links. *)
Definition occurrences (x : nat) (l : list (nat * bool)) : nat := count_occ Nat.eq_dec (map fst l) x.

(** [x] is a strict ancestor: one or more steps over parent links. *)
Definition ancestor (parents : nat -> list (nat * bool)) (c x : nat) : Prop :=
  clos_trans_1n nat (follows parents false) c x.

(** [x] is connected to [n] by links in either direction, through any number of tensors. *)
Definition connected (parents children : nat -> list (nat * bool)) (n x : nat) : Prop :=
  clos_refl_trans_1n nat (fun v w => In w (map fst (parents v)) \/ In w (map fst (children v))) n x.

(** A history of tensor constructions: entry [i] lists the parents of tensor [i], which exist already. *)
Definition history (ops : list (list nat)) : Prop := forall i p, In p (nth i ops []) -> p < i.

(** Links only lead to tensors that exist. *)
Definition links_exist (h : heap) : Prop := forall v w, v < h_size h ->
  In w (map fst (h_children h v) ++ map fst (h_parents h v)) -> w < h_size h.

(** [g'] is [g] with the registries forgotten, each registered method reset once, the links of the tensors connected
    to [roots] removed, and all other links as before. *)
Definition cleaned_up (roots : list nat) (g g' : gstate) : Prop :=
  g_costs g' = [] /\ g_methods g' = [] /\
  (forall m, g_resets g' m = g_resets g m + (if in_dec Nat.eq_dec m (g_methods g) then 1 else 0)) /\
  (forall c x, In c roots -> connected (h_parents (g_heap g)) (h_children (g_heap g)) c x ->
               h_parents (g_heap g') x = [] /\ h_children (g_heap g') x = []) /\
  (forall x, (forall c, In c roots -> ~ connected (h_parents (g_heap g)) (h_children (g_heap g)) c x) ->
             h_parents (g_heap g') x = h_parents (g_heap g) x /\
             h_children (g_heap g') x = h_children (g_heap g) x).
