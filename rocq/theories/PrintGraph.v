(** print_graph (storch/util.py:30-64): what storch.backward prints with debug=True (storch/inference.py:109-110). *)
From Coq Require Import String List Arith Bool Decimal DecimalString.
From Verif Require Import Base Graph.
Import ListNotations.
Open Scope string_scope.
Open Scope nat_scope.
Open Scope list_scope.

(** str(n) of a Python int that is not negative. *)
Definition str_of_nat (n : nat) : string := NilZero.string_of_uint (Nat.to_uint n).

(** What print_graph reads of a tensor: .name (None is modelled as ""), .stochastic and .is_cost. *)
Record pinfo : Type := mkInfo { i_name : string; i_stochastic : bool; i_cost : bool }.

(** The dictionaries [counters] and [names] (storch/util.py:32-33). *)
Definition counters : Type := list (string * nat).
Definition names : Type := list (nat * string).
Fixpoint cget (k : string) (c : counters) : option nat :=
  match c with [] => None | (x, n) :: r => if String.eqb k x then Some n else cget k r end.
Fixpoint cset (k : string) (v : nat) (c : counters) : counters :=
  match c with [] => [(k, v)] | (x, n) :: r => if String.eqb k x then (x, v) :: r else (x, n) :: cset k v r end.
Fixpoint nget (k : nat) (c : names) : option string :=
  match c with [] => None | (x, n) :: r => if k =? x then Some n else nget k r end.
Definition counters0 : counters := [("s", 1); ("c", 1); ("d", 1)].

(** counters["s"] (storch/util.py:45-53); KeyError does not occur as the keys are never removed. *)
Definition next_of (k : string) (c : counters) : string * counters :=
  let n := match cget k c with Some n => n | None => 0 end in
  ((k ++ "[" ++ str_of_nat n ++ "]")%string, cset k (n + 1) c).

(** get_name (storch/util.py:35-55). *)
Definition get_name (info : nat -> pinfo) (node : nat) (st : counters * names) : string * (counters * names) :=
  let '(c, ns) := st in
  match nget node ns with
  | Some s => (s, st)
  | None =>
      let i := info node in
      let '(s, c) :=
        if negb (String.eqb (i_name i) "")
        then match cget (i_name i) c with
             | None => ((i_name i ++ "[" ++ str_of_nat 0 ++ "]")%string, cset (i_name i) 1 c)
             | Some _ => next_of (i_name i) c
             end
        else if i_stochastic i then next_of "s" c
        else if i_cost i then next_of "c" c
        else next_of "d" c in
      (s, (c, (node, s) :: ns))
  end.

(** A printed line: a name with the tensor (storch/util.py:57-59), or an edge (60-64). str of a tensor is not modelled. *)
Inductive line : Type := LNode (name : string) (node : nat) | LEdge (text : string).

(** The two loops (storch/util.py:57-64). *)
Fixpoint print_nodes (info : nat -> pinfo) (l : list nat) (st : counters * names) : list line * (counters * names) :=
  match l with
  | [] => ([], st)
  | n :: r => let '(s, st) := get_name info n st in
              let '(ls, st) := print_nodes info r st in (LNode s n :: ls, st)
  end.
Fixpoint print_parents (info : nat -> pinfo) (name : string) (l : list edge) (st : counters * names) : list line * (counters * names) :=
  match l with
  | [] => ([], st)
  | (p, d) :: r => let '(s, st) := get_name info p st in
                   let '(ls, st) := print_parents info name r st in
                   (LEdge (s ++ (if d then "-D->" else "-X->") ++ name)%string :: ls, st)
  end.
Fixpoint print_edges (info : nat -> pinfo) (h : heap) (l : list nat) (st : counters * names) : list line * (counters * names) :=
  match l with
  | [] => ([], st)
  | n :: r => let '(s, st) := get_name info n st in
              let '(ls, st) := print_parents info s (h_parents h n) st in
              let '(ls', st) := print_edges info h r st in (ls ++ ls', st)
  end.
(** print_graph (storch/util.py:30-64). *)
Definition print_graph (fuel : nat) (h : heap) (info : nat -> pinfo) (costs : list nat) : res (list line) :=
  do nodes <- topological_sort fuel h (fun c => i_cost (info c)) costs;
  let '(l1, st) := print_nodes info nodes (counters0, []) in
  let '(l2, _) := print_edges info h nodes st in
  Ok (l1 ++ l2).
