(** What print_graph should print. *)
From Coq Require Import Ascii String List Arith Bool.
From Verif Require Import Base Graph PrintGraph.
Import ListNotations.
Open Scope string_scope.
Open Scope nat_scope.
Open Scope list_scope.

(** What the name of a tensor starts with: its own name if it has one, otherwise a letter for what it is. *)
Definition label_of (i : pinfo) : string :=
  match i_name i with
  | "" => if i_stochastic i then "s" else if i_cost i then "c" else "d"
  | s => s
  end.
(** The decimal digits. *)
Definition is_digit (c : ascii) : Prop := In c ["0"; "1"; "2"; "3"; "4"; "5"; "6"; "7"; "8"; "9"]%char.
(** The name of a tensor: the label and a number in brackets. *)
Definition numbered (label name : string) : Prop :=
  exists number, name = (label ++ "[" ++ number ++ "]")%string /\ number <> "" /\ forall c, In c (list_ascii_of_string number) -> is_digit c.
(** One line for every tensor, then one for every link. *)
Definition listing (f : nat -> string) (h : heap) (l : list nat) : list line :=
  map (fun n => LNode (f n) n) l ++
  flat_map (fun n => map (fun e => LEdge (f (fst e) ++ (if snd e : bool then "-D->" else "-X->") ++ f n)%string) (h_parents h n)) l.
