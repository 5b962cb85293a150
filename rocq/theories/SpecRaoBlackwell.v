(** Specification vocabulary for the Rao-Blackwellised score function. *)
From Coq Require Import List Arith Bool.
From Verif Require Import Base Torch Scalar.
Import ListNotations.

(** The options below [d] that are not among [sel]. *)
Definition rest (d : nat) (sel : list nat) : list nat := filter (fun v => negb (existsb (Nat.eqb v) sel)) (seq 0 d).

(** The expectation of [F] when each of [rows] independently takes one of its options [opts r], [v] with probability [law r v]; the other rows
    have the option [g] gives them. *)
Fixpoint expect_rows {V} (o : sops V) (opts : list nat -> list nat) (law : list nat -> nat -> V) (rows : list (list nat)) (F : (list nat -> nat) -> V)
  (g : list nat -> nat) : V :=
  match rows with
  | [] => F g
  | r :: rs => osum o (map (fun v => o_mul o (law r v) (expect_rows o opts law rs F (fun q => if list_eq_dec Nat.eq_dec q r then v else g q))) (opts r))
  end.

(** The table of [f] over the rows of dimensions [ns], with in every row the [k] options [sel r] and [g r]. *)
Definition at_rows {V} (ns : list nat) (k : nat) (sel : list nat -> list nat) (g : list nat -> nat) (f : list nat -> nat -> V) : ten V :=
  mkten (ns ++ [k]) (fun i => f (removelast i) (nth (last i 0) (sel (removelast i) ++ [g (removelast i)]) 0)).
