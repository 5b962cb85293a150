(** Python-level basics shared by all models: raised exceptions as values, and a few list functions that mirror
    Python list operations (indexing, swapping two entries, [list.index], [x in list]). *)
From Coq Require Import String List Arith Bool Lia.
Import ListNotations.

(** Exception classes raised by the modelled code or by Python/PyTorch on its behalf.
    storch/exceptions.py:1-4 defines IllegalStorchExposeError. *)
Inductive exn : Type :=
| ValueError | TypeError | RuntimeError | IndexError | NotImplementedError | AttributeError | NameError
| UnboundLocalError | AssertionError | IllegalStorchExposeError | KeyError | UserExn (n : nat).

(** Result of a Python call: a value or a raised exception. *)
Inductive res (A : Type) : Type :=
| Ok (a : A)
| Err (e : exn).
Arguments Ok {A} _.
Arguments Err {A} _.

Definition bind {A B} (r : res A) (f : A -> res B) : res B :=
  match r with Ok a => f a | Err e => Err e end.
Notation "'do' x <- r ; k" := (bind r (fun x => k)) (at level 200, x pattern, r at level 100, k at level 200).

Definition is_ok {A} (r : res A) : bool := match r with Ok _ => true | Err _ => false end.

(** Left fold with exceptions: a Python [for] loop whose body may raise. *)
Fixpoint foldM {A B} (f : B -> A -> res B) (l : list A) (b : B) : res B :=
  match l with
  | [] => Ok b
  | a :: r => do b' <- f b a; foldM f r b'
  end.

(** A Python list comprehension whose body may raise. *)
Fixpoint mapM {A B} (f : A -> res B) (l : list A) : res (list B) :=
  match l with
  | [] => Ok []
  | a :: r => do b <- f a; do bs <- mapM f r; Ok (b :: bs)
  end.

(** Python [l[i] = x] (for i in range). *)
Fixpoint upd {A} (i : nat) (x : A) (l : list A) : list A :=
  match l, i with
  | [], _ => []
  | _ :: r, 0 => x :: r
  | y :: r, S j => y :: upd j x r
  end.

(** Python [l[i], l[j] = l[j], l[i]] (for i, j in range). *)
Definition swapl {A} (i j : nat) (l : list A) : list A :=
  match nth_error l i, nth_error l j with
  | Some a, Some b => upd j a (upd i b l)
  | _, _ => l
  end.

(** Python [l.insert(i, x)] for 0 <= i <= len(l). *)
Definition insert_at {A} (i : nat) (x : A) (l : list A) : list A := firstn i l ++ x :: skipn i l.

(** [del l[i]]. *)
Definition remove_at {A} (i : nat) (l : list A) : list A := firstn i l ++ skipn (S i) l.

(** [x in l] and [l.index(x)] with a Boolean [==]. *)
Fixpoint indexb {A} (eqb : A -> A -> bool) (x : A) (l : list A) : option nat :=
  match l with
  | [] => None
  | y :: r => if eqb y x then Some 0 else option_map S (indexb eqb x r)
  end.

Definition inb {A} (eqb : A -> A -> bool) (x : A) (l : list A) : bool := existsb (fun y => eqb y x) l.

Definition lprod (l : list nat) : nat := fold_right Nat.mul 1 l.
