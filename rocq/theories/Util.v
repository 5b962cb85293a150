(** Helpers on torch tensors: reduce_mean (storch/util.py) and the two functions that repeat a tensor (storch/sampling/seq.py). *)
From Coq Require Import List Arith Bool ZArith.
From Verif Require Import Base Torch.
Import ListNotations.

(** [l.remove(x)] of a Python list (used in storch/util.py:220): the first equal element; ValueError if there is none. *)
Fixpoint py_remove (x : Z) (l : list nat) : res (list nat) :=
  match l with
  | [] => Err ValueError
  | y :: r => if Z.eqb (Z.of_nat y) x then Ok r else do r' <- py_remove x r; Ok (y :: r')
  end.

Section Mean.
Context {V : Type}.
(** The mean of the elements, torch.Tensor.mean. *)
Variable mean : list V -> V.
(** reduce_mean (storch/util.py:215-221). *)
Definition reduce_mean (t : ten V) (keep_dims : list Z) : res (ten V) :=
  if length keep_dims =? ndim t then Ok t
  else do sum_out_dims <- foldM (fun l d => py_remove d l) keep_dims (seq 0 (ndim t));
       reduce_dims mean sum_out_dims t.
End Mean.

Section Expand.
Context {V : Type}.
(** A Python slice [l[:d]] for an integer d, which may be negative. *)
Definition slice_to {A} (d : Z) (l : list A) : list A :=
  if (0 <=? d)%Z then firstn (Z.to_nat d) l else firstn (length l - Z.to_nat (- d)) l.
(** The body of right_expand_as (storch/sampling/seq.py:672-676) on torch tensors; the wrapper is in ExpandAs.v. (None,) * diff
    is empty for a negative diff. In expand, -1 keeps the size of a dimension: the first sizes are those of the tensor. *)
Definition right_expand_as (t e : ten V) : res (ten V) :=
  expand (shape t ++ skipn (ndim t) (shape e)) (unsqueeze_right (ndim e - ndim t) t).
(** [t[(None,) * k]]: k new leading dimensions of size one. *)
Definition unsqueeze_left (k : nat) (t : ten V) : ten V := mkten (repeat 1 k ++ shape t) (fun idx => el t (skipn k idx)).
(** left_expand_as (storch/sampling/seq.py:679-681), an ordinary function of torch tensors. *)
Definition left_expand_as (t e : ten V) : res (ten V) :=
  let diff := (Z.of_nat (ndim e) - Z.of_nat (ndim t))%Z in
  expand (slice_to diff (shape e) ++ shape t) (unsqueeze_left (Z.to_nat diff) t).
End Expand.
