(** Questions about the dimensions of a storch tensor that other functions ask: plate_shape (storch/tensor.py:477-479), event_dim_indices (520-522)
    and iterate_plate_indices (540-542). get_plate and get_plate_dim_index are in Plates.v. *)
From Coq Require Import List Arith.
From Verif Require Import Base Torch Plates.
Import ListNotations.

(** itertools.product: the last list runs fastest. *)
Fixpoint product {A : Type} (ls : list (list A)) : list (list A) :=
  match ls with
  | [] => [[]]
  | l :: r => flat_map (fun x => map (cons x) (product r)) l
  end.

Section QueryModel.
Context {V : Type}.
(** Tensor.plate_shape (storch/tensor.py:477-479). *)
Definition plate_shape (a : stensor V) : list nat := firstn (s_plate_dims a) (shape (st a)).
(** Tensor.event_dim_indices (storch/tensor.py:520-522): range(plate_dims, dim()). *)
Definition event_dim_indices (a : stensor V) : list nat := seq (s_plate_dims a) (ndim (st a) - s_plate_dims a).
(** Tensor.iterate_plate_indices (storch/tensor.py:540-542). *)
Definition iterate_plate_indices (a : stensor V) : list (list nat) := product (map (fun n => seq 0 n) (plate_shape a)).
End QueryModel.
