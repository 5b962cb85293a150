(** The operator @ (storch/tensor.py:664-668) and torch.matmul. *)
From Coq Require Import String List Arith Bool.
From Verif Require Import Base Torch Plates Wrap Scalar.
Import ListNotations.

Section MatmulModel.
Context {V : Type}.
Variable veq : V -> V -> bool.
Variable anc_unwrap : plate V -> stensor V -> res (stensor V).
Variable o : sops V.

(** torch.matmul of two tensors of rank two or more: matrices in the last two dimensions, the others broadcast. *)
Definition batch_matmul (t u : ten V) : res (ten V) :=
  let bt := firstn (ndim t - 2) (shape t) in
  let bu := firstn (ndim u - 2) (shape u) in
  match skipn (ndim t - 2) (shape t), skipn (ndim u - 2) (shape u), bshape bt bu with
  | [n; m], [m'; k], Some bs =>
      if m =? m'
      then Ok (mkten (bs ++ [n; k])
                 (fun idx => let b := firstn (length bs) idx in
                             let i := nth (length bs) idx 0 in
                             let j := nth (S (length bs)) idx 0 in
                             osum o (map (fun l => o_mul o (el t (bidx bt b ++ [i; l])) (el u (bidx bu b ++ [l; j]))) (seq 0 m))))
      else Err RuntimeError
  | _, _, _ => Err RuntimeError
  end.
(** A vector on the left is a matrix with one row, on the right one with one column; that dimension is removed from the result. *)
Definition one_row (t : ten V) : ten V := match shape t with [n] => mkten [1; n] (fun i => el t (tl i)) | _ => t end.
Definition one_column (t : ten V) : ten V := match shape t with [n] => mkten [n; 1] (fun i => el t (firstn 1 i)) | _ => t end.
Definition drop_dim (i : nat) (t : ten V) : ten V := mkten (remove_at i (shape t)) (fun idx => el t (insert_at i 0 idx)).
(** torch.matmul as documented: RuntimeError for tensors of rank zero. *)
Definition matmul (t u : ten V) : res (ten V) :=
  if (ndim t =? 0) || (ndim u =? 0) then Err RuntimeError
  else do r <- batch_matmul (one_row t) (one_column u);
       let r := if ndim t =? 1 then drop_dim (ndim r - 2) r else r in
       Ok (if ndim u =? 1 then drop_dim (ndim r - 1) r else r).
Definition matmul_fn (ts : list (ten V)) : res (ten V) := match ts with [t; u] => matmul t u | _ => Err TypeError end.

(** Tensor.__matmul__ and Tensor.__rmatmul__ (storch/tensor.py:664-668) through Tensor.__torch_function__ (268). An operand is a storch
    or a torch tensor. *)
Definition st_matmul (a b : pyval V) (base : nat) : res (pyval V) :=
  handle_deterministic veq anc_unwrap top_ctx (torch_fnN matmul_fn) [a; b] [] [] default_opts base.
End MatmulModel.
