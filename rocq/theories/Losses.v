(** storch.nn.b_binary_cross_entropy (storch/nn/losses.py). *)
From Coq Require Import String List Arith Bool ZArith.
From Verif Require Import Base Torch Plates Wrap Names Reduce.
Import ListNotations.

Section LossModel.
Context {V : Type}.
Variable veq : V -> V -> bool.
Variable anc_unwrap : plate V -> stensor V -> res (stensor V).
(** The loss of one element given its target, the mean and the sum of a list of numbers. *)
Variable loss : V -> V -> V.
Variables mean total : list V -> V.

(** torch.Tensor.expand_as *)
Definition expand_as_fn (ts : list (ten V)) : res (ten V) :=
  match ts with [t; u] => expand (shape u) t | _ => Err TypeError end.
(** torch.nn.functional.binary_cross_entropy with reduction="none" and without weight: a ValueError if the sizes differ. That
    torch rejects inputs outside [0, 1] is not modelled. *)
Definition bce_fn (ts : list (ten V)) : res (ten V) :=
  match ts with
  | [x; y] => if list_eqb (shape x) (shape y) then Ok (mkten (shape x) (fun i => loss (el x i) (el y i))) else Err ValueError
  | _ => Err TypeError
  end.

(** The argument [reduction]: "mean", "sum", "none" or another string, for which the function ends without a return. *)
Inductive reduction : Type := RMean | RSum | RNone | ROther.

(** The body of b_binary_cross_entropy (storch/nn/losses.py:42-60) on storch tensors, without weight. [dims] are names. *)
Definition bce_body (input target : stensor V) (dims : list string) (r : reduction) (base : nat) : res (pyval V) :=
  do target <- handle_deterministic veq anc_unwrap top_ctx (torch_fnN expand_as_fn) [PT target; PT input] [] [] default_opts base;
  do u <- handle_deterministic veq anc_unwrap top_ctx (torch_fnN bce_fn) [PT input; target] [] [] default_opts (base + 2);
  do u <- as_tensor u;
  let indices := map (fun i => DInt (Z.of_nat i)) (seq (s_plate_dims u) (ndim (st u) - s_plate_dims u)) ++ map DPlate dims in
  match r with
  | RMean => reduce_with veq anc_unwrap top_ctx mean u indices (base + 4)
  | RSum => reduce_with veq anc_unwrap top_ctx total u indices (base + 4)
  | RNone => Ok (PT u)
  | ROther => Ok PNone
  end.

(** b_binary_cross_entropy: the body wrapped by deterministic(unwrap=False) (storch/nn/losses.py:9-16). *)
Definition keep_opts : wopts := mkW false true true false false None None.
Definition b_binary_cross_entropy (input target : stensor V) (dims : list string) (r : reduction) (base : nat) : res (pyval V) :=
  handle_deterministic veq anc_unwrap top_ctx
    (fun args _ => match args with [PT i; PT t] => bce_body i t dims r base | _ => Err TypeError end)
    [PT input; PT target] [] [] keep_opts (base + 10).

(** torch.nn.functional.binary_cross_entropy(input, target, reduction="none") on storch tensors: Tensor.__torch_function__ with
    expand_plates for the names in expand_methods (storch/tensor.py:259-264, storch/excluded_init.py:62, 134). *)
Definition torch_bce (input target : stensor V) (base : nat) : res (pyval V) :=
  torch_function veq anc_unwrap "binary_cross_entropy" (torch_fnN bce_fn) [PT input; PT target] [] base.
End LossModel.
