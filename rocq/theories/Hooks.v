(** The gradients of the parameters of a sample: the hooks created by Method.sample (storch/method/method.py:59-94,
    137-169) and StochasticTensor._clean (storch/tensor.py:860-873). *)
From Coq Require Import String List Arith Bool.
From Verif Require Import Base Torch Plates Scalar.
Import ListNotations.

Section HooksModel.
Context {V : Type}.
Variable o : sops V.

(** A registered hook: the name of the parameter and the plates given to _create_hook (storch/method/method.py:60). *)
Record hook : Type := mkHook { hk_name : string; hk_plates : list (plate V) }.

(** The dictionary param_grads of a sample (storch/tensor.py:840), and for each of its hooks whether the closure still
    has the variable accum_grads (storch/method/method.py:61). *)
Record hstate : Type := mkHS { grads : string -> option (stensor V); live : nat -> bool; pending : list nat }.

(** A sample with [n] hooks: an empty dictionary (storch/tensor.py:840), every closure alive, and every clean_graph in
    _clean_hooks (storch/method/method.py:166). *)
Definition fresh (n : nat) : hstate := mkHS (fun _ => None) (fun _ => true) (seq 0 n).

(** The body of hook (storch/method/method.py:64-79) for hook [i]: a NameError (accum_grads has been deleted) is
    swallowed; the constructor of storch.Tensor may raise. *)
Definition call_hook (hs : list hook) (i : nat) (g : ten V) (s : hstate) : res hstate :=
  match nth_error hs i with
  | None => Err IndexError
  | Some h =>
      if live s i then
        do t <- match grads s (hk_name h) with
                | Some old => elementwise2 (o_add o) (st old) g
                | None => Ok g
                end;
        do x <- mk_tensor 0 t [] (hk_plates h) false;
        Ok (mkHS (fun k => if String.eqb k (hk_name h) then Some x else grads s k) (live s) (pending s))
      else Ok s
  end.

(** clean_graph (storch/method/method.py:86-91). *)
Definition clean_graph (s : hstate) (i : nat) : hstate :=
  mkHS (grads s) (fun j => if j =? i then false else live s j) (pending s).

(** StochasticTensor._clean (storch/tensor.py:862-872). The detached gradients are computed (863-866) but not stored.
    Handles are removed (869-870): PyTorch no longer calls the hooks; a call that is already under way is stopped by
    clean_graph. *)
Definition clean_sample (s : hstate) : hstate :=
  let s' := fold_left clean_graph (pending s) s in mkHS (grads s') (live s') [].

(** What happens to a sample: a gradient is delivered to one of its hooks, or it is cleaned. *)
Inductive event : Type := Deliver (i : nat) (g : ten V) | Clean.

Definition step (hs : list hook) (s : hstate) (e : event) : res hstate :=
  match e with
  | Deliver i g => call_hook hs i g s
  | Clean => Ok (clean_sample s)
  end.

Definition run_hooks (hs : list hook) (evs : list event) (s : hstate) : res hstate := foldM (step hs) evs s.

End HooksModel.
Arguments Deliver {V}.
Arguments Clean {V}.
Arguments mkHook {V}.
