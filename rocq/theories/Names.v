(** Attribute access and dispatch of torch functions on storch tensors: the name tables of storch/excluded_init.py and
    the dispatch of storch/tensor.py. *)
From Coq Require Import String List Arith Bool Lia.
From Verif Require Import Base Torch Plates Wrap.
Import ListNotations.
Open Scope string_scope.
Open Scope list_scope.

(** storch/excluded_init.py:1-27, the set _excluded_init. *)
Definition excluded_init : list string :=
  ["_debug_has_internal_overlap"; "_nnpack_available"; "_use_cudnn_ctc_loss"; "can_cast"; "empty"; "empty_strided";
   "from_file"; "from_numpy"; "full"; "get_default_dtype"; "get_num_interop_threads"; "get_num_threads";
   "hamming_window"; "hann_window"; "logspace"; "ones"; "promote_types"; "range"; "tril_indices"; "triu_indices";
   "set_flush_denormal"; "set_num_interop_threads"; "set_num_threads"; "zeros"; "compiled_with_cxx11_abi"].

(** storch/excluded_init.py:42-54, the set _exception_init. *)
Definition exception_init : list string :=
  ["allclose"; "equal"; "is_complex"; "is_nonzero"; "q_per_channel_axis"; "q_scale"; "q_zero_point"; "bernouilli";
   "multinomial"; "normal"; "poisson"].

(** storch/excluded_init.py:62, the set _expand_init. *)
Definition expand_init : list string := ["binary_cross_entropy"].

(** storch/excluded_init.py:64, the set _excluded_function. *)
Definition excluded_function : list string := ["get_softmax_dim"; "assert_int-or-pair"].

(** storch/excluded_init.py:67-79, the set _excluded_tensor. *)
Definition excluded_tensor : list string :=
  ["__getitem__"; "__setitem__"; "__class__"; "__delattr__"; "__delitem__"; "__dir__"; "__format__";
   "__getattribute__"; "__init_subclass__"; "__setattr__"; "__subclasshook__"].

(** storch/excluded_init.py:81-97, the set _exception_tensor. Line 89 has two adjacent string literals without a
    comma, which Python concatenates. *)
Definition exception_tensor : list string :=
  ["allclose"; "bernoulli"; "bernoulli_"; "equal"; "is_complex"; "is_nonzero"; "item";
   "normal_" ++ "q_per_channel_axis"; "q_scale"; "q_zero_point"; "random_"; "stride"; "to_list"; "tolist"; "uniform_"]%string.

(** storch/excluded_init.py:131-134. *)
Definition exception_methods : list string := exception_init ++ exception_tensor.
Definition excluded_methods : list string := excluded_tensor ++ excluded_function ++ excluded_init.
Definition expand_methods : list string := expand_init.

(** [name in table]. *)
Definition mem_name (n : string) (l : list string) : bool := existsb (String.eqb n) l.

(** Special methods that storch/tensor.py defines to raise (560-656): lines 560-561, 573-636. __array__ calls numpy. *)
Definition own_raises : list (string * exn) :=
  [("__index__", IllegalStorchExposeError); ("__getstate__", NotImplementedError); ("__setstate__", NotImplementedError);
   ("__bool__", IllegalStorchExposeError); ("__float__", IllegalStorchExposeError); ("__int__", IllegalStorchExposeError);
   ("__long__", IllegalStorchExposeError); ("__nonzero__", IllegalStorchExposeError);
   ("__array__", IllegalStorchExposeError); ("__array_wrap__", IllegalStorchExposeError); ("numpy", IllegalStorchExposeError);
   ("__contains__", IllegalStorchExposeError); ("__deepcopy__", NotImplementedError); ("__iter__", NotImplementedError);
   ("detach_", NotImplementedError); ("backward", NotImplementedError)].

Fixpoint lookup_raise (n : string) (l : list (string * exn)) : option exn :=
  match l with
  | [] => None
  | (m, e) :: r => if String.eqb n m then Some e else lookup_raise n r
  end.

Section Names.
Context {V : Type}.
Variable veq : V -> V -> bool.
Variable anc_unwrap : plate V -> stensor V -> res (stensor V).

(** A function as Python sees it. *)
Definition pyfn : Type := list (pyval V) -> list (string * pyval V) -> res (pyval V).

(** What getattr(torch.Tensor, item) finds: nothing, a descriptor that is not callable (a property such as T, data,
    grad_fn, is_leaf), or a function with a __name__. *)
Inductive tattr : Type :=
| AAbsent
| AData
| ACall (fname : string) (fn : pyfn).

(** What attribute access on a storch tensor evaluates to. *)
Inductive gval : Type :=
| GNone                          (* None *)
| GUnbound (fn : pyfn)           (* the function of class torch.Tensor itself *)
| GBound (fn : pyfn).            (* _self_deterministic(fn, self), storch/wrappers.py:462-472 *)

(** Tensor.__getattr__ (storch/tensor.py:270-291). A property falls through to the end of the function: None. *)
Definition getattr (a : tattr) : res gval :=
  match a with
  | AAbsent => Err AttributeError
  | AData => Ok GNone
  | ACall fname fn =>
      if mem_name fname exception_methods then Err IllegalStorchExposeError
      else if mem_name fname excluded_methods then Ok (GUnbound fn)
      else Ok (GBound fn)
  end.

(** self.item(args, kwargs) for an attribute that storch.Tensor does not define itself. *)
Definition call_method (a : tattr) (self : stensor V) (args : list (pyval V)) (kwargs : list (string * pyval V)) (base : nat)
  : res (pyval V) :=
  do g <- getattr a;
  match g with
  | GNone => Err TypeError
  | GUnbound fn => fn args kwargs
  | GBound fn => handle_deterministic veq anc_unwrap top_ctx fn (PT self :: args) kwargs [] default_opts base
  end.

(** Tensor.__torch_function__ (storch/tensor.py:243-268). *)
Definition expand_opts : wopts := mkW true true true true false None None.
Definition torch_function (fname : string) (fn : pyfn) (args : list (pyval V)) (kwargs : list (string * pyval V)) (base : nat)
  : res (pyval V) :=
  if mem_name fname exception_methods then Err IllegalStorchExposeError
  else if mem_name fname excluded_methods then fn args kwargs
  else if mem_name fname expand_methods then handle_deterministic veq anc_unwrap top_ctx fn args kwargs [] expand_opts base
  else handle_deterministic veq anc_unwrap top_ctx fn args kwargs [] default_opts base.

(** How a Python operator on a storch tensor is evaluated (storch/tensor.py:310-316, 646-761). *)
Inductive opcall : Type :=
| OTorch (fname : string) (swap : bool)     (* torch.fname(self, other), operands exchanged if [swap] *)
| OUnwrapped (method : string) (swap : bool) (* @storch.deterministic: method of the unwrapped first operand *)
| ONotDefined                                (* Python's default for the operator *)
| OSelf.                                     (* returns self *)

(** The operator methods as the class body leaves them: a later definition of a name replaces an earlier one, so for
    __lshift__ it is the one of lines 726-728. __ne__, __lshift__'s reflected form and the in-place forms are not
    defined. *)
Definition operators : list (string * opcall) :=
  [("__eq__", OUnwrapped "__eq__" false);
   ("__add__", OTorch "add" false); ("__radd__", OTorch "add" true);
   ("__sub__", OTorch "sub" false); ("__rsub__", OTorch "sub" true);
   ("__mul__", OTorch "mul" false); ("__rmul__", OTorch "mul" true);
   ("__matmul__", OTorch "matmul" false); ("__rmatmul__", OTorch "matmul" true);
   ("__pow__", OTorch "pow" false); ("__rpow__", OTorch "pow" true);
   ("__div__", OTorch "div" false); ("__rdiv__", OTorch "div" true);
   ("__mod__", OTorch "remainder" false); ("__rmod__", OTorch "remainder" true);
   ("__truediv__", OTorch "true_divide" false); ("__rtruediv__", OTorch "true_divide" true);
   ("__floordiv__", OTorch "floor_divide" false); ("__rfloordiv__", OTorch "floor_divide" true);
   ("__and__", OTorch "logical_and" false); ("__rand__", OTorch "logical_and" true);
   ("__ge__", OTorch "ge" false); ("__gt__", OTorch "gt" false);
   ("__le__", OTorch "le" false);
   ("__lshift__", OUnwrapped "__lshift__" false); ("__lshift__", OUnwrapped "__lshift__" true);
   ("__lt__", OTorch "lt" false);
   ("__or__", OTorch "logical_or" false); ("__ror__", OTorch "logical_or" true);
   ("__rshift__", OUnwrapped "__rshift__" false); ("__rrshift__", OUnwrapped "__rshift__" true);
   ("__xor__", OTorch "logical_xor" false); ("__rxor__", OTorch "logical_xor" true)].

(** A class body assigns names in order: the last definition counts. *)
Definition operator (name : string) : opcall :=
  fold_left (fun acc kv => if String.eqb name (fst kv) then snd kv else acc) operators ONotDefined.

(** [x op y] resp. the reflected operator for a storch tensor [x]; [sem] gives the torch function of a name on raw
    tensors. For __ne__, Python's default evaluates __eq__ and takes the truth value of the result, which raises
    (storch/tensor.py:573-577). *)
Definition eval_op (sem : string -> V -> V -> V) (name : string) (x y : pyval V) (base : nat) : res (pyval V) :=
  match operator name with
  | OTorch f sw => torch_function f (torch_fn2 (sem f)) (if sw then [y; x] else [x; y]) [] base
  | OUnwrapped f sw =>
      handle_deterministic veq anc_unwrap top_ctx
        (fun args kw => match args with [u; v] => torch_fn2 (sem f) (if sw then [v; u] else [u; v]) kw | _ => Err TypeError end)
        [x; y] [] [] default_opts base
  | ONotDefined =>
      if String.eqb name "__ne__"
      then do _ <- handle_deterministic veq anc_unwrap top_ctx (torch_fn2 (sem "__eq__")) [x; y] [] [] default_opts base;
           Err IllegalStorchExposeError
      else Err TypeError
  | OSelf => Ok x
  end.
End Names.
