(** Specification tables for attribute access and operators. *)
From Coq Require Import String List.
Import ListNotations.
Open Scope string_scope.

(** Conversions of a tensor to plain Python or numpy values. *)
Definition conversions : list string :=
  ["__bool__"; "__nonzero__"; "__int__"; "__long__"; "__float__"; "__index__"; "__contains__"; "numpy"; "__array__"].

(** Methods and functions that expose the elements of a tensor or sample: the names listed in storch/excluded_init.py
    one by one. *)
Definition exposing : list string :=
  ["allclose"; "equal"; "is_complex"; "is_nonzero"; "item"; "q_per_channel_axis"; "q_scale"; "q_zero_point"; "stride";
   "to_list"; "tolist"; "bernoulli"; "bernoulli_"; "multinomial"; "normal"; "normal_"; "poisson"; "random_"; "uniform_"].

(** The Python operators on tensors: method, torch function, whether the operands are exchanged. *)
Definition expected_ops : list (string * (string * bool)) :=
  [("__add__", ("add", false)); ("__radd__", ("add", true)); ("__sub__", ("sub", false)); ("__rsub__", ("sub", true));
   ("__mul__", ("mul", false)); ("__rmul__", ("mul", true)); ("__pow__", ("pow", false)); ("__rpow__", ("pow", true));
   ("__mod__", ("remainder", false)); ("__rmod__", ("remainder", true));
   ("__truediv__", ("true_divide", false)); ("__rtruediv__", ("true_divide", true));
   ("__floordiv__", ("floor_divide", false)); ("__rfloordiv__", ("floor_divide", true));
   ("__ge__", ("ge", false)); ("__gt__", ("gt", false)); ("__le__", ("le", false)); ("__lt__", ("lt", false));
   ("__eq__", ("__eq__", false)); ("__rshift__", ("__rshift__", false))].

(** Functions that take no tensors, or are looked up by Python itself on every object, and are passed through as they are. *)
Definition passed_through : list string :=
  ["can_cast"; "empty"; "empty_strided"; "from_file"; "from_numpy"; "full"; "get_default_dtype"; "get_num_interop_threads"; "get_num_threads";
   "hamming_window"; "hann_window"; "logspace"; "ones"; "promote_types"; "range"; "tril_indices"; "triu_indices"; "set_flush_denormal";
   "set_num_interop_threads"; "set_num_threads"; "zeros"; "compiled_with_cxx11_abi"; "_debug_has_internal_overlap"; "_nnpack_available"; "_use_cudnn_ctc_loss";
   "__getitem__"; "__setitem__"; "__class__"; "__delattr__"; "__delitem__"; "__dir__"; "__format__"; "__getattribute__"; "__init_subclass__"; "__setattr__"; "__subclasshook__";
   "get_softmax_dim"].
(** What a storch tensor refuses to do: pickling, copying, iterating, detaching in place and torch's backward. *)
Definition unsupported : list string := ["__getstate__"; "__setstate__"; "__deepcopy__"; "__iter__"; "detach_"; "backward"].
