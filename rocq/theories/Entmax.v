(** The alpha of GumbelEntmax, as a real number. *)
From Coq Require Import Reals.
Open Scope R_scope.

(** torch.nn.functional.softplus, without the linear branch it has above 20, which differs by less than 1e-8. *)
Definition softplus (x : R) : R := ln (1 + exp x).

(** The alpha with which GumbelEntmax computes its entmax (storch/method/method.py:428-446): entmax15 is entmax of alpha 1.5,
    sparsemax of alpha 2, entmax_bisect takes alpha; an adaptive alpha goes through softplus. *)
Definition effective_alpha (adaptive : bool) (alpha : R) : R :=
  if adaptive then softplus (alpha - 1) + 1 else alpha.
