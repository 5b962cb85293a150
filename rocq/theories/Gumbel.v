(** Conditional Gumbel samples: storch/sampling/swor.py:228-251. Floating point numbers are modelled by real numbers. *)
From Coq Require Import Reals List.
Import ListNotations.
Local Open Scope R_scope.

(** The constants of log1mexp (storch/sampling/swor.py:231-233). *)
Definition l_c : R := - (693 / 1000).
Definition l_eps : R := / 1000000.

(** log1mexp (storch/sampling/swor.py:228-236); expm1(x) = e^x - 1 and log1p(x) = log(1 + x). *)
Definition log1mexp (a : R) : R :=
  let a1 := - Rabs a in
  if Rlt_dec l_c a1 then ln (- (exp a1 - 1) + l_eps) else ln (1 + (- exp a1 + l_eps)).

(** torch.relu and torch.nn.Softplus on one number (below its threshold, 20: the argument here is never positive). *)
Definition relu (x : R) : R := Rmax 0 x.
Definition softplus (x : R) : R := ln (1 + exp x).

(** The maximum of a list of numbers, 0 for the empty list (on which torch raises; supports are not empty). *)
Fixpoint lmax (l : list R) : R :=
  match l with [] => 0 | [x] => x | x :: r => Rmax x (lmax r) end.

(** cond_gumbel_sample (storch/sampling/swor.py:239-251) for one parent with perturbed log-probability [T] and the
    Gumbel samples [gs] of its options (G_yv, drawn by torch, arbitrary numbers here). *)
Definition cond_gumbel_one (T Z g : R) : R :=
  let vi := T - g + log1mexp (g - Z) in
  T - relu vi - softplus (- Rabs vi).
Definition cond_gumbel (T : R) (gs : list R) : list R := map (cond_gumbel_one T (lmax gs)) gs.

(** torch.distributions.Gumbel(loc, 1).rsample() from a uniform number: the transforms of Gumbel.__init__ give loc - log(-log(u)). *)
Definition gumbel_rsample (loc u : R) : R := loc - ln (- ln u).
