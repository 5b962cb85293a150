(** RELAX.sample_gumbel (storch/method/relax.py:214-237) for a categorical variable: the samples that REBAR and RELAX draw. Floating point
    numbers are modelled by real numbers; the uniform numbers that torch draws are arguments. *)
From Coq Require Import Reals String List Arith ZArith.
From Verif Require Import Base Torch Plates TensorFns Sampling Relaxed.
Import ListNotations.
Open Scope nat_scope.
Open Scope list_scope.

(** The row of a tensor at an index of all dimensions but the last, which has [K] elements. *)
Definition row (K : nat) (t : ten R) (x : list nat) : list R := map (fun j => el t (x ++ [j])) (seq 0 K).
(** A tensor of [m] samples of a variable whose probabilities have the shape [front ++ [K]], given by its rows. *)
Definition by_rows (m : nat) (front : list nat) (K : nat) (f : list nat -> list R) : ten R :=
  mkten (m :: front ++ [K]) (fun i => nth (last i 0) (f (removelast i)) 0%R).

(** discretize (storch/method/relax.py:155-163) of a tensor whose last dimension has [K] elements. *)
Definition discretize_rows (K : nat) (t : ten R) : ten R :=
  mkten (shape t) (fun i => nth (last i 0) (discretize_categorical (row K t (removelast i))) 0%R).

Section Draw.
Variables (eps tau : R) (front : list nat) (K : nat).
(** distr.probs, of the shape [front ++ [K]]. *)
Variable probs : ten R.

(** rsample_gumbel_softmax(distr, m, temperature) (storch/util.py:229-251) with the uniform numbers [u]. *)
Definition draw_relaxed (m : nat) (u : ten R) : ten R :=
  by_rows m front K (fun x => relaxed_categorical eps tau (row K probs (tl x)) (row K u x)).
(** conditional_gumbel_rsample(hard, distr.probs, False, temperature) (storch/storch.py:270-305) with the uniform numbers [v]. *)
Definition draw_cond (m : nat) (hard v : ten R) : ten R :=
  by_rows m front K (fun x => cond_categorical eps tau (row K hard x) (row K probs (tl x)) (row K v x)).
(** RELAX.sample_gumbel (storch/method/relax.py:214-237). *)
Definition sample_gumbel (rebar : bool) (m : nat) (u v : ten R) : res (ten R) :=
  let relaxed := draw_relaxed m u in
  if rebar then
    let hard := discretize_rows K relaxed in
    let cond := draw_cond m hard v in
    torch_cat [hard; relaxed; cond] 0
  else Ok relaxed.
End Draw.

(** Sampling a categorical variable with probabilities [probs] by REBAR and by RELAX (storch/method/method.py:96-190 with the functions of
    RELAX, storch/method/relax.py:187-192): [n] samples are asked for. REBAR.post_sample returns the sample itself, RELAX.post_sample
    its discretization (storch/method/relax.py:251-260). *)
Definition rebar_sample (veq : R -> R -> bool) (eps tau : R) (front : list nat) (K : nat) (probs u v : ten R) (name : string) (n : nat)
  (params : list (@param R)) (id : nat) : res (stensor R * bool) :=
  method_sample veq (fun n => (/ INR n)%R) name n (fun m => sample_gumbel eps tau front K probs true m u v)
    (Some (true_samples (fun n => (/ INR n)%R) 0%R 3)) (Some (fun t => t)) params [] [] id.
Definition relax_sample (veq : R -> R -> bool) (eps tau : R) (front : list nat) (K : nat) (probs u v : ten R) (name : string) (n : nat)
  (params : list (@param R)) (id : nat) : res (stensor R * bool) :=
  method_sample veq (fun n => (/ INR n)%R) name n (fun m => sample_gumbel eps tau front K probs false m u v)
    None (Some (discretize_rows K)) params [] [] id.
