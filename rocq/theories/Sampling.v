(** Drawing a sample: Method.sample (storch/method/method.py:96-190), MonteCarlo.sample
    (storch/sampling/method.py:121-150), and the weightings of ARM and REBAR. *)
From Coq Require Import String List Arith Bool.
From Verif Require Import Base Torch Plates Wrap Inference.
Import ListNotations.

Section SamplingModel.
Context {V : Type}.
Variable veq : V -> V -> bool.
Variable recip : nat -> V.

(** A parameter of the distribution as returned by get_distr_parameters (storch/util.py:67-92): a storch tensor or a torch
    tensor, and its requires_grad. *)
Inductive param : Type := ParS (a : stensor V) (rg : bool) | ParT (rg : bool).
Definition needs_grad (p : param) : bool := match p with ParS _ rg => rg | ParT rg => rg end.

(** "for _p in parents: if _p is p ..." (storch/method/method.py:115-121). *)
Definition add_parent (parents : list nat) (p : nat) : list nat :=
  if existsb (Nat.eqb p) parents then parents else parents ++ [p].

(** The loop over the parameters (storch/method/method.py:113-126). *)
Fixpoint collect_params (ps : list param) (parents : list nat) (plates : list (plate V)) (rg : bool)
  : list nat * list (plate V) * bool :=
  match ps with
  | [] => (parents, plates, rg)
  | ParS a r :: q => collect_params q (add_parent parents (sid a)) (add_plates veq plates (splates a)) (rg || r)
  | ParT r :: q => collect_params q parents plates (rg || r)
  end.

(** MonteCarlo.sample (storch/sampling/method.py:121-150): the sample and its plate. [mc] is mc_sample: a tensor of
    samples drawn for a number of samples. *)
Definition monte_carlo (name : string) (n_samples : nat) (mc : nat -> res (ten V)) (parents : list nat)
  (plates : list (plate V)) (id : nat) : res (stensor V * plate V) :=
  let present := find (fun p => String.eqb (pname p) name) plates in
  do t <- mc (match present with Some _ => 1 | None => n_samples end);
  match shape t with
  | [] => Err IndexError
  | size :: _ =>
      let t := if size =? 1 then squeeze0 t else t in
      let '(p, plates) := match present with
                          | Some p => (p, plates)
                          | None => let p := new_plate recip name size plates None in (p, p :: plates)
                          end in
      do x <- mk_tensor id t parents plates true;
      Ok (x, p)
  end.

(** [plate.weight = batch_weighting] (storch/method/method.py:143-145): the plate object is the first plate of the
    sample, so that the sample sees the new weight. *)
Definition reweigh (w : weight V) (p : plate V) : plate V := mkPlate (pcls p) (pname p) (pn p) w (pparents p).

(** Method.sample for a method with MonteCarlo sampling (storch/method/method.py:96-190). [parents0] and [plates0] are
    _stochastic_parents and _plate_links (103-105). [weighting] is mc_weighting_function applied to the number of samples;
    [post] is post_sample, [None] if it returns None. The hooks are modelled in Hooks.v, the registration of the
    method in Graph.v. The second component of the result is requires_grad. *)
Definition method_sample (name : string) (n_samples : nat) (mc : nat -> res (ten V)) (weighting : option (nat -> ten V))
  (post : option (ten V -> ten V)) (params : list param) (parents0 : list nat) (plates0 : list (plate V)) (id : nat)
  : res (stensor V * bool) :=
  let '(parents, plates, rg) := collect_params params parents0 plates0 false in
  if existsb (fun p => String.eqb (pname p) name) plates then Err ValueError
  else
    do (x, p) <- monte_carlo name n_samples mc parents plates id;
    let x := match weighting with
             | Some f => set_plates x (match splates x with q :: l => reweigh (WTorch (f (pn p))) q :: l | [] => [] end)
             | None => x
             end in
    match post with
    | None => Ok (x, rg)
    | Some f => do y <- mk_tensor (id + 1) (f (st x)) [sid x] (splates x) true; Ok (y, false)
    end.

(** ARM.weighting_function (storch/method/arm.py:53-61) with [k] = 2 and RELAX.plate_weighting with rebar
    (storch/method/relax.py:239-248) with [k] = 3, for a plate of size [n]. *)
Definition true_samples (zero : V) (k n : nat) : ten V :=
  mkten [n] (fun i => if nth 0 i 0 <? n / k then recip (n / k) else zero).

End SamplingModel.
