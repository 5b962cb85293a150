(** Sampling methods are objects: set_mc_sample and set_mc_weighting_function change them in place and return self
    (storch/sampling/method.py:65-93), and an estimator keeps a reference to the one it was given
    (storch/method/method.py:43). A program that constructs estimators on sampling methods it has made before. *)
From Coq Require Import List String Bool.
From Verif Require Import Base Construct.
Import ListNotations.
Open Scope string_scope.
Open Scope list_scope.

(** The sampling methods that exist, by reference: the class and the attributes of each. *)
Definition heap := list (string * env).

(** One construction: the class of the estimator, the reference of its sampling method, which is passed by keyword, and the
    other arguments. *)
Record call := mkCall { c_cls : kls; c_ref : nat; c_pos : list val; c_kw : env }.

(** The assignments to the attributes of the sampling method; they are arguments of "super().__init__" and done before it
    runs: Reparameterization and LAX (storch/method/method.py:315-323, storch/method/relax.py:70), GumbelSoftmax (369),
    GumbelEntmax and GumbelSparseMax (421), ARM and DisARM (storch/method/arm.py:37-39 and 111-113), RELAX
    (storch/method/relax.py:188-193). ScoreFunction (storch/method/method.py:527-552) does not assign any. *)
Definition assign (k : kls) (a : env) : env :=
  match k with
  | KReparam | KLAX => set_attr "mc_sample" (VFun "reparam_sample") a
  | KGumbelSoftmax => set_attr "mc_sample" (VFun "sample_gumbel") a
  | KEntmax | KSparsemax => set_attr "mc_sample" (VFun "sample_gumbel_entmax") a
  | KARM => set_attr "mc_weighting_function" (VFun "weighting_function") (set_attr "mc_sample" (VFun "sample_arm") a)
  | KDisARM => set_attr "mc_sample" (VFun "sample_disarm") a
  | KRELAX => set_attr "mc_weighting_function" (VFun "plate_weighting") (set_attr "mc_sample" (VFun "sample_gumbel") a)
  | _ => a
  end.

(** ScoreFunction takes further keywords, for its baseline (storch/method/method.py:535). *)
Definition more_kw (k : kls) : bool := match k with KScore => true | _ => false end.

Fixpoint put (h : heap) (r : nat) (x : string * env) : heap :=
  match h, r with
  | [], _ => []
  | _ :: h, 0 => x :: h
  | y :: h, S r => y :: put h r x
  end.

(** A call that does not bind its arguments raises TypeError before anything is assigned; any other error comes after the
    assignments. *)
Definition new (h : heap) (c : call) : heap * res env :=
  match nth_error h (c_ref c) with
  | None => (h, Err NameError)
  | Some (cls, a) =>
      let kw := ("sampling_method", VObj cls a) :: c_kw c in
      (match bind_args (more_kw (c_cls c)) (sig_of (c_cls c)) (c_pos c) kw with
       | Ok _ => put h (c_ref c) (cls, assign (c_cls c) a)
       | Err _ => h
       end, construct (c_cls c) (c_pos c) kw)
  end.

(** The constructions one after the other; a caught error does not undo what was assigned. *)
Fixpoint news (h : heap) (cs : list call) : heap * list (res env) :=
  match cs with
  | [] => (h, [])
  | c :: cs => let '(h, o) := new h c in let '(h, os) := news h cs in (h, o :: os)
  end.

(** The attribute [x] of the sampling method with reference [r]. *)
Definition peek (h : heap) (r : nat) (x : string) : option val :=
  match nth_error h r with Some (_, a) => get a x | None => None end.
