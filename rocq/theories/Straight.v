(** Straight-line storch programs: data denoted independent, samples drawn with ScoreFunction and MonteCarlo, and calls of
    torch functions, in any number and any order, followed by storch.backward. The functions that are run are those of the
    other model files; this file only strings them together, as a user's script does (examples/introduction.py and examples/vae do
    nothing else). *)
From Coq Require Import String List Arith Bool.
From Verif Require Import Base Torch Plates Wrap Scalar Inference Graph Surrogate Sampling TensorFns.
Import ListNotations.
Open Scope string_scope.
Open Scope nat_scope.
Open Scope list_scope.

Section StraightModel.
Context {V S : Type}.
Variable veq : V -> V -> bool.
Variable anc_unwrap : plate V -> stensor V -> res (stensor V).
Variable recip : nat -> V.
Variable o : sops V.
Variable o_exp : V -> V.

(** Torch functions of several tensors. An elementwise one, such as an expression built from arithmetic and functions of numbers:
    the arguments are broadcast. A sum over the last [k] dimensions. One function after another. *)
Definition elementwise (f : list V -> V) (ts : list (ten V)) : res (ten V) :=
  do us <- broadcast_tensors ts;
  Ok (mkten (match us with u :: _ => shape u | [] => [] end) (fun i => f (map (fun u => el u i) us))).
Definition sum_last (k : nat) (ts : list (ten V)) : res (ten V) :=
  match ts with
  | [t] => let n := length (shape t) - k in
           Ok (mkten (firstn n (shape t)) (fun b => osum o (map (fun e => el t (b ++ e)) (indices (skipn n (shape t))))))
  | _ => Err TypeError
  end.
Definition after (f2 f1 : list (ten V) -> res (ten V)) (ts : list (ten V)) : res (ten V) := do t <- f1 ts; f2 [t].

(** A statement creates one tensor from earlier ones, which it names by their position.
    - [Data name t]: storch.denote_independent(t, 0, name) on a torch tensor (storch/inference.py:12-46).
    - [Draw name n sizes args grad lp]: ScoreFunction(name, MonteCarlo(name, n))(d) with a distribution d whose parameters
      are the storch tensors [args] and torch tensors, of batch and event shape [sizes] (storch/method/method.py:96-190,
      527-548); its baseline, if any, is given separately, to [script]. [grad]: some parameter requires a gradient. [lp] is d.log_prob as a function of the sample and [args].
    - [Call fn args]: a torch function or a storch.deterministic function of storch tensors (storch/wrappers.py:341-390,
      storch/tensor.py:243-291). Torch tensors and other arguments are part of [fn]. *)
Inductive stmt : Type :=
| Data (name : string) (t : ten V)
| Draw (name : string) (n : nat) (sizes : list nat) (args : list nat) (grad : bool) (lp : list (ten V) -> res (ten V))
| Call (fn : list (ten V) -> res (ten V)) (args : list nat).

(** The value of a Python variable. *)
Definition lookup (env : list (stensor V)) (a : nat) : res (stensor V) :=
  match nth_error env a with Some x => Ok x | None => Err IndexError end.

(** What mc_sample of MonteCarlo (storch/sampling/method.py:62-70) returns, distr.sample((n,)): one value of shape [sizes]
    for every sample and every index of the plate dimensions of the parameters. [draws j] is the value drawn with index [j]
    for all plates, where a plate without a dimension has index 0. *)
Fixpoint full_index (l : list (plate V)) (i : list nat) : list nat * list nat :=
  match l with
  | [] => ([], i)
  | p :: r => if 1 <? pn p then let '(a, b) := full_index r (tl i) in (hd 0 i :: a, b)
              else let '(a, b) := full_index r i in (0 :: a, b)
  end.
Definition drawn (draws : list nat -> ten V) (plates : list (plate V)) (sizes : list nat) (n : nat) : res (ten V) :=
  Ok (mkten (n :: map pn (mdp plates) ++ sizes)
        (fun i => let '(a, e) := full_index plates (tl i) in el (draws (hd 0 i :: a)) e)).

(** The parameters of the distribution of a Draw. *)
Definition draw_params (ts : list (stensor V)) (grad : bool) : list (@param V) := ParT grad :: map (fun t => ParS t false) ts.

(** One statement; the tensor it creates is number [length env]. [draws]: what is drawn. *)
Definition step (draws : nat -> list nat -> ten V) (env : list (stensor V)) (s : stmt) : res (stensor V) :=
  let id := length env in
  match s with
  | Data name t => denote_independent_raw recip top_ctx t 0 name None id
  | Draw name n sizes args grad lp =>
      do ts <- mapM (lookup env) args;
      let '(_, plates, _) := collect_params veq (draw_params ts grad) [] [] false in
      do (x, _) <- method_sample veq recip name n (drawn (draws id) plates sizes) None None (draw_params ts grad) [] [] id;
      Ok x
  | Call fn args =>
      do ts <- mapM (lookup env) args;
      do v <- handle_deterministic veq anc_unwrap top_ctx (torch_fnN fn) (map (@PT V) ts) [] [] default_opts (id - 1);
      match v with PT x => Ok x | _ => Err TypeError end
  end.
Fixpoint run (draws : nat -> list nat -> ten V) (prog : list stmt) (env : list (stensor V)) : res (list (stensor V)) :=
  match prog with
  | [] => Ok env
  | s :: r => do x <- step draws env s; run draws r (env ++ [x])
  end.

(** d.log_prob(x) for the sample [x]: the operations torch's distribution applies to [x] and the parameters go through
    storch's wrapper one by one; modelled as one wrapped call. *)
Definition log_prob_of (lp : list (ten V) -> res (ten V)) (ts : list (stensor V)) (x : stensor V) (base : nat) : res (pyval V) :=
  handle_deterministic veq anc_unwrap top_ctx (torch_fnN lp) (map (@PT V) (x :: ts)) [] [] default_opts base.

(** The attributes of the created tensors that storch.backward reads. [bl a] is the baseline of variable [a]
    (storch/method/method.py:532-548). *)
Variable bl : nat -> option (@baseline V S).
Definition no_tensor : stensor V := mkS 0 (tscalar (o_zero o)) [] 0 [] [] false.
Definition node (prog : list stmt) (env : list (stensor V)) (i : nat) : @snode V S :=
  let x := nth i env no_tensor in
  match nth_error prog i with
  | Some (Draw name n _ args grad lp) =>
      mkNode x name (Some (n, log_prob_of lp (map (fun a => nth a env no_tensor) args), grad,
                           Some (score_method veq anc_unwrap o o_exp (bl i))))
  | _ => mkNode x "" None
  end.
Definition graph (env : list (stensor V)) : heap := fold_left (fun h x => construct (sparents x) h) env empty_heap.

(** The whole script: the statements, then storch.backward() with the tensors [costs] registered as costs. *)
Definition script (fuel : nat) (draws : nat -> list nat -> ten V) (prog : list stmt) (costs : list nat) (sg : S) (base : nat)
  : res (ten V) :=
  do env <- run draws prog [];
  backward_value veq anc_unwrap o o_exp fuel (graph env) (node prog env) costs sg base.

End StraightModel.
