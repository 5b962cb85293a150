(** The deterministic wrapper: storch/wrappers.py. *)
From Coq Require Import String List Arith Bool Lia.
From Verif Require Import Base Torch Plates.
Import ListNotations.

Section WrapModel.
Context {V : Type}.
Variable veq : V -> V -> bool.

(** What calling the class of a torch Distribution with its parameters does (storch/wrappers.py:152-171, 327-330).
    [DPlain]: the class takes them all, e.g. Normal. [DDiscrete]: Categorical, Bernoulli, OneHotCategorical; the parameter is
    probs or logits. [DRelaxed]: RelaxedBernoulli, RelaxedOneHotCategorical; the class needs a temperature as well. [DNested]:
    Independent and TransformedDistribution; the class takes a distribution. *)
Inductive dclass : Type := DPlain | DDiscrete | DRelaxed | DNested.

(** Python values that occur as arguments and results. [PDistr] is a torch Distribution with its (named) parameters; of
    probs and logits one is listed, the other is computed from it by torch (not modelled).
    [POther] is any value the wrappers pass through (numbers, strings, None inside arguments, ...). *)
Inductive pyval : Type :=
| PNone
| PT (a : stensor V)
| PRaw (t : ten V)
| PList (l : list pyval)
| PTuple (l : list pyval)
| PDict (l : list (string * pyval))
| PDistr (c : dclass) (params : list (string * pyval))
| PInt (n : nat)
| POther (n : nat).

(** "if plate not in plates: plates.append(plate)" (storch/wrappers.py:50-52). *)
Definition add_plate (plates : list (plate V)) (p : plate V) : list (plate V) :=
  if pin veq p plates then plates else plates ++ [p].
Definition add_plates (plates new : list (plate V)) : list (plate V) := fold_left add_plate new plates.

(** The accumulated (parents, plates, max_event_dim). *)
Definition acc : Type := (list (stensor V) * list (plate V) * nat)%type.

(** _collect_parents_and_plates (storch/wrappers.py:45-68). The maximum is threaded instead of returned and
    combined by the caller, which is the same number. A Distribution is not iterable, so it contributes nothing (68). *)
Fixpoint collect (a : pyval) (s : acc) : acc :=
  match a with
  | PT t => let '(ps, pl, m) := s in (ps ++ [t], add_plates pl (splates t), Nat.max m (s_event_dims t))
  | PList l | PTuple l =>
      (fix go (l : list pyval) (s : acc) : acc := match l with [] => s | x :: r => go r (collect x s) end) l s
  | PDict l =>
      (fix go (l : list (string * pyval)) (s : acc) : acc :=
         match l with [] => s | (_, x) :: r => go r (collect x s) end) l s
  | PDistr _ _ | PNone | PRaw _ | PInt _ | POther _ => s
  end.

(** Wrapper options (storch/wrappers.py:177-187). *)
Record wopts : Type := mkW {
  o_unwrap : bool; o_align : bool; o_lbroadcast : bool; o_expand : bool; o_flatten : bool;
  o_dim : option string; o_dims : option (list string)
}.
Definition default_opts : wopts := mkW true true true false false None None.

(** Plate.on_unwrap_tensor for ancestral plates is modelled in Ancestral.v; here it is a parameter used for plates
    of that class. For plain plates it is the identity (storch/tensor.py:123-134). *)
Variable anc_unwrap : plate V -> stensor V -> res (stensor V).
Definition on_unwrap_tensor (p : plate V) (a : stensor V) : res (stensor V) :=
  match pcls p with PlainPlate => Ok a | Ancestral _ _ => anc_unwrap p a end.

(** The loop that reorders plate dimensions (storch/wrappers.py:96-106): [k] = amt_recognized. *)
Fixpoint align_loop (mdps : list (plate V)) (k : nat) (links : list (plate V)) (t : ten V) : res (ten V) :=
  match mdps with
  | [] => Ok t
  | p :: r =>
      if pin veq p links then
        match nth_error links k with
        | None => Err IndexError
        | Some q =>
            if peq veq p q then align_loop r (S k) links t
            else match pindex veq p links with
                 | None => Err ValueError
                 | Some j => do t' <- transpose j k t;
                             align_loop r (S k) (swapl k j links) t'
                 end
        end
      else align_loop r k links t
  end.

(** The loop adding singleton dimensions and recording sizes (storch/wrappers.py:108-116): [i] = position. *)
Fixpoint unsq_loop (mdps : list (plate V)) (i : nat) (aplates : list (plate V)) (t : ten V) (dims : list nat)
  : res (ten V * list nat) :=
  match mdps with
  | [] => Ok (t, dims)
  | p :: r =>
      if pin veq p aplates then
        match nth_error (shape t) i with
        | None => Err IndexError
        | Some d => unsq_loop r (S i) aplates t (dims ++ [d])
        end
      else do t' <- unsqueeze i t; unsq_loop r (S i) aplates t' (dims ++ [pn p])
  end.

(** _unsqueeze_and_unwrap on a storch tensor (storch/wrappers.py:80-127). *)
Definition unwrap_tensor (mdps : list (plate V)) (o : wopts) (event_dims : nat) (a : stensor V) : res (ten V) :=
  if negb (o_align o) then Ok (st a)
  else
    do a <- foldM (fun a p => on_unwrap_tensor p a) mdps a;
    let t := if o_lbroadcast o && (s_event_dims a <? event_dims)
             then unsqueeze_right (event_dims - s_event_dims a) (st a) else st a in
    do t <- align_loop mdps 0 (multi_dim_plates a) t;
    do (t, pd) <- unsq_loop mdps 0 (splates a) t [];
    do t <- (if o_expand o || o_flatten o then expand (pd ++ skipn (List.length pd) (shape t)) t else Ok t);
    if o_flatten o then reshape_infer (skipn (List.length pd) (shape t)) t else Ok t.

(** _unsqueeze_and_unwrap (storch/wrappers.py:71-174). For a Distribution the parameters are unwrapped and the
    distribution is rebuilt from them; if the class does not accept them the distribution is passed as it is (170-171). Values
    that the class rejects, e.g. a negative scale, are not modelled. *)
Fixpoint unwrap_val (mdps : list (plate V)) (o : wopts) (ed : nat) (a : pyval) : res pyval :=
  match a with
  | PT t => do t' <- unwrap_tensor mdps o ed t; Ok (PRaw t')
  | PDict l =>
      do l' <- (fix go (l : list (string * pyval)) : res (list (string * pyval)) :=
                  match l with
                  | [] => Ok []
                  | (k, x) :: r => do x' <- unwrap_val mdps o ed x; do r' <- go r; Ok ((k, x') :: r')
                  end) l;
      Ok (PDict l')
  | PList l =>
      do l' <- (fix go (l : list pyval) : res (list pyval) :=
                  match l with
                  | [] => Ok []
                  | x :: r => do x' <- unwrap_val mdps o ed x; do r' <- go r; Ok (x' :: r')
                  end) l;
      Ok (PList l')
  | PTuple l =>
      do l' <- (fix go (l : list pyval) : res (list pyval) :=
                  match l with
                  | [] => Ok []
                  | x :: r => do x' <- unwrap_val mdps o ed x; do r' <- go r; Ok (x' :: r')
                  end) l;
      Ok (PTuple l')
  | PDistr c l =>
      do l' <- (fix go (l : list (string * pyval)) : res (list (string * pyval)) :=
                  match l with
                  | [] => Ok []
                  | (k, x) :: r => do x' <- unwrap_val mdps o ed x; do r' <- go r; Ok ((k, x') :: r')
                  end) l;
      Ok (match c with DPlain | DDiscrete => PDistr c l' | DRelaxed | DNested => a end)
  | PNone | PRaw _ | PInt _ | POther _ => Ok a
  end.

(** "plates = list(filter(lambda p: p.on_collecting_args(plates), plates))" (storch/wrappers.py:219-220). *)
Fixpoint filter_collected (all l : list (plate V)) : res (list (plate V)) :=
  match l with
  | [] => Ok []
  | p :: r => do b <- on_collecting_args veq p all;
              do r' <- filter_collected all r;
              Ok (if b then p :: r' else r')
  end.

(** Position of the first plate with a given name (storch/wrappers.py:229-232); [None]: the loop ends without
    assigning i_dim. *)
Fixpoint dim_pos (name : string) (l : list (plate V)) (i : nat) : option nat :=
  match l with
  | [] => None
  | p :: r => if String.eqb name (pname p) then Some i else dim_pos name r (S i)
  end.

Fixpoint set_kw (k : string) (v : pyval) (l : list (string * pyval)) : list (string * pyval) :=
  match l with
  | [] => [(k, v)]
  | (k', v') :: r => if String.eqb k k' then (k, v) :: r else (k', v') :: set_kw k v r
  end.

(** The [dims] loop (storch/wrappers.py:234-242). [i_dim] is the local bound by the [dim] option, if any.
    The [raise] at line 241 is reached after every inner loop, whether or not it found the plate. *)
Definition dims_loop (i_dim : option nat) (dims : list string) (mdps : list (plate V)) (dimz : list nat)
  : res (list nat) :=
  match dims with
  | [] => Ok dimz
  | d :: _ =>
      match dim_pos d mdps 0 with
      | Some _ => match i_dim with None => Err UnboundLocalError | Some _ => Err ValueError end
      | None => Err ValueError
      end
  end.

(** _prepare_args (storch/wrappers.py:177-272). *)
Definition prepare_args (args : list pyval) (kwargs : list (string * pyval)) (o : wopts)
  : res (list pyval * list (string * pyval) * list (stensor V) * list (plate V)) :=
  let '(parents, plates, med) := collect (PDict kwargs) (collect (PList args) ([], [], 0)) in
  do plates <- filter_collected plates plates;
  let mdps := mdp plates in
  do (kwargs, i_dim) <-
    match o_dim o with
    | Some d => if String.eqb d "" then Ok (kwargs, None)
                else match dim_pos d mdps 0 with
                     | None => Err UnboundLocalError
                     | Some i => Ok (set_kw "dim" (PInt i) kwargs, Some i)
                     end
    | None => Ok (kwargs, None)
    end;
  do kwargs <-
    match o_dims o with
    | Some (d :: ds) => do dz <- dims_loop i_dim (d :: ds) mdps [];
                        Ok (set_kw "dims" (PList (map PInt dz)) kwargs)
    | _ => Ok kwargs
    end;
  if o_unwrap o then
    do args' <- mapM (unwrap_val mdps o med) args;
    do kwargs' <- mapM (fun kv => do v <- unwrap_val mdps o med (snd kv); Ok (fst kv, v)) kwargs;
    Ok (args', kwargs', parents, plates)
  else Ok (args, kwargs, parents, plates).

(** The plates given to an output that already is a storch tensor (storch/wrappers.py:293-304). *)
Definition merge_plate (new_plates : list (plate V)) (p : plate V) : res (list (plate V)) :=
  let step (acc : res (list (plate V) * bool)) (q : plate V) : res (list (plate V) * bool) :=
    do (l, found) <- acc;
    if String.eqb (pname p) (pname q)
    then match pcls p with
         | PlainPlate => Ok (l ++ [q], true)
         | Ancestral vi _ => match pcls q with
                             | PlainPlate => Err AssertionError
                             | Ancestral vi' _ => Ok (l ++ [if vi' <? vi then p else q], true)
                             end
         end
    else Ok (l ++ [q], found) in
  do (l, found) <- fold_left step new_plates (Ok ([], false));
  Ok (if found then l else p :: l).

(** _prepare_outputs_det (storch/wrappers.py:275-338). [base] makes object identities of new tensors distinct:
    the tensor named name+str(index) gets identity base+index. Line 309 passes [parents], not the list extended
    with [o] that lines 306-307 build. A discrete distribution is rebuilt from its wrapped probabilities (327-330); a relaxed
    one raises ValueError, because the class takes the probabilities for the temperature. Iterating over a dict gives its keys,
    which are no tensors. Registered wrappers are not
    modelled: all other values raise NotImplementedError. *)
Fixpoint prepare_outputs (o : pyval) (parents : list (stensor V)) (plates : list (plate V)) (base index : nat)
  (unflatten : bool) : res (pyval * nat) :=
  match o with
  | PNone => Ok (PNone, index)
  | PT a =>
      if s_stochastic a then Err RuntimeError
      else
        do np <- foldM merge_plate (rev plates) (splates a);
        do t <- mk_tensor (base + index) (st a) (map sid parents) np false;
        Ok (PT t, S index)
  | PRaw t =>
      do t <- (if unflatten then reshape (map pn (mdp plates) ++ skipn 1 (shape t)) t else Ok t);
      do s <- mk_tensor (base + index) t (map sid parents) plates false;
      Ok (PT s, S index)
  | PList l =>
      do (l', i) <- (fix go (l : list pyval) (index : nat) : res (list pyval * nat) :=
                       match l with
                       | [] => Ok ([], index)
                       | x :: r => do (x', i) <- prepare_outputs x parents plates base index unflatten;
                                   do (r', j) <- go r i;
                                   Ok (x' :: r', j)
                       end) l index;
      Ok (PList l', i)
  | PTuple l =>
      do (l', i) <- (fix go (l : list pyval) (index : nat) : res (list pyval * nat) :=
                       match l with
                       | [] => Ok ([], index)
                       | x :: r => do (x', i) <- prepare_outputs x parents plates base index unflatten;
                                   do (r', j) <- go r i;
                                   Ok (x' :: r', j)
                       end) l index;
      Ok (PTuple l', i)
  | PDistr DDiscrete l =>
      do (l', i) <- (fix go (l : list (string * pyval)) (index : nat) : res (list (string * pyval) * nat) :=
                       match l with
                       | [] => Ok ([], index)
                       | (k, x) :: r => do (x', i) <- prepare_outputs x parents plates base index unflatten;
                                        do (r', j) <- go r i;
                                        Ok ((k, x') :: r', j)
                       end) l index;
      Ok (PDistr DDiscrete l', i)
  | PDistr DRelaxed l =>
      do _ <- (fix go (l : list (string * pyval)) (index : nat) : res (list (string * pyval) * nat) :=
                 match l with
                 | [] => Ok ([], index)
                 | (k, x) :: r => do (x', i) <- prepare_outputs x parents plates base index unflatten;
                                  do (r', j) <- go r i;
                                  Ok ((k, x') :: r', j)
                 end) l index;
      Err ValueError
  | PDict [] => Ok (PList [], index)
  | PDict _ | PDistr DPlain _ | PDistr DNested _ | PInt _ | POther _ => Err NotImplementedError
  end.

(** The wrapping state read by _handle_deterministic (storch/wrappers.py:17-22). *)
Record wctx : Type := mkCtx { c_stochastic : bool; c_deterministic : nat; c_ignore : bool }.
Definition top_ctx : wctx := mkCtx false 0 false.

(** _handle_deterministic (storch/wrappers.py:341-390), for a pure [fn]. The change of the context counter around
    the call of fn (373-378) is modelled in Context.v. [reduce_plates] lists the reduced plate names. *)
Definition handle_deterministic (c : wctx) (fn : list pyval -> list (string * pyval) -> res pyval)
  (args : list pyval) (kwargs : list (string * pyval)) (reduce_plates : list string) (o : wopts) (base : nat)
  : res pyval :=
  if c_stochastic c then Err NotImplementedError
  else
    do (args', kwargs', parents, plates) <- prepare_args args kwargs o;
    match parents with
    | [] => fn args kwargs
    | _ =>
        do out <- fn args' kwargs';
        if c_ignore c then Ok out
        else
          let plates := filter (fun p => negb (existsb (String.eqb (pname p)) reduce_plates)) plates in
          do (v, _) <- prepare_outputs out parents plates base 1 (o_flatten o);
          Ok v
    end.

(** An elementwise torch function of two tensors as Python sees it. A scalar or raw tensor is a [PRaw]. *)
Definition torch_fn2 (f : V -> V -> V) (args : list pyval) (kwargs : list (string * pyval)) : res pyval :=
  match args, kwargs with
  | [PRaw t; PRaw u], [] => do r <- elementwise2 f t u; Ok (PRaw r)
  | _, _ => Err TypeError
  end.
Definition torch_fn1 (f : ten V -> res (ten V)) (args : list pyval) (kwargs : list (string * pyval)) : res pyval :=
  match args, kwargs with
  | [PRaw t], [] => do r <- f t; Ok (PRaw r)
  | _, _ => Err TypeError
  end.

Fixpoint raws (args : list pyval) : option (list (ten V)) :=
  match args with
  | [] => Some []
  | PRaw t :: r => option_map (cons t) (raws r)
  | _ => None
  end.
Definition torch_fnN (f : list (ten V) -> res (ten V)) (args : list pyval) (kwargs : list (string * pyval)) : res pyval :=
  match raws args, kwargs with
  | Some ts, [] => do r <- f ts; Ok (PRaw r)
  | _, _ => Err TypeError
  end.

(** make_left_broadcastable(fn) (storch/wrappers.py:435-441). *)
Definition flatten_opts : wopts := mkW true true true false true None None.
Definition left_broadcastable (c : wctx) (f : list (ten V) -> res (ten V)) (args : list pyval) (base : nat) : res pyval :=
  handle_deterministic c (torch_fnN f) args [] [] flatten_opts base.

(** The overloaded binary operators and torch functions on storch tensors: Tensor.__torch_function__
    (storch/tensor.py:243-268) and the operator methods (646-761), e.g. [a + b] is
    [torch_op2 add (PT a) (PT b)]. *)
Definition torch_op2 (c : wctx) (f : V -> V -> V) (a b : pyval) (base : nat) : res pyval :=
  handle_deterministic c (torch_fn2 f) [a; b] [] [] default_opts base.

(** A unary elementwise torch function or method on a storch tensor: Tensor.__torch_function__ (storch/tensor.py:243-268),
    Tensor.__getattr__ (270-291), e.g. exp, log, detach. *)
Definition torch_op1 (c : wctx) (f : V -> V) (a : pyval) (base : nat) : res pyval :=
  handle_deterministic c (torch_fn1 (fun t => Ok (tmap f t))) [a] [] [] default_opts base.

End WrapModel.
Arguments pyval : clear implicits.
