(** Independent tensors, gathered samples and the registration of costs: storch/inference.py:12-103 and
    storch/tensor.py:768-808. Tensor names are modelled in Names.v and left out here. *)
From Coq Require Import String List Arith Bool.
From Verif Require Import Base Torch Plates Wrap.
Import ListNotations.

Section InferenceModel.
Context {V : Type}.
Variable veq : V -> V -> bool.
Variable anc_unwrap : plate V -> stensor V -> res (stensor V).
(** [torch.tensor(1.0 / n)]. *)
Variable recip : nat -> V.

(** Plate.__init__ (storch/tensor.py:24-37); [None] is a missing weight. *)
Definition new_plate (name : string) (n : nat) (parents : list (plate V)) (w : option (weight V)) : plate V :=
  mkPlate PlainPlate name n (match w with Some x => x | None => WTorch (tscalar (recip n)) end) parents.

(** IndependentTensor.__init__ (storch/tensor.py:783-803). [plates.insert(0, ...)] changes the list object that was
    passed, and Tensor.__init__ keeps that object (storch/tensor.py:241): the first component is the passed list after
    the call. [stochastic] is a plain method that hides the property (807-808), so that reading the attribute
    [x.stochastic] gives a function, which counts as true. *)
Definition independent_tensor (id : nat) (t : ten V) (parents : list nat) (plates : list (plate V)) (name : string)
  (w : option (weight V)) : list (plate V) * res (stensor V) :=
  match shape t with
  | [] => (plates, Err IndexError)
  | n :: _ =>
      if existsb (fun p => String.eqb (pname p) name) plates then (plates, Err ValueError)
      else let l := new_plate name n plates w :: plates in (l, mk_tensor id t parents l true)
  end.

(** The context check at the start of denote_independent and gather_samples (storch/inference.py:26-32, 52-58). *)
Definition outside (c : wctx) : bool := negb (c_stochastic c || (0 <? c_deterministic c)).

(** [if dim != 0: t = t.transpose(dim, 0)] (storch/inference.py:35-36, 44-45). Negative dimensions are not modelled. *)
Definition to_front (dim : nat) (t : ten V) : res (ten V) := if dim =? 0 then Ok t else transpose dim 0 t.

(** The argument with another list of plates; the attributes computed by its constructor stay. *)
Definition set_plates (a : stensor V) (l : list (plate V)) : stensor V :=
  mkS (sid a) (st a) l (s_plate_dims a) (s_event_shape a) (sparents a) (s_stochastic a).

(** denote_independent on a storch tensor (storch/inference.py:12-42): the argument after the call, and the result. *)
Definition denote_independent (c : wctx) (a : stensor V) (dim : nat) (name : string) (w : option (weight V))
  (id : nat) : stensor V * res (stensor V) :=
  if negb (outside c) then (a, Err RuntimeError)
  else match to_front dim (st a) with
       | Err e => (a, Err e)
       | Ok t => let '(l, r) := independent_tensor id t [sid a] (splates a) name w in (set_plates a l, r)
       end.

(** denote_independent on a torch tensor (storch/inference.py:26-32, 43-46). *)
Definition denote_independent_raw (c : wctx) (t : ten V) (dim : nat) (name : string) (w : option (weight V))
  (id : nat) : res (stensor V) :=
  if negb (outside c) then Err RuntimeError
  else do t <- to_front dim t; snd (independent_tensor id t [] [] name w).

(** [unsqueeze(0)] on every sample followed by torch.cat along dimension 0 (storch/inference.py:59-67); storch.cat
    calls torch.cat directly when no argument is a storch tensor (storch/wrappers.py:367-368). RuntimeError for an empty
    list or different shapes. *)
Definition cat_samples (ts : list (ten V)) : res (ten V) :=
  match ts with
  | [] => Err RuntimeError
  | t :: _ =>
      if forallb (fun u => list_eqb (shape u) (shape t)) ts
      then Ok (mkten (length ts :: shape t) (fun idx => el (nth (hd 0 idx) ts t) (tl idx)))
      else Err RuntimeError
  end.

(** gather_samples on storch tensors (storch/inference.py:49-80); the plates of the first sample are copied. *)
Definition gather_samples (c : wctx) (l : list (stensor V)) (name : string) (w : option (weight V)) (id : nat)
  : res (stensor V) :=
  if negb (outside c) then Err RuntimeError
  else
    do t <- cat_samples (map st l);
    match l with
    | [] => Err IndexError
    | a :: _ => snd (independent_tensor id t (map sid l) (splates a) name w)
    end.

(** gather_samples on torch tensors (storch/inference.py:52-67, 81-83). *)
Definition gather_raw (c : wctx) (l : list (ten V)) (name : string) (w : option (weight V)) (id : nat)
  : res (stensor V) :=
  if negb (outside c) then Err RuntimeError
  else do t <- cat_samples l; snd (independent_tensor id t [] [] name w).

(** torch.Tensor.squeeze(-1): drops the last dimension if it has size one. *)
Definition squeeze_last (t : ten V) : ten V :=
  match rev (shape t) with
  | 1 :: r => mkten (rev r) (fun idx => el t (idx ++ [0]))
  | _ => t
  end.

(** The cost tensors registered so far with their names: inference._cost_tensors (storch/inference.py:8). *)
Definition registry : Type := list (stensor V * string).

(** The last lines of add_cost (storch/inference.py:100-102); [grad] is torch.is_grad_enabled(). *)
Definition append_cost (grad : bool) (reg : registry) (x : stensor V) (name : string) : registry :=
  if grad then reg ++ [(x, name)] else reg.

(** add_cost (storch/inference.py:86-102) on a storch tensor, CostTensor.__init__ (storch/tensor.py:768-770): the cost
    tensor and the registry afterwards. The empty string also stands for a missing name. *)
Definition add_cost (c : wctx) (grad : bool) (reg : registry) (a : stensor V) (name : string) (base : nat)
  : res (stensor V * registry) :=
  do a' <- (if list_eqb (s_event_shape a) [] then Ok (PT a)
            else if list_eqb (s_event_shape a) [1]
            then handle_deterministic veq anc_unwrap c (torch_fn1 (fun t => Ok (squeeze_last t))) [PT a] [] []
                   default_opts base
            else Err ValueError);
  if String.eqb name "" then Err ValueError
  else match a' with
       | PT b =>
           do x <- mk_tensor (base + 2) (st b) [sid b] (splates b) false;
           Ok (x, append_cost grad reg x name)
       | _ => Err AttributeError
       end.

(** add_cost on a torch tensor (storch/inference.py:87-88, 100-102). *)
Definition add_cost_raw (grad : bool) (reg : registry) (t : ten V) (name : string) (base : nat)
  : res (stensor V * registry) :=
  do x <- mk_tensor base t [] [] false;
  Ok (x, append_cost grad reg x name).

End InferenceModel.
