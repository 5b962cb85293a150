(** The surrogate loss: storch/inference.py, magic_box, the score function and its baselines. *)
From Coq Require Import String List Arith Bool ZArith Lia.
From Verif Require Import Base Torch Plates Wrap OrderPlates Scalar Reduce Graph.
Import ListNotations.

Section SurrogateModel.
Context {V S : Type}.
Variable veq : V -> V -> bool.
Variable anc_unwrap : plate V -> stensor V -> res (stensor V).
Variable o : sops V.
(** torch.exp, and division by a Python integer, on one element. *)
Variable o_exp : V -> V.
Variable o_divn : V -> nat -> V.

Notation op1 := (torch_op1 veq anc_unwrap top_ctx).
Notation op2 := (torch_op2 veq anc_unwrap top_ctx).

(** magic_box (storch/util.py:21-28), on a storch tensor or a torch tensor. The numbers added to [base] here and below
    keep the identities of intermediate tensors apart; nothing else depends on them. *)
Definition magic_box (l : pyval V) (base : nat) : res (pyval V) :=
  do d <- op1 (o_det o) l base;
  do x <- op2 (o_sub o) l d (base + 2);
  op1 o_exp x (base + 4).

(** What an estimator reads of a StochasticTensor (storch/tensor.py:824-846): the tensor, its name, n, and
    [distribution.log_prob]. torch.distributions is not modelled: [sm_log_prob] is any function of the storch tensor. *)
Record sample : Type := mkSample {
  sm_t : stensor V; sm_name : string; sm_n : nat; sm_log_prob : stensor V -> nat -> res (pyval V) }.

(** A Method (storch/method/method.py:25-254) as used by [surrogate_loss]: [is_pathwise] on the identities of the sample
    and the cost, and [estimator] on the sample, the cost and the name of the cost. [S] is the state of the estimators
    (baselines). The list [_estimation_pairs] (193) is not modelled. *)
Record meth : Type := mkMeth {
  me_pathwise : nat -> nat -> res bool;
  me_estimator : sample -> stensor V -> string -> S -> nat -> res (option (pyval V) * option (pyval V) * S) }.

(** A tensor of the graph: its name, and for a StochasticTensor also n, log_prob, requires_grad and its method. *)
Record snode : Type := mkNode {
  nd_t : stensor V; nd_name : string; nd_sto : option (nat * (stensor V -> nat -> res (pyval V)) * bool * option meth) }.

(** "for plate in storch.order_plates(c.multi_dim_plates(), reverse=True)" (storch/inference.py:148-150): the plates of the
    cost that are reduced for a parent with plates [pps]. *)
Definition plates_to_reduce (c : stensor V) (pps : list (plate V)) : res (list (plate V)) :=
  do l <- order_plates veq (multi_dim_plates c) true;
  Ok (filter (fun p => negb (pin veq p pps)) l).

(** The name of the cost given to the estimator: the result of a reduction is called after the torch function that
    computed it (storch/wrappers.py:387-389, storch/tensor.py:82-101), so the name of the cost is lost. *)
Definition reduced_name (cname : string) (reduced : list (plate V)) : string :=
  fold_left (fun _ p => match pweight p with
                        | WTorch w => if ndim w =? 0 then "mul1"%string else "sum1"%string
                        | WStorch _ w _ => if ndim w =? 0 then "mul1"%string else "sum1"%string
                        end) reduced cname.

(** The loop that brings the plate dimensions of the parent into the order of the cost (storch/inference.py:153-160). *)
Fixpoint align_parent (cps : list (plate V)) (i : nat) (pps : list (plate V)) (t : ten V)
  : res (list (plate V) * ten V) :=
  match cps with
  | [] => Ok (pps, t)
  | p :: r =>
      match pindex veq p pps with
      | None => Err ValueError
      | Some j =>
          if i =? j then align_parent r (i + 1) pps t
          else do t' <- transpose j i t;
               match nth_error pps i with
               | None => Err IndexError
               | Some _ => align_parent r (i + 1) (swapl j i pps) t'
               end
      end
  end.

(** The stand-in for the parent (storch/inference.py:144-175). *)
Definition new_parent (p : stensor V) (rc : stensor V) (base : nat) : res (stensor V) :=
  do (pps, t) <- align_parent (multi_dim_plates rc) 0 (multi_dim_plates p) (st p);
  mk_tensor base t [] (add_plates veq pps (splates p)) true.

(** squeeze(0) through Tensor.__getattr__ (storch/tensor.py:270-291). *)
Definition squeeze_first (v : pyval V) (base : nat) : res (pyval V) :=
  handle_deterministic veq anc_unwrap top_ctx
    (torch_fn1 (fun t => Ok (match shape t with
                             | 1 :: r => mkten r (fun i => el t (0 :: i))
                             | _ => t
                             end))) [v] [] [] default_opts base.

(** The state of the loop over the ancestors: L, surrogate_loss_c and the state of the estimators. *)
Definition lstate : Type := (pyval V * pyval V * S)%type.

(** The use of the two terms an estimator returns (storch/inference.py:188-200). *)
Definition add_terms (g cv : option (pyval V)) (L acc : pyval V) (base : nat) : res (pyval V * pyval V) :=
  do L <- match g with Some g => op2 (o_add o) L g base | None => Ok L end;
  do acc <- match cv with
            | None => Ok acc
            | Some cv =>
                do b <- magic_box L (base + 10);
                do A <- op2 (o_mul o) b cv (base + 20);
                do A <- reduce_plates veq anc_unwrap o top_ctx A [] false (base + 30);
                do A <- (if ndim (st A) =? 1 then squeeze_first (PT A) (base + 25) else Ok (PT A));
                op2 (o_add o) acc A (base + 28)
            end;
  Ok (L, acc).

(** The body of the loop over the ancestors (storch/inference.py:132-200). *)
Definition add_parent (nodes : nat -> snode) (c : nat) (base : nat) (s : lstate) (p : nat) : res lstate :=
  let '(L, acc, sg) := s in
  match nd_sto (nodes p) with
  | None => Ok s
  | Some (n, lp, requires, m) =>
      match m with
      | Some m =>
          if requires then
            do pathwise <- me_pathwise m p c;
            if pathwise then Ok s
            else
              do red <- plates_to_reduce (nd_t (nodes c)) (multi_dim_plates (nd_t (nodes p)));
              do rc <- reduce_all veq anc_unwrap o top_ctx red (nd_t (nodes c)) true base;
              do np <- new_parent (nd_t (nodes p)) rc base;
              do (g, cv, sg) <- me_estimator m (mkSample np (nd_name (nodes p)) n lp) rc
                                   (reduced_name (nd_name (nodes c)) red) sg base;
              do (L, acc) <- add_terms g cv L acc base;
              Ok (L, acc, sg)
          else Ok s
      | None => Ok s
      end
  end.

(** The body of the loop over the costs (storch/inference.py:114-205). The order of the ancestors is computed on the
    graph [h] as it is before the call: new tensors only ever become children of existing ones. A walk that runs out of
    fuel is the error value [UserExn 0]. *)
Definition surrogate_cost (fuel : nat) (h : heap) (nodes : nat -> snode) (base : nat) (c : nat) (sg : S)
  : res (pyval V * S) :=
  do order <- match surrogate_order fuel h c with Some l => Ok l | None => Err (UserExn 0) end;
  do (L, acc, sg) <- foldM (add_parent nodes c base) order (PRaw (tscalar (o_zero o)), PRaw (tscalar (o_zero o)), sg);
  do b <- magic_box L (base + 10);
  do m <- op2 (o_mul o) b (PT (nd_t (nodes c))) (base + 20);
  do r <- reduce_plates veq anc_unwrap o top_ctx m [] false (base + 30);
  do x <- op2 (o_add o) acc (PT r) (base + 28);
  Ok (x, sg).

Fixpoint surrogate_costs (fuel : nat) (h : heap) (nodes : nat -> snode) (base : nat) (costs : list nat) (sg : S)
  : res (list (pyval V) * S) :=
  match costs with
  | [] => Ok ([], sg)
  | c :: r => do (x, sg) <- surrogate_cost fuel h nodes base c sg;
              do (xs, sg) <- surrogate_costs fuel h nodes base r sg;
              Ok (x :: xs, sg)
  end.

(** torch.stack on a list of torch tensors: equal shapes, a new first dimension. *)
Definition tstack (ts : list (ten V)) : res (ten V) :=
  match ts with
  | [] => Err RuntimeError
  | t :: r => if forallb (fun u => list_eqb (shape u) (shape t)) r
              then Ok (mkten (length ts :: shape t)
                             (fun i => match i with
                                       | [] => el t []
                                       | k :: j => el (nth k ts t) j
                                       end))
              else Err RuntimeError
  end.
Definition stack_fn (args : list (pyval V)) (kwargs : list (string * pyval V)) : res (pyval V) :=
  match args, kwargs with
  | [PList l], [] => match raws l with
                     | Some ts => do t <- tstack ts; Ok (PRaw t)
                     | None => Err TypeError
                     end
  | _, _ => Err TypeError
  end.
(** torch.sum of a whole tensor. *)
Definition tsum (t : ten V) : ten V := tscalar (osum o (map (el t) (indices (shape t)))).

(** surrogate_loss (storch/inference.py:105-206), without [debug]. *)
Definition surrogate_loss (fuel : nat) (h : heap) (nodes : nat -> snode) (costs : list nat) (sg : S) (base : nat)
  : res (pyval V * S) :=
  match costs with
  | [] => Err RuntimeError
  | _ =>
      do (xs, sg) <- surrogate_costs fuel h nodes base costs sg;
      do v <- handle_deterministic veq anc_unwrap top_ctx stack_fn [PList xs] [] [] default_opts base;
      do v <- handle_deterministic veq anc_unwrap top_ctx (torch_fn1 (fun t => Ok (tsum t))) [v] [] [] default_opts (base + 2);
      Ok (v, sg)
  end.

(** The tensor returned by backward (storch/inference.py:213-260): [SL._tensor]. The call to autograd is modelled by the
    elements being functions of the parameters; the clean-up is in Graph.v, the update of the methods in Methods.v. *)
Definition backward_value (fuel : nat) (h : heap) (nodes : nat -> snode) (costs : list nat) (sg : S) (base : nat)
  : res (ten V) :=
  do (v, _) <- surrogate_loss fuel h nodes costs sg base;
  do a <- as_tensor v;
  Ok (st a).

(** Baseline.compute_baseline (storch/method/baseline.py:9-13). *)
Definition baseline : Type := sample -> stensor V -> string -> S -> nat -> res (pyval V * S).

(** ScoreFunction.estimator (storch/method/method.py:550-575). *)
Definition score_estimator (bl : option baseline) (x : sample) (c : stensor V) (cname : string) (sg : S) (base : nat)
  : res (option (pyval V) * option (pyval V) * S) :=
  do lp <- sm_log_prob x (sm_t x) base;
  do lp <- (let pd := s_plate_dims (sm_t x) in
            if pd <? val_ndim lp then sum_dims veq anc_unwrap o top_ctx (seq pd (val_ndim lp - pd)) lp (base + 1) else Ok lp);
  match bl with
  | None => Ok (Some lp, None, sg)
  | Some f =>
      do (b, sg) <- f x c ("_b_" ++ sm_name x ++ "_" ++ cname)%string sg base;
      do mb <- magic_box lp (base + 2);
      do d <- op2 (o_sub o) (PRaw (tscalar (o_one o))) mb (base + 8);
      do cv <- op2 (o_mul o) d b (base + 9);
      Ok (Some lp, Some cv, sg)
  end.
(** ScoreFunction.is_pathwise is Method.is_pathwise (storch/method/method.py:236-241). *)
Definition score_method (bl : option baseline) : meth := mkMeth (fun _ _ => Ok false) (score_estimator bl).

(** BatchAverageBaseline.compute_baseline (storch/method/baseline.py:43-54). *)
Definition batch_average : baseline := fun x c _ sg base =>
  if sm_n x =? 1 then Err ValueError
  else
    do d <- op1 (o_det o) (PT c) base;
    do d <- as_tensor d;
    do s <- st_sum veq anc_unwrap o top_ctx d [DPlate (sm_name x)] (base + 2);
    do m <- op2 (o_sub o) s (PT d) (base + 4);
    do b <- op1 (fun v => o_divn v (sm_n x - 1)) m (base + 6);
    Ok (b, sg).

End SurrogateModel.

(** MovingAverageBaseline (storch/method/baseline.py:16-34). The state maps the attribute name of a baseline object
    (storch/method/method.py:567-570) to its moving average, zero when the object is new. *)
Definition averages (V : Type) : Type := string -> ten V.
Definition moving_average {V : Type} (veq : V -> V -> bool) (anc_unwrap : plate V -> stensor V -> res (stensor V)) (o : sops V)
  (decay : V) : @baseline V (averages V) := fun x c key sg base =>
  do a <- reduce_plates veq anc_unwrap o top_ctx (PT c) [] true base;
  do a <- torch_op1 veq anc_unwrap top_ctx (o_det o) (PT a) (base + 2);
  do y <- torch_op2 veq anc_unwrap top_ctx (o_mul o) (PRaw (tscalar (o_sub o (o_one o) decay))) a (base + 4);
  do z <- torch_op2 veq anc_unwrap top_ctx (o_add o) (PRaw (tmap (o_mul o decay) (sg key))) y (base + 6);
  do z <- as_tensor z;
  Ok (PRaw (st z), fun k => if String.eqb k key then st z else sg k).
