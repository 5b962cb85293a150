(** Reductions: storch/storch.py:10-128 and Plate.reduce (storch/tensor.py:74-101). *)
From Coq Require Import String List Arith Bool ZArith Lia.
From Verif Require Import Base Torch Plates Wrap OrderPlates Scalar.
Import ListNotations.

Section ReduceModel.
Context {V : Type}.
Variable veq : V -> V -> bool.
Variable anc_unwrap : plate V -> stensor V -> res (stensor V).

(** An entry of the argument [dims]: an integer, or a plate given by itself or by name (storch/storch.py:16-31). *)
Inductive dimarg : Type := DInt (z : Z) | DPlate (name : string).

(** One iteration of _convert_indices (storch/storch.py:15-31): the torch dimension and the reduced plate. *)
Definition convert_index (a : stensor V) (d : dimarg) : res (Z * list string) :=
  match d with
  | DInt z =>
      if (Z.of_nat (s_plate_dims a) <=? z)%Z || ((z <? 0)%Z && (- Z.of_nat (s_event_dims a) <=? z)%Z)
      then Ok (z, []) else Err IndexError
  | DPlate name => do i <- get_plate_dim_index a name; Ok (Z.of_nat i, [name])
  end.
(** _convert_indices (storch/storch.py:10-32). A single dimension is a list of one. *)
Definition convert_indices (a : stensor V) (dims : list dimarg) : res (list Z * list string) :=
  do l <- mapM (convert_index a) dims; Ok (map fst l, flat_map snd l).

(** How torch reads a dimension number of a tensor of the given rank: negative numbers count from the right. *)
Definition norm_dim (rank : nat) (z : Z) : res nat :=
  if (0 <=? z)%Z && (z <? Z.of_nat rank)%Z then Ok (Z.to_nat z)
  else if (z <? 0)%Z && (- Z.of_nat rank <=? z)%Z then Ok (Z.to_nat (z + Z.of_nat rank))
  else Err IndexError.
(** A torch reduction over dimension numbers. A tensor of rank 0 may be reduced over dimension 0 or -1. *)
Definition torch_reduce (red : list V -> V) (dims : list Z) (t : ten V) : res (ten V) :=
  match shape t with
  | [] => do ds <- mapM (norm_dim 1) dims;
          if 1 <? length ds then Err RuntimeError else Ok (mkten [] (fun _ => red [el t []]))
  | _ => do ds <- mapM (norm_dim (ndim t)) dims; reduce_dims red ds t
  end.

(** storch.reduce(fn, plates)(tensor, indices) for a torch reduction (storch/wrappers.py:444-458). The tuple [indices] is
    passed through by the wrapper; it is bound in the closure here. *)
Definition reduce_with (c : wctx) (red : list V -> V) (a : stensor V) (dims : list dimarg) (base : nat) : res (pyval V) :=
  do (idx, names) <- convert_indices a dims;
  handle_deterministic veq anc_unwrap c (torch_fn1 (torch_reduce red idx)) [PT a] [] names default_opts base.

(** storch.sum, storch.mean and storch.logsumexp (storch/storch.py:35-57) are [reduce_with] for the respective torch
    function. *)
Variable o : sops V.
Definition st_sum (c : wctx) (a : stensor V) (dims : list dimarg) (base : nat) : res (pyval V) :=
  reduce_with c (osum o) a dims base.

(** Plate.weight as a value. The plates of a storch weight are the plate itself and direct parents of it
    (storch/sampling/method.py: the weighting function gets the sample, whose plates are those); they are looked up by
    name. *)
Definition weight_tensor (p : plate V) : res (pyval V) :=
  match pweight p with
  | WTorch t => Ok (PRaw t)
  | WStorch obj t names =>
      do ps <- mapM (fun nm => find_plate nm (p :: pparents p)) names;
      do a <- mk_tensor obj t [] ps false;
      Ok (PT a)
  end.
Definition val_ndim (v : pyval V) : nat :=
  match v with PT a => ndim (st a) | PRaw t => ndim t | _ => 0 end.

(** "plate_weighting = self.weight.detach()" (storch/tensor.py:75-77). *)
Definition detached_weight (c : wctx) (p : plate V) (detach : bool) (base : nat) : res (pyval V) :=
  do w <- weight_tensor p;
  if detach then match w with
                 | PRaw t => Ok (PRaw (tmap (o_det o) t))
                 | _ => torch_op1 veq anc_unwrap c (o_det o) w base
                 end
  else Ok w.

(** "lambda x: x * plate_weighting" (storch/tensor.py:79), [x] being the unwrapped tensor. *)
Definition times_weight (c : wctx) (w : pyval V) (base : nat) (args : list (pyval V)) (kwargs : list (string * pyval V))
  : res (pyval V) :=
  match args, kwargs with
  | [PRaw x], [] => match w with
                    | PRaw u => do r <- elementwise2 (o_mul o) x u; Ok (PRaw r)
                    | _ => torch_op2 veq anc_unwrap c (o_mul o) (PRaw x) w base
                    end
  | _, _ => Err TypeError
  end.

(** "plate_weighting[(...,) + (None,) * k]" (storch/tensor.py:87-89, 322-324): for a storch tensor through __getitem__,
    which is wrapped with l_broadcast=False. *)
Definition getitem_opts : wopts := mkW true true false false false None None.
Definition add_dims (c : wctx) (k : nat) (w : pyval V) (base : nat) : res (pyval V) :=
  match w with
  | PRaw t => Ok (PRaw (unsqueeze_right k t))
  | _ => handle_deterministic veq anc_unwrap c (torch_fn1 (fun t => Ok (unsqueeze_right k t))) [w] [] [] getitem_opts base
  end.

Definition as_tensor (v : pyval V) : res (stensor V) := match v with PT a => Ok a | _ => Err AttributeError end.

(** Plate.reduce (storch/tensor.py:74-101). [base], [base]+10, ... give identities to the intermediate tensors. *)
Definition plate_reduce (c : wctx) (p : plate V) (a : stensor V) (detach : bool) (base : nat) : res (pyval V) :=
  do w <- detached_weight c p detach base;
  if pn p =? 1 then
    handle_deterministic veq anc_unwrap c (times_weight c w (base + 10)) [PT a] [] [pname p] default_opts (base + 20)
  else if val_ndim w =? 0 then
    do s <- st_sum c a [DPlate (pname p)] (base + 10);
    torch_op2 veq anc_unwrap c (o_mul o) s w (base + 20)
  else if val_ndim w =? 1 then
    do i <- get_plate_dim_index a (pname p);
    do w' <- add_dims c (ndim (st a) - i - 1) w (base + 10);
    do x <- torch_op2 veq anc_unwrap c (o_mul o) (PT a) w' (base + 20);
    do x <- as_tensor x;
    st_sum c x [DPlate (pname p)] (base + 30)
  else if existsb (fun q => negb (pin veq q (splates a))) (pparents p) then Err ValueError
  else
    do x <- torch_op2 veq anc_unwrap c (o_mul o) (PT a) w (base + 20);
    do x <- as_tensor x;
    st_sum c x [DPlate (pname p)] (base + 30).

(** The argument [plates] of reduce_plates: names or plates; a single one is a list of one; None is the empty list
    (storch/storch.py:64-97). *)
Inductive platearg : Type := ByName (name : string) | ByPlate (p : plate V).

(** "for plate in plates" for a raw tensor (storch/storch.py:74-84). *)
Fixpoint check_aligned (shp : list nat) (plates : list platearg) (i : nat) : res (list (plate V)) :=
  match plates with
  | [] => Ok []
  | ByName _ :: _ => Err ValueError
  | ByPlate p :: r =>
      if 1 <? pn p then
        match nth_error shp i with
        | None => Err IndexError
        | Some d => if d =? pn p then do l <- check_aligned shp r (S i); Ok (p :: l) else Err ValueError
        end
      else do l <- check_aligned shp r i; Ok (p :: l)
  end.

(** _handle_inputs (storch/storch.py:64-97). *)
Definition handle_inputs (t : pyval V) (plates : list platearg) (base : nat) : res (stensor V * list (plate V)) :=
  match t with
  | PT a =>
      match plates with
      | [] => Ok (a, splates a)
      | _ => do l <- mapM (fun x => match x with ByPlate p => Ok p | ByName n => get_plate a n end) plates; Ok (a, l)
      end
  | PRaw t =>
      match plates with
      | [] => Err ValueError
      | _ => do l <- check_aligned (shape t) plates 0; do a <- mk_tensor base t [] l false; Ok (a, l)
      end
  | _ => Err AttributeError
  end.

(** "for plate in order_plates(plates, reverse=True)" (storch/storch.py:125-126). *)
Fixpoint reduce_all (c : wctx) (ps : list (plate V)) (a : stensor V) (detach : bool) (base : nat) : res (stensor V) :=
  match ps with
  | [] => Ok a
  | p :: r => do v <- plate_reduce c p a detach base;
              do a' <- as_tensor v;
              reduce_all c r a' detach (base + 40)
  end.

(** reduce_plates (storch/storch.py:107-128). *)
Definition reduce_plates (c : wctx) (t : pyval V) (plates : list platearg) (detach : bool) (base : nat) : res (stensor V) :=
  do (a, ps) <- handle_inputs t plates base;
  do l <- order_plates veq ps true;
  reduce_all c l a detach base.

(** "for plate in plates: ..." (storch/storch.py:198-206): a plate given by itself stays the given object. *)
Definition variance_plate (plates : list (plate V)) (x : platearg) : res (plate V) :=
  match x with
  | ByPlate q => if existsb (fun p => peq veq p q) plates then Ok q else Err ValueError
  | ByName n => match find (fun p => String.eqb (pname p) n) plates with Some p => Ok p | None => Err ValueError end
  end.

(** Tensor.sum(dims) for numbers of event dimensions, through Tensor.__getattr__ (storch/tensor.py:270-291). *)
Definition sum_dims (c : wctx) (dims : list nat) (v : pyval V) (base : nat) : res (pyval V) :=
  handle_deterministic veq anc_unwrap c (torch_fn1 (torch_reduce (osum o) (map Z.of_nat dims))) [v] [] [] default_opts base.

(** storch.variance (storch/storch.py:180-216). *)
Definition variance (c : wctx) (t : pyval V) (vp : platearg) (plates : list platearg) (detach : bool) (base : nat)
  : res (stensor V) :=
  do (a, ps) <- handle_inputs t plates base;
  do p <- variance_plate ps vp;
  do mean <- plate_reduce c p a detach (base + 100);
  do d <- torch_op2 veq anc_unwrap c (o_sub o) (PT a) mean (base + 200);
  do v <- torch_op1 veq anc_unwrap c (fun x => o_mul o x x) d (base + 210);
  do v <- (if 0 <? s_event_dims a then sum_dims c (seq (s_plate_dims a) (s_event_dims a)) v (base + 220) else Ok v);
  reduce_plates c v [] detach (base + 300).

End ReduceModel.
