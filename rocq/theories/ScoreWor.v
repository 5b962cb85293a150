(** ScoreFunctionWOR (storch/method/multi_sample_reinforce.py) and the differentiable importance weights it uses. *)
From Coq Require Import String List Arith Bool ZArith Lia.
From Verif Require Import Base Torch Plates Wrap OrderPlates Scalar Reduce Graph Surrogate Estimators.
Import ListNotations.

Section ScoreWorModel.
Context {V S : Type}.
Variable veq : V -> V -> bool.
Variable anc_unwrap : plate V -> stensor V -> res (stensor V).
Variable o : sops V.
Variable o_exp : V -> V.
Variable o_div : V -> V -> V.
(** SequenceDecoding.EPS (storch/sampling/seq.py:152). *)
Variable eps : V.

Notation op1 := (torch_op1 veq anc_unwrap top_ctx).
Notation op2 := (torch_op2 veq anc_unwrap top_ctx).

(** One importance weight (storch/sampling/swor.py:196-201): [l] the log-probability, [t] the threshold. *)
Definition iw_one (l t : V) : V :=
  o_div (o_exp l) (o_add o (o_det o (o_sub o (o_one o) (o_exp (o_opp o (o_exp (o_sub o l t)))))) eps).
(** compute_iw(plate, biased=False) (storch/sampling/swor.py:192-203, 207): [lp] is plate.log_probs and [pert] the torch
    tensor of plate.perturb_log_probs. Both have the same shape, whose last dimension is that of the plate
    (storch/sampling/seq.py:34-39, storch/sampling/swor.py:176-182), so the storch operations of these lines compute
    element by element; they are modelled by that computation. *)
Definition iw_tensor (lp : stensor V) (pert : ten V) : stensor V :=
  let k := last (shape pert) 1 in
  mkS (sid lp) (mkten (shape (st lp)) (fun i => if last i 0 =? k - 1 then o_zero o
                                                else iw_one (el (st lp) i) (el pert (removelast i ++ [k - 1]))))
      (splates lp) (s_plate_dims lp) (s_event_shape lp) [] false.
(** compute_iw (storch/sampling/swor.py:192-207). *)
Definition compute_iw_t (name : string) (lp : stensor V) (pert : ten V) (biased : bool) (base : nat) : res (pyval V) :=
  let iw := iw_tensor lp pert in
  if biased then
    do WS <- st_sum veq anc_unwrap o top_ctx iw [DPlate name] base;
    do WS <- op1 (o_det o) WS (base + 2);
    op2 o_div (PT iw) WS (base + 4)
  else Ok (PT iw).

(** ScoreFunctionWOR.estimator (storch/method/multi_sample_reinforce.py:44-75). [lp] and [pert] are the attributes of the
    plate called [name] that the cost has; a cost without it leaves cost_plate at None. *)
Definition wor_estimator (name : string) (biased use_baseline : bool) (lp : stensor V) (pert : ten V) : @pyest V S := fun _ c _ sg base =>
  if existsb (fun p => String.eqb (pname p) name) (splates c) then
    do g <- (if use_baseline then
               do iw <- compute_iw_t name lp pert false base;
               do x <- op2 (o_mul o) iw (PT c) (base + 10);
               do x <- as_tensor x;
               do BS <- st_sum veq anc_unwrap o top_ctx x [DPlate name] (base + 12);
               do probs <- op1 o_exp (PT lp) (base + 14);
               if biased then
                 do w <- as_tensor iw;
                 do WS <- st_sum veq anc_unwrap o top_ctx w [DPlate name] (base + 16);
                 do y <- op2 (o_sub o) WS iw (base + 18);
                 do y <- op2 (o_add o) y probs (base + 20);
                 do WiS <- op1 (o_det o) y (base + 22);
                 do b <- op2 o_div BS WS (base + 24);
                 do d <- op2 (o_sub o) (PT c) b (base + 26);
                 do d <- op1 (o_det o) d (base + 28);
                 do r <- op2 o_div iw WiS (base + 30);
                 do m <- op2 (o_mul o) r d (base + 32);
                 do m <- as_tensor m;
                 st_sum veq anc_unwrap o top_ctx m [DPlate name] (base + 34)
               else
                 do y <- op2 (o_sub o) (PRaw (tscalar (o_one o))) probs (base + 16);
                 do y <- op2 (o_add o) y iw (base + 18);
                 do y <- op2 (o_mul o) (PT c) y (base + 20);
                 do d <- op2 (o_sub o) y BS (base + 22);
                 do d <- op1 (o_det o) d (base + 24);
                 do m <- op2 (o_mul o) iw d (base + 26);
                 do m <- as_tensor m;
                 st_sum veq anc_unwrap o top_ctx m [DPlate name] (base + 28)
             else
               do iw <- compute_iw_t name lp pert biased base;
               do d <- op1 (o_det o) (PT c) (base + 10);
               do m <- op2 (o_mul o) d iw (base + 12);
               do m <- as_tensor m;
               st_sum veq anc_unwrap o top_ctx m [DPlate name] (base + 14));
    Ok (pair_of g PNone, sg)
  else Err AttributeError.

(** A program: tensor 0 is a sample drawn without replacement, tensor 1 the cost of every sample, [lp] and [pert] the
    log-probabilities and the perturbed log-probabilities of the samples. The plate is weighted with the detached weights
    (storch/sampling/swor.py:184-190); an AncestralPlate of a single variable behaves as a Plate. *)
Definition wrow (l : list V) : ten V := mkten [length l] (fun i => nth (nth 0 i 0) l (o_zero o)).
Definition wor_weights (biased : bool) (lp pert : list V) : list V :=
  let k := length pert in
  let t := nth (k - 1) pert (o_zero o) in
  let iw := map (fun i => if i =? k - 1 then o_zero o else iw_one (nth i lp (o_zero o)) t) (seq 0 (length lp)) in
  map (fun w => o_det o (if biased then o_div w (o_det o (osum o iw)) else w)) iw.
Definition wor_plate (name : string) (obj : nat) (biased : bool) (lp pert : list V) : plate V :=
  mkPlate PlainPlate name (length lp) (WStorch obj (wrow (wor_weights biased lp pert)) [name]) [].
Definition wor_row (id : nat) (p : plate V) (l : list V) (parents : list nat) : stensor V :=
  mkS id (wrow l) [p] (length (mdp [p])) (skipn (length (mdp [p])) [length l]) parents false.
Definition wor_nodes (name : string) (obj : nat) (biased use_baseline : bool) (lp pert : list V) (x : ten V) (cost : list V) (i : nat) : @snode V S :=
  let p := wor_plate name obj biased lp pert in
  match i with
  | 0 => mkNode (mkS 0 x [p] (length (mdp [p])) (skipn (length (mdp [p])) (shape x)) [] true) name
           (Some (length lp, (fun _ _ => Err NotImplementedError), true,
                  Some (method_of (fun _ _ => Ok false) (wor_estimator name biased use_baseline (wor_row 2 p lp []) (wrow pert)))))
  | _ => mkNode (wor_row 1 p cost [0]) "cost" None
  end.
Definition wor_heap : heap := fold_left (fun h ps => construct ps h) [[]; [0]] empty_heap.
End ScoreWorModel.
