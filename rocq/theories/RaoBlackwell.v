(** RaoBlackwellSF (storch/method/rao_blackwell.py) and the differentiable weights of RaoBlackwellizedSample. *)
From Coq Require Import String List Arith Bool ZArith Lia.
From Verif Require Import Base Torch Plates Wrap OrderPlates Scalar Reduce Graph Surrogate Estimators.
Import ListNotations.

(** "t[(slice(None),) * d + (j,)]". *)
Definition drop_at {A} (d : nat) (l : list A) : list A := firstn d l ++ skipn (S d) l.
Definition index_at {A} (d j : nat) (t : ten A) : res (ten A) :=
  match nth_error (shape t) d with
  | None => Err IndexError
  | Some n => if j <? n then Ok (mkten (drop_at d (shape t)) (fun i => el t (firstn d i ++ j :: skipn d i))) else Err IndexError
  end.
(** "t[(slice(None),) * d + (j,)] = u": [u] is expanded to the shape of the slice. *)
Definition index_put {A} (d j : nat) (t u : ten A) : res (ten A) :=
  match nth_error (shape t) d with
  | None => Err IndexError
  | Some n => if j <? n
              then do u <- expand (drop_at d (shape t)) u;
                   Ok (mkten (shape t) (fun i => if nth d i 0 =? j then el u (drop_at d i) else el t i))
              else Err IndexError
  end.

Section RaoBlackwellModel.
Context {V S : Type}.
Variable veq : V -> V -> bool.
Variable anc_unwrap : plate V -> stensor V -> res (stensor V).
Variable o : sops V.
Variable o_exp : V -> V.

(** RaoBlackwellizedSample.weighting_function (storch/sampling/mapo.py:84-102) on one row of plate.log_probs, [k] the
    number of samples asked for. Only the sum in the last weight is detached. *)
Definition rb_weighting (k : nat) (lp : list V) : list V :=
  if length lp =? k then
    let probs := map o_exp (removelast lp) in
    probs ++ [o_sub o (o_one o) (o_det o (osum o probs))]
  else map o_exp lp.
Definition row_tensor (l : list V) : ten V := mkten [length l] (fun i => nth (nth 0 i 0) l (o_zero o)).
(** The plate the sampling method creates for a variable without other plates (storch/sampling/seq.py:221-225, 280-290),
    weighted by storch/sampling/method.py:56-73. An AncestralPlate of a single variable behaves as a Plate: it differs
    from one only when it meets another plate of the same name. *)
Definition rb_plate (name : string) (obj k : nat) (lp : list V) : plate V :=
  mkPlate PlainPlate name (length lp) (WStorch obj (row_tensor (rb_weighting k lp)) [name]) [].

(** The storch tensor [a] after an assignment to its elements: __setitem__ (storch/tensor.py:326-328) writes into the
    torch tensor [a] holds. *)
Definition with_elements (a : stensor V) (t : ten V) : stensor V :=
  mkS (sid a) t (splates a) (s_plate_dims a) (s_event_shape a) (sparents a) (s_stochastic a).
(** RaoBlackwellSF.estimator (storch/method/rao_blackwell.py:17-32). [log_probs] is [cost_plate.log_probs._tensor].
    [cast] is the conversion to the dtype of the sample (22): the identity for floating point samples; for the integer
    samples of a Categorical it rounds and no gradient flows through it. *)
Definition rb_estimator (name : string) (k : nat) (log_probs : ten V) (cast : V -> V) : @pyest V S := fun x c _ sg base =>
  do z <- torch_op1 veq anc_unwrap top_ctx (fun _ => o_zero o) (PT c) base;
  do p <- get_plate (sm_t x) name;
  do z <- (if pn p =? k then
             do i <- get_plate_dim_index (sm_t x) name;
             do u <- index_at i (k - 1) log_probs;
             do zt <- as_tensor z;
             do t <- index_put i (k - 1) (st zt) (tmap cast u);
             Ok (PT (with_elements zt t))
           else Ok z);
  Ok (pair_of z PNone, sg).

(** A program: tensor 0 is the sample, drawn with RaoBlackwellizedSample, of which only the plate and log-probabilities
    matter; tensor 1 the cost of every sample. *)
Definition rb_nodes (name : string) (obj k : nat) (lp : list V) (cast : V -> V) (x : ten V) (cost : list V) (i : nat) : @snode V S :=
  let p := rb_plate name obj k lp in
  match i with
  | 0 => mkNode (mkS 0 x [p] (length (mdp [p])) (skipn (length (mdp [p])) (shape x)) [] true) name
           (Some (length lp, (fun _ _ => Err NotImplementedError), true,
                  Some (method_of (fun _ _ => Ok false) (rb_estimator name k (row_tensor lp) cast))))
  | _ => mkNode (mkS 1 (row_tensor cost) [p] (length (mdp [p])) (skipn (length (mdp [p])) [length cost]) [0] false) "cost" None
  end.
(** The same with other plates [ys]: plate.log_probs has their dimensions and then that of the samples (storch/sampling/seq.py:32-37), and so
    has the sample (storch/sampling/seq.py:191, 221); [cpl] are the plates of the cost in the order of its dimensions. *)
Definition rb_weight_tensor (k : nat) (lp : ten V) : ten V :=
  mkten (shape lp) (fun i => nth (last i 0) (rb_weighting k (map (fun j => el lp (removelast i ++ [j])) (seq 0 (last (shape lp) 0)))) (o_zero o)).
Definition rb_batch_plate (name : string) (obj k : nat) (ys : list (plate V)) (lp : ten V) : plate V :=
  mkPlate PlainPlate name (last (shape lp) 0) (WStorch obj (rb_weight_tensor k lp) (map pname ys ++ [name])) ys.
Definition rb_batch_nodes (name : string) (obj k : nat) (ys cpl : list (plate V)) (lp : ten V) (cast : V -> V) (x cost : ten V) (i : nat) : @snode V S :=
  let pl := ys ++ [rb_batch_plate name obj k ys lp] in
  match i with
  | 0 => mkNode (mkS 0 x pl (length (mdp pl)) (skipn (length (mdp pl)) (shape x)) [] true) name
           (Some (last (shape lp) 0, (fun _ _ => Err NotImplementedError), true,
                  Some (method_of (fun _ _ => Ok false) (rb_estimator name k lp cast))))
  | _ => mkNode (mkS 1 cost cpl (length (mdp cpl)) (skipn (length (mdp cpl)) (shape cost)) [0] false) "cost" None
  end.
Definition rb_heap : heap := fold_left (fun h ps => construct ps h) [[]; [0]] empty_heap.
End RaoBlackwellModel.
