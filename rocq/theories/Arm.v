(** A program with ARM (storch/method/arm.py): one variable is sampled, a cost is computed from what post_sample makes of it, and backward is called. *)
From Coq Require Import String List Arith Bool ZArith.
From Verif Require Import Base Torch Plates Wrap OrderPlates Scalar Reduce Graph Sampling Surrogate Estimators TensorFns.
Import ListNotations.
Open Scope string_scope.
Open Scope nat_scope.
Open Scope list_scope.

Section ArmModel.
Context {V : Type}.
Variable veq : V -> V -> bool.
Variable anc_unwrap : plate V -> stensor V -> res (stensor V).
Variable o : sops V.
Variable o_exp : V -> V.
Variable recip : nat -> V.
Variable half : V.
Variable lgp : V -> V -> V.
Variable gt0 : V -> bool.

(** ARM.sample_arm (storch/method/arm.py:40-51). [eps] is the noise: what Logistic(0, 1).sample returned. The check of the distribution (47-48)
    is not modelled. *)
Definition sample_arm (eps logits : ten V) : res (ten V) :=
  do z <- elementwise2 (o_add o) eps logits;
  do z' <- elementwise2 (o_add o) (tmap (o_opp o) eps) logits;
  torch_cat [z; z'] 0%Z.

(** ARM.post_sample (storch/method/arm.py:65-66): "(tensor > 0.0).float()". *)
Definition arm_post (t : ten V) : ten V := tmap (fun v => if gt0 v then o_one o else o_zero o) t.

(** Method.sample (storch/method/method.py:96-190) with these: first without post_sample, to have the sample itself, then with it. The logits
    are a torch tensor that requires a gradient. *)
Definition arm_sample (post : bool) (name : string) (n : nat) (eps : nat -> ten V) (logits : ten V) : res (stensor V) :=
  do (x, _) <- method_sample veq recip name n (fun k => sample_arm (eps k) logits) (Some (true_samples recip (o_zero o) 2))
                 (if post then Some arm_post else None) [ParT true] [] [] 0;
  Ok x.

(** The cost of every sample: any function of the components of the (discretised) sample. *)
Definition row_cost (id : nat) (F : (list nat -> V) -> V) (y : stensor V) : stensor V :=
  mkS id (mkten (firstn 1 (shape (st y))) (fun i => F (fun e => el (st y) (nth 0 i 0 :: e)))) (splates y) 1 [] [sid y] false.

(** Tensor 0 is the sample, tensor 1 the discretised sample (a stochastic tensor that does not require a gradient), tensor 2 the cost. *)
Definition arm_graph : heap := fold_left (fun h ps => construct ps h) [[]; [0]; [1]] empty_heap.
Definition no_log_prob (x : stensor V) (base : nat) : res (pyval V) := Err NotImplementedError.
Definition arm_tensors (name : string) (F : (list nat -> V) -> V) (logits : ten V) (x y : stensor V) (i : nat) : @snode V unit :=
  match i with
  | 0 => mkNode x name (Some (nth 0 (shape (st x)) 0, no_log_prob, true,
           Some (method_of (fun _ _ => Ok false) (arm_estimator veq anc_unwrap o o_exp half lgp (PRaw logits)))))
  | 1 => mkNode y name (Some (nth 0 (shape (st y)) 0, no_log_prob, false, None))
  | _ => mkNode (row_cost 2 F y) "cost" None
  end.
Definition arm_program (name : string) (n : nat) (F : (list nat -> V) -> V) (eps : nat -> ten V) (logits : ten V) (base : nat) : res (ten V) :=
  do x <- arm_sample false name n eps logits;
  do y <- arm_sample true name n eps logits;
  backward_value veq anc_unwrap o o_exp 20 arm_graph (arm_tensors name F logits x y) [2] tt base.


(** DisARM.sample_disarm (storch/method/arm.py:115-129): "torch.cat([z, z_tilde], dim=0) > 0.0". *)
Definition sample_disarm (eps logits : ten V) : res (ten V) :=
  do z <- sample_arm eps logits;
  Ok (arm_post z).
(** A program with DisARM: tensor 0 is the sample, tensor 1 the cost. No weighting function is registered: DisARM.plate_weighting
    (storch/method/arm.py:131-139) is never used. *)
Variable dw : V -> V -> V -> V.
Definition disarm_graph : heap := fold_left (fun h ps => construct ps h) [[]; [0]] empty_heap.
Definition disarm_tensors (name : string) (F : (list nat -> V) -> V) (logits : ten V) (x : stensor V) (i : nat) : @snode V unit :=
  match i with
  | 0 => mkNode x name (Some (nth 0 (shape (st x)) 0, no_log_prob, true,
           Some (method_of (fun _ _ => Ok false) (disarm_estimator veq anc_unwrap o half dw (PRaw logits)))))
  | _ => mkNode (row_cost 1 F x) "cost" None
  end.
Definition disarm_program (name : string) (n : nat) (F : (list nat -> V) -> V) (eps : nat -> ten V) (logits : ten V) (base : nat) : res (ten V) :=
  do (x, _) <- method_sample veq recip name n (fun k => sample_disarm (eps k) logits) None None [ParT true] [] [] 0;
  backward_value veq anc_unwrap o o_exp 20 disarm_graph (disarm_tensors name F logits x) [1] tt base.

End ArmModel.
