(** A program with RELAX (storch/method/relax.py): one-hot categorical variables are sampled, a cost is computed from what post_sample makes
    of the relaxed sample, and backward is called. *)
From Coq Require Import String List Arith Bool ZArith.
From Verif Require Import Base Torch Plates Wrap OrderPlates Scalar Reduce Graph Sampling Surrogate Estimators TensorFns Arm.
Import ListNotations.
Open Scope string_scope.
Open Scope nat_scope.
Open Scope list_scope.

(** The other functions of torch that are used: log, div, comparison (for max), bool(), clamp_probs. *)
Record rops (V : Type) : Type := mkR { r_ln : V -> V; r_div : V -> V -> V; r_lt : V -> V -> bool; r_true : V -> bool; r_clamp : V -> V }.
Arguments mkR {V}. Arguments r_ln {V}. Arguments r_div {V}. Arguments r_lt {V}. Arguments r_true {V}. Arguments r_clamp {V}.

Section RelaxModel.
Context {V : Type}.
Variable veq : V -> V -> bool.
Variable anc_unwrap : plate V -> stensor V -> res (stensor V).
Variable o : sops V.
Variable o_exp : V -> V.
Variable recip : nat -> V.
Variable r : rops V.
Variable tau : V.

(** *** One row: the last dimension *)

(** tensor.max(-1)[1]: the index of the first largest element. *)
Fixpoint argmax_from (s : nat -> V) (at_ : nat) (js : list nat) : nat :=
  match js with [] => at_ | j :: js => if r_lt r (s at_) (s j) then argmax_from s j js else argmax_from s at_ js end.
Definition row_argmax (K : nat) (s : nat -> V) : nat := argmax_from s 0 (seq 1 (K - 1)).
(** "(scores - scores.logsumexp(dim=-1, keepdim=True)).exp()" (storch/storch.py:305, and torch's RelaxedOneHotCategorical) *)
Definition row_softmax (K : nat) (s : nat -> V) (j : nat) : V := o_exp (o_sub o (s j) (r_ln r (osum o (map (fun k => o_exp (s k)) (seq 0 K))))).
(** torch's RelaxedOneHotCategorical.rsample with the uniform noise [u]; [probs] are normalised *)
Definition relaxed_row (K : nat) (probs u : nat -> V) : nat -> V :=
  row_softmax K (fun j => r_div r (o_sub o (r_ln r (r_clamp r (probs j))) (r_ln r (o_opp o (r_ln r (r_clamp r (u j)))))) tau).
(** discretize for a one-hot categorical distribution (storch/method/relax.py:155-163) *)
Definition hard_row (K : nat) (x : nat -> V) (j : nat) : V := if Nat.eqb j (row_argmax K x) then o_one o else o_zero o.
(** conditional_gumbel_rsample for a one-hot categorical distribution (storch/storch.py:280-281, 293-305) *)
Definition cond_row (K : nat) (hard probs v : nat -> V) : nat -> V :=
  let probs j := r_clamp r (probs j) in
  let log_v j := r_ln r (r_clamp r (v j)) in
  let log_v_b := log_v (row_argmax K hard) in
  row_softmax K (fun j => r_div r (if r_true r (hard j) then o_opp o (r_ln r (o_opp o (log_v j)))
    else o_opp o (r_ln r (o_sub o (o_opp o (r_div r (log_v j) (probs j))) log_v_b))) tau).
(** torch's OneHotCategorical.log_prob: the logarithm of the probability of the largest element *)
Definition log_prob_row (K : nat) (probs hard : nat -> V) : V := r_ln r (r_clamp r (probs (row_argmax K hard))).

(** *** Tensors *)
Definition row_at (t : ten V) (i : list nat) : nat -> V := fun j => el t (removelast i ++ [j]).
Definition width (t : ten V) : nat := last (shape t) 0.
(** rsample_gumbel_softmax for a one-hot categorical distribution (storch/util.py:229-251); [u] is the uniform noise. *)
Definition rsample_gumbel_softmax (u probs : ten V) : res (ten V) :=
  do p <- expand (shape u) probs;
  Ok (mkten (shape u) (fun i => relaxed_row (width u) (row_at p i) (row_at u i) (last i 0))).
(** discretize (storch/method/relax.py:155-163) *)
Definition discretize (t : ten V) : ten V := mkten (shape t) (fun i => hard_row (width t) (row_at t i) (last i 0)).
(** conditional_gumbel_rsample (storch/storch.py:269-305); [v] is what torch.rand returned. The Bernoulli case is in Relaxed.v. *)
Definition cond_sample (v : ten V) (args : list (pyval V)) (kwargs : list (string * pyval V)) : res (pyval V) :=
  match args, kwargs with
  | [PRaw hard; PRaw probs], [] =>
      do p <- expand (shape hard) probs;
      Ok (PRaw (mkten (shape hard) (fun i => cond_row (width hard) (row_at hard i) (row_at p i) (row_at v i) (last i 0))))
  | _, _ => Err TypeError
  end.
(** The log_prob of the distribution with probabilities [probs]. *)
Definition log_prob (args : list (pyval V)) (kwargs : list (string * pyval V)) : res (pyval V) :=
  match args, kwargs with
  | [PRaw hard; PRaw probs], [] =>
      do p <- expand (shape hard) probs;
      Ok (PRaw (mkten (removelast (shape hard)) (fun i => log_prob_row (width hard) (row_at p (i ++ [0])) (row_at hard (i ++ [0])))))
  | _, _ => Err TypeError
  end.
(** The control variate c_phi: any function of the components of a sample, for every sample; [d] is the number of plate dimensions.
    Baseline.forward (storch/method/relax.py:40-43) is of this form: the event dimensions are flattened and the network gives one number. *)
Definition per_sample (d : nat) (c : (list nat -> V) -> V) (t : ten V) : res (ten V) :=
  Ok (mkten (firstn d (shape t)) (fun i => c (fun e => el t (firstn d i ++ e)))).

(** RELAX.compute_estimator without rebar (storch/method/relax.py:295-305). The operations of discretize on the storch tensor are one call here,
    as are those of log_prob and those of c_phi. *)
Definition relax_comp (c : (list nat -> V) -> V) (v probs : ten V) (x : @sample V) (cost : stensor V) (base : nat) : res (pyval V * pyval V * pyval V) :=
  let det := handle_deterministic veq anc_unwrap top_ctx in
  do hard <- det (torch_fn1 (fun t => Ok (discretize t))) [PT (sm_t x)] [] [] default_opts (base + 100);
  do cond <- det (cond_sample v) [hard; PRaw probs] [] [] default_opts (base + 102);
  do cz <- det (torch_fn1 (per_sample (s_plate_dims (sm_t x)) c)) [PT (sm_t x)] [] [] default_opts (base + 104);
  do a <- as_tensor cond;
  do ct <- det (torch_fn1 (per_sample (s_plate_dims a) c)) [cond] [] [] default_opts (base + 106);
  do lp <- det log_prob [hard; PRaw probs] [] [] default_opts (base + 108);
  Ok (lp, cz, ct).

(** Method.sample (storch/method/method.py:96-190) with RELAX's sample_gumbel, plate_weighting (None) and post_sample (relax.py:214-260): first
    without post_sample, to have the sample itself, then with it. *)
Definition relax_sample (post : bool) (name : string) (n : nat) (u : nat -> ten V) (probs : ten V) : res (stensor V) :=
  do (x, _) <- method_sample veq recip name n (fun k => rsample_gumbel_softmax (u k) probs) None (if post then Some discretize else None) [ParT true] [] [] 0;
  Ok x.
(** The cost of every sample: any function of the components of the discretised sample. *)
Definition sample_cost (id : nat) (F : (list nat -> V) -> V) (y : stensor V) : stensor V :=
  let d := s_plate_dims y in
  mkS id (mkten (firstn d (shape (st y))) (fun i => F (fun e => el (st y) (firstn d i ++ e)))) (splates y) d [] [sid y] false.
(** Tensor 0 is the relaxed sample, tensor 1 the discretised sample, tensor 2 the cost. *)
Definition relax_tensors (name : string) (n : nat) (eta : V) (F c : (list nat -> V) -> V) (v probs : ten V) (x y : stensor V) (i : nat) : @snode V unit :=
  match i with
  | 0 => mkNode x name (Some (n, no_log_prob, true,
           Some (method_of (fun _ _ => Ok false) (relax_estimator veq anc_unwrap o o_exp (relax_comp c v probs) eta))))
  | 1 => mkNode y name (Some (n, no_log_prob, false, None))
  | _ => mkNode (sample_cost 2 F y) "cost" None
  end.
Definition relax_program (name : string) (n : nat) (eta : V) (F c : (list nat -> V) -> V) (u : nat -> ten V) (v probs : ten V) (base : nat) : res (ten V) :=
  do x <- relax_sample false name n u probs;
  do y <- relax_sample true name n u probs;
  backward_value veq anc_unwrap o o_exp 20 arm_graph (relax_tensors name n eta F c v probs x y) [2] tt base.
End RelaxModel.
