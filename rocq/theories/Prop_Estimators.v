(** C45: what the estimators of the exported methods return. *)
From Coq Require Import String List Arith Bool ZArith Lia Permutation.
From Verif Require Import Base Torch Plates Wrap OrderPlates Scalar Reduce Graph Surrogate Estimators SpecTensor SpecWrap SpecOrder SpecReduce SpecGraph
  SpecSurrogate Dual OrderProofs ReduceProofs2 SurrogateProofs SurrogateProofs2 SurrogateProofs3 SurrogateWitness EstimatorProofs EstimatorProofs3.
Import ListNotations.
Open Scope string_scope.
Open Scope nat_scope.
Open Scope list_scope.

(** C45, for the score function with and without a baseline: called on any sample with a log-probability and any cost,
    it returns a gradient term and, exactly when there is a baseline, a control variate. Missing for the full claim: it is
    false of LAX and of the unordered set estimator without its baseline (below). *)
Theorem C45_score_function_partial : forall (V S : Type) (veq : V -> V -> bool) anc_unwrap (o : sops V) (o_exp : V -> V), is_ring o ->
  forall FP (a : stensor V) (bl : option (@baseline V S)) n lp ev f name rc cname sg base,
  sound veq FP -> over FP a -> has_log_prob a lp ev f ->
  (forall g key, bl = Some g -> exists b bp bf sg', g (mkSample a name n lp) rc key sg base = Ok (b, sg') /\ stands b bp bf /\ incl bp FP) ->
  exists g cv sg', score_estimator veq anc_unwrap o o_exp bl (mkSample a name n lp) rc cname sg base = Ok (Some g, cv, sg') /\
    (bl = None <-> cv = None).
Proof. exact (fun V S veq anc o ex H => @score_returns V S veq anc o H ex). Qed.
Print Assumptions C45_score_function_partial.

Example C45_witness : sound w_eq w_plates /\ over w_plates t_y /\
  has_log_prob t_y (w_lp w_prm') [] (fun s e => o_mul w_ops (den t_y s e) (den w_prm' s e)) /\
  match score_estimator w_eq w_anc w_ops w_exp (Some w_base) (mkSample t_y "y" 3 (w_lp w_prm')) t_c "cost" tt 100 with
  | Ok (Some (PT g), Some (PT cv), _) => (shape (st g), shape (st cv), el (st g) [2; 1], el (st cv) [2; 1]) = ([3; 2], [3; 2], (35, 5)%Z, (0, -45)%Z)
  | _ => False
  end.
Proof.
  split; [exact w_sound|]. split; [exact w_over_y|]. split; [|vm_compute; reflexivity].
  apply (elementwise_log_prob w_eq w_anc w_plates t_y w_prm' (o_mul w_ops) w_sound w_over_y w_over_p'); [intros q []|reflexivity].
Qed.

(** Expect, like every method that does not override it, returns the pair (None, None). *)
Theorem C45_base : forall (V S : Type) (x : @sample V) c nm (sg : S) base,
  base_estimator x c nm sg base = Ok (PTuple [PNone; PNone], sg).
Proof. exact (fun V S x c nm sg base => eq_refl). Qed.
Print Assumptions C45_base.

(** LAX never returns. *)
Theorem C45_lax_refuted : forall (V S : Type) veq anc_unwrap (o : sops V) c_phi x c nm (sg : S) base r,
  lax_estimator veq anc_unwrap o c_phi x c nm sg base <> Ok r.
Proof. exact (fun V S => @lax_never V S). Qed.
Print Assumptions C45_lax_refuted.

(** Without baseline, the unordered set estimator returns a tensor or raises, and unpacking the result as a pair raises. *)
Theorem C45_unordered_refuted : forall (V S : Type) veq anc_unwrap (o : sops V) o_exp log_probs log_snd name x c nm (sg : S) base,
  (forall v sg', unordered_estimator veq anc_unwrap o o_exp log_probs log_snd name false x c nm sg base = Ok (v, sg') ->
    forall g cv, v <> PTuple [g; cv]) /\
  forall r, me_estimator (method_of (fun _ _ => Ok false) (unordered_estimator veq anc_unwrap o o_exp log_probs log_snd name false)) x c nm sg base <> Ok r.
Proof. exact (fun V S => @unordered_not_pair V S). Qed.
Print Assumptions C45_unordered_refuted.

(** It does return a tensor: no other error is in the way. *)
Example C45_unordered_witness :
  match unordered_estimator w_eq w_anc w_ops w_exp (fun _ => t_y) (fun _ => t_y) "y" false (mkSample t_y "y" 3 (w_lp w_prm')) t_c "cost" tt 100 with
  | Ok (PT r, _) => shape (st r) = [3; 2]
  | _ => False
  end /\
  me_estimator (method_of (fun _ _ => Ok false) (unordered_estimator w_eq w_anc w_ops w_exp (fun _ => t_y) (fun _ => t_y) "y" false))
    (mkSample t_y "y" 3 (w_lp w_prm')) t_c "cost" tt 100 = Err NotImplementedError /\
  lax_estimator w_eq w_anc w_ops (fun x _ => Ok (PRaw (tscalar (1, 1)%Z))) (mkSample t_x "x" 2 (w_lp w_prm)) t_c "cost" tt 100 = Err NameError.
Proof. vm_compute. auto. Qed.
