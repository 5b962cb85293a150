(** C45 and C21 for the unordered set estimator with its baseline. *)
From Coq Require Import String List Arith Bool ZArith Lia Permutation.
From Verif Require Import Base Torch Plates Wrap OrderPlates Scalar Reduce Graph Surrogate Estimators SpecTensor SpecWrap SpecOrder SpecReduce SpecGraph
  SpecSurrogate SpecScoreWor Dual OrderProofs ReduceProofs2 SurrogateProofs SurrogateProofs2 SurrogateProofs3 SurrogateWitness EstimatorProofs UnorderedProofs2.
Import ListNotations.
Open Scope string_scope.
Open Scope nat_scope.
Open Scope list_scope.

(** C45: on a cost that has its plate, with the log-probabilities and second order ratios the sampling method stores on the
    plate, the estimator returns the pair of the log-probabilities and (1 - magic_box(log p)) times the detached baseline
    sum_s' exp(log p(s') + ratio(s', s)) cost(s'), for every number of samples, plates around it and values. *)
Theorem C45_unordered : forall (V S : Type) (veq : V -> V -> bool) anc_unwrap (o : sops V) (o_exp : V -> V)
  P pl0 (lp snd_ : stensor V), 1 < pn P -> wf lp -> splates lp = pl0 ++ [P] -> s_event_shape lp = [] ->
  wf snd_ -> splates snd_ = pl0 ++ [P] -> s_event_shape snd_ = [pn P] ->
  forall FP, sound veq FP -> incl (pl0 ++ [P]) FP -> forall log_probs log_snd, log_probs P = lp -> log_snd P = snd_ ->
  forall x (rc : stensor V) ql C nm (sg : S) base, stands (PT rc) ql C -> incl ql FP -> In P ql ->
  exists cv cp,
    me_estimator (method_of (fun _ _ => Ok false) (unordered_estimator veq anc_unwrap o o_exp log_probs log_snd (pname P) true)) x rc nm sg base
      = Ok (Some (PT lp), Some (PT cv), sg) /\
    stands (PT cv) cp (fun s => o_mul o (o_sub o (o_one o) (box o o_exp (den lp s []))) (o_det o
      (osum o (map (fun i => let si := set_to s (pname P) i in
        o_mul o (o_exp (o_add o (den lp si []) (den snd_ si [s (pname P)]))) (C si)) (seq 0 (pn P)))))) /\
    incl cp FP /\ NoDup (map pname cp) /\ (forall y, In y (map pname cp) <-> In y (map pname (pl0 ++ [P])) \/ In y (map pname ql)).
Proof.
  intros V S veq anc o ex P pl0 lp snd_ H1 H2 H3 H4 H5 H6 H7 FP HS HI lps lsn E1 E2 x rc ql C nm sg base K1 K2 K3.
  destruct (unordered_spec veq anc o ex P pl0 lp snd_ H1 H2 H3 H4 H5 H6 H7 FP HS HI lps lsn E1 E2 x rc ql C nm sg base K1 K2 K3)
    as [cv [cp [A1 [A2 [A3 [A4 [A5 A6]]]]]]].
  exists cv, cp. split; [|auto]. cbn [me_estimator method_of]. rewrite A1. reflexivity.
Qed.
Print Assumptions C45_unordered.

(** C21: its control variate evaluates to zero, as asked for in C21_value_partial. *)
Theorem C21_unordered : forall (V S : Type) (veq : V -> V -> bool) anc_unwrap (o : sops V) (o_exp : V -> V)
  P pl0 (lp snd_ : stensor V), 1 < pn P -> wf lp -> splates lp = pl0 ++ [P] -> s_event_shape lp = [] ->
  wf snd_ -> splates snd_ = pl0 ++ [P] -> s_event_shape snd_ = [pn P] ->
  forall FP, sound veq FP -> incl (pl0 ++ [P]) FP -> forall log_probs log_snd, log_probs P = lp -> log_snd P = snd_ ->
  is_ring o -> evaluates o o_exp ->
  forall (nodes : nat -> @snode V S) c a n slp m,
  nd_sto (nodes a) = Some (n, slp, true, Some m) ->
  me_estimator m = me_estimator (method_of (fun _ _ => Ok false) (unordered_estimator veq anc_unwrap o o_exp log_probs log_snd (pname P) true)) ->
  closed (pl0 ++ [P]) -> incl (splates (nd_t (nodes c))) FP -> In P (kept (nd_t (nodes c)) (splates (nd_t (nodes a)))) ->
  closed (kept (nd_t (nodes c)) (splates (nd_t (nodes a)))) ->
  estimates o FP nodes c a (fun sg tm sg' => sg' = sg /\ inert o FP tm /\ t_g tm = Some (pl0 ++ [P], fun s => den lp s [])).
Proof. intros. eapply unordered_estimates; eauto. Qed.
Print Assumptions C21_unordered.

(** y of the witness program with the unordered set estimator. *)
Definition uo_lp : stensor D := mkS 20 (mkten [2; 3] (fun i => (nn (ix 0 i + ix 1 i), nn (1 + ix 1 i))%Z)) [w_x; w_y] 2 [] [] false.
Definition uo_snd : stensor D := mkS 21 (mkten [2; 3; 3] (fun i => (nn (ix 1 i * ix 2 i), 1)%Z)) [w_x; w_y] 2 [3] [] false.
Definition uo_est : @pyest D unit := unordered_estimator w_eq w_anc w_ops w_exp (fun _ => uo_lp) (fun _ => uo_snd) "y" true.
Definition uo_nodes (i : nat) : @snode D unit :=
  match i with
  | 0 => mkNode t_y "y" (Some (3, w_lp w_prm', true, Some (method_of (fun _ _ => Ok false) uo_est)))
  | _ => mkNode t_c "cost" None
  end.
Example C21_unordered_witness :
  estimates w_ops w_plates uo_nodes 1 0 (fun sg tm sg' => sg' = sg /\ inert w_ops w_plates tm /\ t_g tm = Some ([w_x; w_y], fun s => den uo_lp s [])) /\
  match uo_est (mkSample t_y "y" 3 (w_lp w_prm')) t_c "cost" tt 100 with
  | Ok (PTuple [PT g; PT cv], _) => (shape (st g), shape (st cv), el (st cv) [1; 2]) = ([2; 3], [2; 3], (0, -108)%Z)
  | _ => False
  end /\
  match surrogate_loss w_eq w_anc w_ops w_exp 20 (fold_left (fun h ps => construct ps h) [[]; [0]] empty_heap) uo_nodes [1] tt 100 with
  | Ok (PT r, _) => fst (el (st r) []) = 1362%Z
  | _ => False
  end.
Proof.
  split; [|split; vm_compute; reflexivity].
  apply (C21_unordered D unit w_eq w_anc w_ops w_exp w_y [w_x] uo_lp uo_snd) with (log_probs := fun _ => uo_lp) (log_snd := fun _ => uo_snd)
    (n := 3) (slp := w_lp w_prm') (m := method_of (fun _ _ => Ok false) uo_est); try reflexivity.
  - simpl. lia.
  - wf_conc.
  - wf_conc.
  - exact w_sound.
  - intros p Hp. exact Hp.
  - exact w_ring.
  - exact w_evaluates.
  - apply w_closed.
  - intros p Hp. exact Hp.
  - cbv. auto.
  - apply w_closed.
Qed.
