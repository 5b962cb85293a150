(** C20, C21, C22: magic_box, the surrogate loss and the value backward returns. *)
From Coq Require Import String List Arith Bool ZArith Lia Permutation Reals FunctionalExtensionality.
From Verif Require Import Base Torch Plates Wrap OrderPlates Scalar Reduce Graph Surrogate SpecTensor SpecWrap SpecOrder SpecReduce SpecGraph
  SpecSurrogate Dual Curves Estimators OrderProofs ReduceProofs2 SurrogateProofs
  SurrogateProofs2 SurrogateProofs3 SurrogateWitness EstimatorProofs EstimatorProofs2.
Import ListNotations.
Open Scope string_scope.
Open Scope nat_scope.
Open Scope list_scope.

(** C20. On any tensor, with any notion of number and detach for which evaluation commutes with arithmetic: magic_box
    evaluates to one, and times exp(detach(l)) it is exp(l). *)
Theorem C20_magic_box : forall (V : Type) (veq : V -> V -> bool) anc_unwrap (o : sops V) (o_exp : V -> V), is_ring o -> evaluates o o_exp ->
  (forall x y, o_exp (o_add o x y) = o_mul o (o_exp x) (o_exp y)) ->
  forall (l : stensor V) base, callable veq [l] ->
  exists r, magic_box veq anc_unwrap o o_exp (PT l) base = Ok (PT r) /\
    splates r = splates l /\ s_event_shape r = s_event_shape l /\ wf r /\
    forall s e, in_range s (splates l) -> valid e (s_event_shape l) ->
      o_det o (den r s e) = o_one o /\ o_mul o (den r s e) (o_exp (o_det o (den l s e))) = o_exp (den l s e).
Proof. exact (fun V veq anc o ex H => @magic_box_props V veq anc o H ex). Qed.
Print Assumptions C20_magic_box.

(** With functions of a real parameter as numbers: value one, the first derivative is that of [l], and as a function of
    the parameter (hence in derivatives of all orders) it is exp(l - l0). *)
Theorem C20_derivatives : forall veq anc_unwrap (t0 : R) (l : stensor (R -> R)) base, callable veq [l] ->
  exists r, magic_box veq anc_unwrap (curve_ops t0) curve_exp (PT l) base = Ok (PT r) /\
    forall s e, in_range s (splates l) -> valid e (s_event_shape l) ->
      den r s e t0 = 1%R /\ (forall t, den r s e t = exp (den l s e t - den l s e t0)) /\
      forall d, derivable_pt_lim (den l s e) t0 d -> derivable_pt_lim (den r s e) t0 d.
Proof. exact magic_box_curves. Qed.
Print Assumptions C20_derivatives.

(** The sample x of the witness program (two plates' worth of numbers would do as well). *)
Example C20_witness : is_ring w_ops /\ evaluates w_ops w_exp /\ (forall x y, w_exp (o_add w_ops x y) = o_mul w_ops (w_exp x) (w_exp y)) /\
  callable w_eq [t_c] /\
  match magic_box w_eq w_anc w_ops w_exp (PT t_c) 50 with
  | Ok (PT r) => (shape (st r), el (st r) [1; 2]) = ([2; 3], (1, 1)%Z) /\ el (st t_c) [1; 2] = (22, 1)%Z
  | _ => False
  end.
Proof.
  split; [exact w_ring|]. split; [exact w_evaluates|]. split; [exact w_exp_add|]. split; [|vm_compute; auto].
  apply (over_callable w_eq w_plates w_sound); [constructor; [apply w_over_c|constructor]|intros t [<-|[]]; apply w_over_c].
Qed.
Example C20_witness_curves : exists veq, callable veq [mkS 0 (mkten [2] (fun i (t : R) => (INR (ix 0 i) * t)%R)) [mkPlate PlainPlate "x" 2 (WTorch (tscalar (fun _ => 1%R))) []] 1 [] [] false].
Proof.
  exists (fun _ _ => true). split; [|split].
  - constructor; [|constructor]. constructor; try reflexivity; simpl; [repeat constructor; simpl; tauto|intros p [<-|[]]; simpl; lia].
  - intros p q [<-|[]] [<-|[]] _. repeat split.
  - intros p [<-|[]]. reflexivity.
Qed.

(** C22. *)
Theorem C22_surrogate_loss : forall (V S : Type) (veq : V -> V -> bool) anc_unwrap (o : sops V) (o_exp : V -> V), is_ring o ->
  forall (nodes : nat -> @snode V S) h univ costs FP anc score sg base,
  closed_under (h_parents h) univ -> incl costs univ -> costs <> [] ->
  (forall c, In c costs -> score_setup veq anc_unwrap o o_exp nodes h c (FP c) (anc c) (fun _ => None) score) ->
  exists enough, forall fuel, enough <= fuel ->
  exists r, surrogate_loss veq anc_unwrap o o_exp fuel h nodes costs sg base = Ok (PT r, sg) /\ splates r = [] /\ shape (st r) = [] /\
    el (st r) [] = osum o (map (fun c => weighted_sum o false (FP c) (FP c) (fun s =>
      o_mul o (box o o_exp (osum o (map (fun a => score a s) (anc c)))) (den (nd_t (nodes c)) s [])) (fun _ => 0)) costs).
Proof. exact (fun V S veq anc o ex H => @score_loss V S veq anc o H ex). Qed.
Print Assumptions C22_surrogate_loss.

(** Without costs, backward raises RuntimeError. *)
Theorem C22_no_costs : forall (V S : Type) (veq : V -> V -> bool) anc_unwrap (o : sops V) (o_exp : V -> V) fuel h (nodes : nat -> @snode V S) sg base,
  backward_value veq anc_unwrap o o_exp fuel h nodes [] sg base = Err RuntimeError.
Proof. reflexivity. Qed.
Print Assumptions C22_no_costs.

Example C22_witness : is_ring w_ops /\ closed_under (h_parents w_heap) [0; 1; 2] /\
  score_setup w_eq w_anc w_ops w_exp (w_nodes None) w_heap 2 w_plates [0; 1] (fun _ => None) w_score /\
  match surrogate_loss w_eq w_anc w_ops w_exp 20 w_heap (w_nodes None) [2] tt 100 with
  | Ok (PT r, _) => (shape (st r), el (st r) []) = ([], (1362, 9342)%Z)
  | _ => False
  end.
Proof.
  split; [exact w_ring|]. split; [apply w_closed|]. split; [|vm_compute; reflexivity].
  replace (fun _ : nat => @None (@baseline D unit)) with (fun a : nat => match a with 1 => @None (@baseline D unit) | _ => None end); [exact (w_setup None)|].
  apply functional_extensionality. intros [|[|]]; reflexivity.
Qed.

(** C21. For any estimators that deliver numbers over plates and whose control variates evaluate to zero, in particular the
    score function with any well-behaved baseline. Missing for the full claim: estimators whose control variates do not
    evaluate to zero (C21_disarm_refuted) and gradient terms that are not numbers over plates (C21_arm_refuted). *)
Theorem C21_value_partial : forall (V S : Type) (veq : V -> V -> bool) anc_unwrap (o : sops V) (o_exp : V -> V), is_ring o -> evaluates o o_exp ->
  forall fuel h nodes base (ks : list (@costing V S)) sg, ks <> [] -> Forall (costing_ok veq o nodes fuel h) ks ->
  (forall k, In k ks -> closed (cg_plates k)) ->
  (forall k p sg t sg', In k ks -> cg_est k p sg t sg' -> inert o (cg_plates k) t) ->
  (forall k p, In k ks -> In p (cg_plates k) -> In p (splates (nd_t (nodes (cg_id k)))) \/ normalised o false (cg_plates k) p) ->
  exists r sg', surrogate_loss veq anc_unwrap o o_exp fuel h nodes (map cg_id ks) sg base = Ok (PT r, sg') /\ splates r = [] /\ shape (st r) = [] /\
    o_det o (el (st r) []) = o_det o (osum o (map (fun k => let c := nd_t (nodes (cg_id k)) in
      weighted_sum o false (splates c) (splates c) (fun s => den c s []) (fun _ => 0)) ks)).
Proof. exact (fun V S veq anc o ex H He => @loss_value V S veq anc o H ex He). Qed.
Print Assumptions C21_value_partial.

Theorem C21_score_function : forall (V S : Type) (veq : V -> V -> bool) anc_unwrap (o : sops V) (o_exp : V -> V), is_ring o -> evaluates o o_exp ->
  forall (nodes : nat -> @snode V S) h univ costs FP anc bl score sg base,
  closed_under (h_parents h) univ -> incl costs univ -> costs <> [] ->
  (forall c, In c costs -> score_setup veq anc_unwrap o o_exp nodes h c (FP c) (anc c) bl score /\ closed (FP c)) ->
  (forall c a f, In c costs -> In a (anc c) -> bl a = Some f -> baseline_gives o (FP c) nodes c a f (fun _ _ _ _ => True)) ->
  (forall c p, In c costs -> In p (FP c) -> In p (splates (nd_t (nodes c))) \/ normalised o false (FP c) p) ->
  exists enough, forall fuel, enough <= fuel ->
  exists t, backward_value veq anc_unwrap o o_exp fuel h nodes costs sg base = Ok t /\ shape t = [] /\
    o_det o (el t []) = o_det o (osum o (map (fun c => let t := nd_t (nodes c) in
      weighted_sum o false (splates t) (splates t) (fun s => den t s []) (fun _ => 0)) costs)).
Proof. exact (fun V S veq anc o ex H He => @score_backward V S veq anc o H ex He). Qed.
Print Assumptions C21_score_function.

Example C21_witness : is_ring w_ops /\ evaluates w_ops w_exp /\ closed_under (h_parents w_heap) [0; 1; 2] /\
  score_setup w_eq w_anc w_ops w_exp (w_nodes (Some w_base)) w_heap 2 w_plates [0; 1] (fun a => match a with 1 => Some w_base | _ => None end) w_score /\
  closed w_plates /\ baseline_gives w_ops w_plates (w_nodes (Some w_base)) 2 1 w_base (fun _ _ _ _ => True) /\
  match backward_value w_eq w_anc w_ops w_exp 20 w_heap (w_nodes (Some w_base)) [2] tt 100 with
  | Ok t => fst (el t []) = 1362%Z
  | _ => False
  end /\ fst (weighted_sum w_ops false (splates t_c) (splates t_c) (fun s => den t_c s []) (fun _ => 0)) = 1362%Z.
Proof.
  split; [exact w_ring|]. split; [exact w_evaluates|]. split; [apply w_closed|]. split; [exact (w_setup (Some w_base))|].
  split; [apply w_closed|]. split; [exact w_baseline|]. split; vm_compute; reflexivity.
Qed.

(** RELAX and REBAR, whatever their network and conditional samples compute, have control variates of the kind asked for
    in C21_value_partial. *)
Theorem C21_relax : forall (V S : Type) (veq : V -> V -> bool) anc_unwrap (o : sops V) (o_exp : V -> V), is_ring o -> evaluates o o_exp ->
  forall FP (nodes : nat -> @snode V S) c a n lp m comp eta ev f pz fz pt ft, sound veq FP -> over FP (nd_t (nodes a)) ->
  nd_sto (nodes a) = Some (n, lp, true, Some m) ->
  me_estimator m = me_estimator (method_of (fun _ _ => Ok false) (relax_estimator veq anc_unwrap o o_exp comp eta)) ->
  (exists p, In p (splates (nd_t (nodes a))) /\ pname p = nd_name (nodes a)) -> ev <> [] ->
  (forall x rc base, relabelled (nd_t (nodes a)) (sm_t x) -> averaged o FP (nd_t (nodes c)) (nd_t (nodes a)) rc ->
     exists t cz ct, comp x rc base = Ok (PT t, cz, ct) /\ wf t /\ Permutation (splates t) (splates (nd_t (nodes a))) /\ s_event_shape t = ev /\
       (forall s e, in_range s (splates t) -> valid e ev -> den t s e = f s e) /\ stands cz pz fz /\ stands ct pt ft) ->
  incl pz FP -> closed pz -> NoDup (map pname pz) -> incl pt FP -> closed pt -> NoDup (map pname pt) ->
  estimates o FP nodes c a (fun sg tm sg' => sg' = sg /\ inert o FP tm /\
    t_g tm = Some (splates (nd_t (nodes a)), fun s => osum o (map (f s) (indices ev)))).
Proof. exact (fun V S veq anc o ex H He => @relax_estimates V S veq anc o H ex He). Qed.
Print Assumptions C21_relax.

(** x of the witness program with RELAX: the conditional control variate is the cost, the other one 5. *)
Definition rx_comp (x : @sample D) (c : stensor D) (base : nat) : res (pyval D * pyval D * pyval D) :=
  do l <- torch_op2 w_eq w_anc top_ctx (o_mul w_ops) (PT (sm_t x)) (PT w_prm) base;
  Ok (l, PRaw (tscalar (5, 3)%Z), PT c).
Definition rx_nodes (i : nat) : @snode D unit :=
  match i with
  | 0 => mkNode t_x "x" (Some (2, w_lp w_prm, true, Some (method_of (fun _ _ => Ok false) (relax_estimator w_eq w_anc w_ops w_exp rx_comp (2, 1)%Z))))
  | _ => mkNode t_c "cost" None
  end.
Example C21_relax_witness :
  estimates w_ops w_plates rx_nodes 1 0 (fun sg tm sg' => sg' = sg /\ inert w_ops w_plates tm /\
    t_g tm = Some ([w_x], fun s => osum w_ops (map (fun e => o_mul w_ops (den t_x s e) (den w_prm s e)) (indices [2])))) /\
  match surrogate_loss w_eq w_anc w_ops w_exp 20 (fold_left (fun h ps => construct ps h) [[]; [0]] empty_heap) rx_nodes [1] tt 100 with
  | Ok (PT r, _) => fst (el (st r) []) = 1362%Z
  | _ => False
  end.
Proof.
  split; [|vm_compute; reflexivity].
  apply (C21_relax D unit w_eq w_anc w_ops w_exp w_ring w_evaluates w_plates rx_nodes 1 0 2 (w_lp w_prm)
    (method_of (fun _ _ => Ok false) (relax_estimator w_eq w_anc w_ops w_exp rx_comp (2, 1)%Z)) rx_comp (2, 1)%Z [2]
    (fun s e => o_mul w_ops (den t_x s e) (den w_prm s e)) [] (fun _ => (5, 3)%Z) (kept t_c [w_x])
    (fun s => weighted_sum w_ops true w_plates (foreign t_c [w_x]) (fun s' => den t_c s' []) s));
    [exact w_sound|exact w_over_x|reflexivity|reflexivity|exists w_x; split; [now left|reflexivity]|discriminate| |..].
  - intros x rc base Hx Hrc. unfold rx_comp.
    destruct (elementwise_log_prob w_eq w_anc w_plates t_x w_prm (o_mul w_ops) w_sound w_over_x w_over_p) with (b := sm_t x) (base := base)
      as [t [E1 [E2 [E3 [E4 E5]]]]]; [intros q []|reflexivity|exact Hx|].
    rewrite E1. exists t, (PRaw (tscalar (5, 3)%Z)), (PT rc). split; [reflexivity|]. split; [exact E2|]. split; [exact E3|]. split; [exact E4|].
    split; [|split; [split; [reflexivity|split; reflexivity]|exact Hrc]].
    intros s e Hs He. apply E5; auto. exact (in_range_perm s _ _ E3 Hs).
  - intros p [].
  - intros p q [].
  - constructor.
  - intros p Hp. apply filter_In in Hp. apply Hp.
  - intros p q Hp Hq. cbv in Hp. destruct Hp as [<-|[]]. destruct Hq.
  - cbv. repeat constructor; simpl; tauto.
Qed.

(** The claim is false of ARM: with a variable of two components the value is twice the weighted total. One pair of
    samples, any samples, logits and costs. *)
Theorem C21_arm_refuted : forall (V : Type) (veq : V -> V -> bool) anc (o : sops V) (o_exp : V -> V), is_ring o -> evaluates o o_exp ->
  forall half lgp cost z b logit,
  exists t, backward_value veq anc o o_exp 20 arm_heap (arm_nodes veq anc o o_exp half lgp cost z b logit) [2] tt 100 = Ok t /\
  o_det o (weighted_sum o false [a_plate (arm_weight o)] [a_plate (arm_weight o)] (fun s => den (a_cost cost (arm_weight o) 1) s []) (fun _ => 0)) = o_det o (cost 0) /\
  o_det o (el t []) = o_add o (o_det o (cost 0)) (o_det o (cost 0)).
Proof. exact (fun V veq anc o ex H He => @arm_value V veq anc o ex H He). Qed.
Print Assumptions C21_arm_refuted.

(** The claim is false of DisARM: half of the cost of the antithetic sample is added to the average cost. *)
Theorem C21_disarm_refuted : forall (V : Type) (veq : V -> V -> bool) anc (o : sops V) (o_exp : V -> V), is_ring o -> evaluates o o_exp ->
  forall half dw cost b logit,
  exists t, backward_value veq anc o o_exp 20 dis_heap (dis_nodes veq anc o half dw cost b logit) [1] tt 100 = Ok t /\
  o_det o (weighted_sum o false [a_plate (dis_weight half)] [a_plate (dis_weight half)] (fun s => den (a_cost cost (dis_weight half) 0) s []) (fun _ => 0)) =
    o_mul o (o_det o half) (o_add o (o_det o (cost 0)) (o_det o (cost 1))) /\
  o_det o (el t []) = o_add o (o_mul o (o_det o half) (o_add o (o_det o (cost 0)) (o_det o (cost 1)))) (o_mul o (o_det o half) (o_det o (cost 1))).
Proof. exact (fun V veq anc o ex H He => @disarm_value V veq anc o ex H He). Qed.
Print Assumptions C21_disarm_refuted.
