(** C80: the training of RELAX's control variate. *)
From Coq Require Import String List Arith Bool ZArith Lia Reals Lra Permutation.
From Coquelicot Require Import Coquelicot.
From Verif Require Import Base Torch Plates Wrap Scalar Reduce Curves RelaxTraining SpecTensor SpecWrap SpecOrder SpecReduce SpecRelaxTraining
  OrderProofs ReduceProofs2 RelaxTrainingProofs RelaxTrainingSlope Prop_Reduce.
Import ListNotations.
Open Scope string_scope.
Open Scope nat_scope.
Open Scope list_scope.

(** C80. A method with one sample below the costs, whose parameters "probs" got a gradient that requires grad and whose
    objective depends on every control parameter: after backward the gradient of every control parameter is that of the
    weighted mean squared norm of the gradient, summed over the costs below the sample, whatever the order of the set and
    the gradients the control parameters had before. Missing for the full claim: several samples (see
    C80_two_samples_refuted), that the sum has one term per sample and not one per cost (see C80_two_costs_refuted), control
    parameters the objective does not depend on (see C80_unused_refuted), distributions with logits (see
    C80_logits_refuted). *)
Theorem C80_update_partial : forall (V : Type) (veq : V -> V -> bool) anc_unwrap (o : sops V), is_ring o ->
  forall control agrad set_order, (forall l, Permutation l (set_order l)) ->
  forall dict uses nodes mine fresh base (s : rstate) G, length (filter mine nodes) = 1 -> concat uses <> [] -> r_pairs s = [] ->
  (forall a, In a (concat uses) -> objective_gradient veq o control agrad (dict a) (G a)) ->
  exists s', relax_backward veq anc_unwrap o control agrad set_order dict uses nodes mine fresh base s = Ok s' /\ r_pairs s' = [] /\
    r_iterations s' = S (r_iterations s) /\ holds_sum o control (r_cgrad s') (concat uses) G.
Proof. exact (fun V veq anc o H control agrad so Hso => backward_once veq anc o H control agrad so Hso). Qed.
Print Assumptions C80_update_partial.

(** With a number as control parameter, and PyTorch's gradients the derivatives: its gradient after a backward call with
    one cost is the weighted mean of twice the gradient times the derivative of the gradient. *)
Theorem C80_derivative : forall (t0 : R) veq anc_unwrap set_order, (forall l, Permutation l (set_order l)) ->
  forall dict a d nodes mine fresh base (s : rstate), length (filter mine nodes) = 1 -> r_pairs s = [] ->
  dict a "probs" = Some (d, true) -> trainable veq d ->
  (forall s e, in_range s (splates d) -> valid e (s_event_shape d) -> ex_derive (den d s e) t0) ->
  exists s' g, relax_backward veq anc_unwrap (curve_ops t0) [[]] (fun v _ => Some (tscalar (fun _ => Derive v t0))) set_order
                 dict [[a]] nodes mine fresh base s = Ok s' /\ r_cgrad s' 0 = Some g /\
    el g [] t0 = weighted_sum (curve_ops t0) true (splates d) (splates d)
      (fun s => osum (curve_ops t0) (map (fun e (_ : R) => (2 * (den d s e t0 * Derive (den d s e) t0))%R) (indices (s_event_shape d)))) (fun _ => 0) t0.
Proof.
  intros t0 veq anc so Hso dict a d nodes mine fresh base s H1 Hp Hd Ht Hder.
  destruct (backward_once veq anc (curve_ops t0) (curve_ring t0) [[]] (fun v _ => Some (tscalar (fun _ => Derive v t0))) so Hso dict [[a]] nodes mine fresh base s
    (fun _ _ => tscalar (fun _ => Derive (gradient_variance (curve_ops t0) d) t0)) H1 ltac:(discriminate) Hp) as [s' [A1 [_ [_ A2]]]].
  { intros b [<-|[]]. exists d. split; [exact Hd|]. split; [exact Ht|]. intros [|i] Hi; [|simpl in Hi; lia]. split; reflexivity. }
  destruct (A2 0 ltac:(simpl; lia)) as [g [B1 [_ B2]]]. exists s', g. split; [exact A1|]. split; [exact B1|].
  rewrite (B2 [] ltac:(constructor)). etransitivity; [|exact (slope_variance t0 d (tr_wf _ _ Ht) Hder)].
  cbn [concat app map osum fold_right el tscalar curve_ops o_add o_zero]. apply Rplus_0_r.
Qed.
Print Assumptions C80_derivative.

(** A gradient over the plate x (2 samples of weight 3), with the two elements t and s*t + 1. *)
Definition k_x : plate (R -> R) := mkPlate PlainPlate "x" 2 (WTorch (tscalar (fun _ => 3%R))) [].
Definition k_d : stensor (R -> R) := mkS 0 (mkten [2; 2] (fun i => match i with
  | [a; 0] => fun t => t
  | [a; _] => fun t => (INR a * t + 1)%R
  | _ => fun _ => 0%R end)) [k_x] 1 [2] [] false.
Definition k_veq (x y : R -> R) : bool := true.
Lemma k_trainable : trainable k_veq k_d.
Proof.
  assert (A : forall p, ancestry (splates k_d) p -> p = k_x).
  { intros p Hp. apply ancestry_ups in Hp. simpl in Hp. intuition. }
  constructor.
  - constructor; try reflexivity.
    + repeat constructor; simpl; tauto.
    + intros p [<-|[]]. simpl. lia.
  - constructor.
    + split; [|split].
      * repeat constructor; simpl; tauto.
      * intros p Hp. simpl in Hp. destruct Hp as [<-|[]]. constructor.
      * intros p q Hp Hq E. apply A in Hp. apply A in Hq. subst. reflexivity.
    + intros p q Hp Hq _. apply A in Hp. apply A in Hq. now subst.
    + intros p Hp. apply A in Hp. now subst.
    + intros p Hp. apply A in Hp. subst. simpl. lia.
  - intros p Hp. left. destruct Hp as [<-|[]]. intros q [].
  - intros [c [Hne [Hi Hp]]]. destruct c as [|q c]; [congruence|]. destruct (Hp q (or_introl eq_refl)) as [p [_ H]].
    destruct (Hi q (or_introl eq_refl)) as [<-|[]]. destruct H.
  - intros p [<-|[]]. left. reflexivity.
  - discriminate.
Qed.

(** The method has the node 5 below the cost, and no pairs from before. *)
Definition k_dict (a : nat) : @RelaxTraining.gradients (R -> R) := fun k => if String.eqb k "probs" then Some (k_d, true) else None.
Definition k_state : @rstate (R -> R) := mkR 7 [] (fun _ => Some (tscalar (fun _ => 100%R))).
Example C80_witness : length (filter (Nat.eqb 5) [4; 5]) = 1 /\ r_pairs k_state = [] /\ k_dict 5 "probs" = Some (k_d, true) /\
  trainable k_veq k_d /\ (forall t0 s e, in_range s (splates k_d) -> valid e (s_event_shape k_d) -> ex_derive (den k_d s e) t0) /\
  forall t0, weighted_sum (curve_ops t0) true (splates k_d) (splates k_d)
      (fun s => osum (curve_ops t0) (map (fun e (_ : R) => (2 * (den k_d s e t0 * Derive (den k_d s e) t0))%R) (indices (s_event_shape k_d)))) (fun _ => 0) t0
    = (3 * (2 * t0) + 3 * (2 * t0 + 2 * (t0 + 1)))%R.
Proof.
  repeat match goal with |- _ /\ _ => split end; try reflexivity.
  - exact k_trainable.
  - intros t0 s e _ He. inversion He as [|i ? n ? Hi Hr]; subst. inversion Hr; subst.
    unfold den. simpl. destruct i as [|i]; [apply ex_derive_id|].
    apply (ex_derive_plus (V := R_NormedModule) (fun t => (INR (s "x") * t)%R) (fun _ => 1%R)); [|apply ex_derive_const].
    apply (ex_derive_scal (fun t => t)). apply ex_derive_id.
  - intros t0. assert (D0 : forall f : R -> R, (forall t, f t = t) -> Derive f t0 = 1%R).
    { intros f Hf. rewrite (Derive_ext _ _ _ Hf). apply Derive_id. }
    assert (D1 : forall c (f : R -> R), (forall t, f t = c * t + 1)%R -> Derive f t0 = c).
    { intros c f Hf. apply is_derive_unique. apply (is_derive_ext (fun t => c * t + 1)%R); [intros; symmetry; apply Hf|].
      auto_derive; [trivial|ring]. }
    unfold weighted_sum, sum_over. simpl splates. cbn. unfold den, set_to. cbn.
    rewrite !(D0 (fun t => t) ltac:(reflexivity)). rewrite (D1 0%R (fun t => 0 * t + 1)%R ltac:(reflexivity)), (D1 1%R (fun t => 1 * t + 1)%R ltac:(reflexivity)). ring.
Qed.

(** A method with two or more samples below the costs never has a gradient for its control variate: the second update
    clears what the first has computed. *)
Theorem C80_two_samples_refuted : forall (V : Type) (veq : V -> V -> bool) anc_unwrap (o : sops V) control agrad set_order,
  (forall l, Permutation l (set_order l)) ->
  forall dict uses nodes mine fresh base (s s' : rstate), 2 <= length (filter mine nodes) ->
  relax_backward veq anc_unwrap o control agrad set_order dict uses nodes mine fresh base s = Ok s' -> no_gradient control (r_cgrad s').
Proof. exact (fun V veq anc o control agrad so Hso => backward_twice veq anc o control agrad so Hso). Qed.
Print Assumptions C80_two_samples_refuted.

(** Both updates succeed for this method with the samples 5 and 6: its gradients are lost, also the one it had before. *)
Example C80_two_samples_witness : 2 <= length (filter (fun _ => true) [5; 6]) /\
  exists s', relax_backward k_veq (fun _ x => Ok x) (curve_ops 1) [[]] (fun v _ => Some (tscalar (fun _ => Derive v 1))) (fun l => l)
    k_dict [[5; 6]] [5; 6] (fun _ => true) 50 100 k_state = Ok s' /\ r_iterations s' = 9 /\ r_cgrad s' 0 = None.
Proof. split; [simpl; lia|]. eexists. split; [vm_compute; reflexivity|]. split; reflexivity. Qed.

(** A sample below [m] costs is counted [m] times: every cost makes another copy of the sample, which the set keeps. *)
Theorem C80_two_costs_refuted : forall (V : Type) (veq : V -> V -> bool) anc_unwrap (o : sops V), is_ring o ->
  forall control agrad set_order, (forall l, Permutation l (set_order l)) ->
  forall dict a m nodes mine fresh base (s : rstate) G, length (filter mine nodes) = 1 -> r_pairs s = [] ->
  objective_gradient veq o control agrad (dict a) G ->
  exists s', relax_backward veq anc_unwrap o control agrad set_order dict (repeat [a] (S m)) nodes mine fresh base s = Ok s' /\
    forall i, i < length control -> exists g, r_cgrad s' i = Some g /\
      forall e, valid e (nth i control []) -> el g e = osum o (repeat (el (G i) e) (S m)).
Proof.
  intros V veq anc o Hr control agrad so Hso dict a m nodes mine fresh base s G H1 Hp HG.
  assert (Hc : concat (repeat [a] (S m)) = repeat a (S m)).
  { generalize (S m). induction n as [|n IH]; [reflexivity|]. simpl. now rewrite IH. }
  destruct (backward_once veq anc o Hr control agrad so Hso dict (repeat [a] (S m)) nodes mine fresh base s (fun _ => G) H1) as [s' [A1 [_ [_ A2]]]].
  { rewrite Hc. discriminate. } { exact Hp. } { intros b Hb. rewrite Hc in Hb. apply repeat_spec in Hb. now subst. }
  exists s'. split; [exact A1|]. intros i Hi. destruct (A2 i Hi) as [g [B1 [_ B2]]]. exists g. split; [exact B1|]. intros e He. rewrite (B2 e He), Hc.
  f_equal. generalize (S m). induction n as [|n IH]; [reflexivity|]. simpl. now rewrite IH.
Qed.
Print Assumptions C80_two_costs_refuted.
Example C80_two_costs_witness : forall t0, objective_gradient k_veq (curve_ops t0) [[]] (fun v _ => Some (tscalar (fun _ => Derive v t0))) (k_dict 5)
  (fun _ => tscalar (fun _ => Derive (gradient_variance (curve_ops t0) k_d) t0)).
Proof.
  intros t0. exists k_d. split; [reflexivity|]. split; [exact k_trainable|]. intros [|i] Hi; [|simpl in Hi; lia]. split; reflexivity.
Qed.

(** A control parameter the objective does not depend on gets the gradient 1 if it has one element (the temperature, eta),
    and otherwise the update fails. *)
Theorem C80_unused_refuted : forall (V : Type) (veq : V -> V -> bool) anc_unwrap (o : sops V), is_ring o ->
  forall control agrad x d base i, ep_grads x "probs" = Some (d, true) -> trainable veq d ->
  i < length control -> agrad (gradient_variance o d) i = None ->
  (forall j, j < length control -> j <> i -> exists g, agrad (gradient_variance o d) j = Some g) ->
  (fold_right Nat.mul 1 (nth i control []) <> 1 ->
     train_on veq anc_unwrap o control agrad base (fun _ => None) x = Err RuntimeError) /\
  (fold_right Nat.mul 1 (nth i control []) = 1 ->
     exists cg g, train_on veq anc_unwrap o control agrad base (fun _ => None) x = Ok cg /\ cg i = Some g /\ forall e, el g e = o_one o).
Proof.
  intros V veq anc o Hr control agrad x d base i Hx Hd Hi Hu Ho.
  exact (unused_param veq anc o Hr control agrad d base i (nth i control []) (fun _ => None) x Hd Hx Hi Hu eq_refl eq_refl Ho (fun _ => eq_refl)).
Qed.
Print Assumptions C80_unused_refuted.
Example C80_unused_witness : forall t0, let agrad := fun (v : R -> R) i => if i =? 1 then None else Some (tscalar (fun _ : R => Derive v t0)) in
  trainable k_veq k_d /\ 1 < length [[]; [3]] /\ agrad (gradient_variance (curve_ops t0) k_d) 1 = None /\
  (forall j, j < length [[]; [3]] -> j <> 1 -> exists g, agrad (gradient_variance (curve_ops t0) k_d) j = Some g) /\
  fold_right Nat.mul 1 (nth 1 [[]; [3]] []) <> 1.
Proof.
  intros t0 agrad. split; [exact k_trainable|]. split; [simpl; lia|]. split; [reflexivity|]. split; [|discriminate].
  intros [|[|j]] Hj Hn; [eexists; reflexivity|congruence|simpl in Hj; lia].
Qed.

(** A distribution whose gradients are stored under another name than "probs" (one made from logits) makes the first update
    of the method fail, and with it the backward call. *)
Theorem C80_logits_refuted : forall (V : Type) (veq : V -> V -> bool) anc_unwrap (o : sops V) control agrad set_order,
  (forall l, Permutation l (set_order l)) ->
  forall dict uses nodes mine fresh base (s : rstate), filter mine nodes <> [] -> concat uses <> [] -> r_pairs s = [] ->
  (forall a, In a (concat uses) -> dict a "probs" = None) ->
  relax_backward veq anc_unwrap o control agrad set_order dict uses nodes mine fresh base s = Err KeyError.
Proof. exact (fun V veq anc o control agrad so Hso => backward_keyerror veq anc o control agrad so Hso). Qed.
Print Assumptions C80_logits_refuted.
Example C80_logits_witness : exists ds : @RelaxTraining.gradients (R -> R), ds "logits" = Some (k_d, true) /\ ds "probs" = None.
Proof. exists (fun k => if String.eqb k "logits" then Some (k_d, true) else None). split; reflexivity. Qed.

(** Gradients that do not require grad, as after backward without create_graph, train nothing: the call ends normally and
    leaves every control parameter without a gradient. *)
Theorem C80_without_graph : forall (V : Type) (veq : V -> V -> bool) anc_unwrap (o : sops V) control agrad set_order,
  (forall l, Permutation l (set_order l)) ->
  forall dict uses nodes mine fresh base (s : rstate), filter mine nodes <> [] -> r_pairs s = [] ->
  (forall a, In a (concat uses) -> exists d, dict a "probs" = Some (d, false)) ->
  exists s', relax_backward veq anc_unwrap o control agrad set_order dict uses nodes mine fresh base s = Ok s' /\ r_pairs s' = [] /\
    r_iterations s' = length (filter mine nodes) + r_iterations s /\ no_gradient control (r_cgrad s').
Proof. exact (fun V veq anc o control agrad so Hso => backward_no_graph veq anc o control agrad so Hso). Qed.
Print Assumptions C80_without_graph.
Example C80_without_graph_witness : exists ds : @RelaxTraining.gradients (R -> R), ds "probs" = Some (k_d, false) /\ r_pairs k_state = [].
Proof. exists (fun k => if String.eqb k "probs" then Some (k_d, false) else None). split; reflexivity. Qed.
