(** C67: the gradient of a program with ARM. *)
From Coq Require Import String List Arith Bool ZArith Lia Reals Lra.
From Coquelicot Require Import Coquelicot.
From Verif Require Import Base Torch Plates Wrap Scalar Reduce Graph Surrogate Estimators Arm SpecTensor SpecArm Dual ProgramWitness BiasProofs2 ArmProofs ArmMean ArmProofs2.
Import ListNotations.
Open Scope string_scope.
Open Scope nat_scope.
Open Scope list_scope.

(** The program: n pairs of samples of independent binary variables, one for each index of a tensor of shape [ev], with logits [l e t]; the cost
    of a sample with bits b is [f b t]. The parameter t is at [t0]. The noise of pair i and variable e is the quantile of a uniform
    variable [u (i :: e)]. A number is a value and a derivative ([RD]). *)
Definition arm_run veq anc_unwrap (name : string) (n : nat) (ev : list nat) (l : idx -> R -> R) dl (f : (idx -> bool) -> R -> R) df (t0 : R) (u : idx -> R) base : res (ten RD) :=
  arm_program veq anc_unwrap rd_ops rd_exp rd_recip d_half rd_logistic rd_gt0 name n (fun v => (f (bits v) t0, df (bits v)))
    (noise ev u) (mkten ev (fun e => (l e t0, dl e))) base.
Definition expected_cost (ev : list nat) (l : idx -> R -> R) (f : (idx -> bool) -> R -> R) (t : R) : R :=
  bernoulli (fun e => sig (l e t)) (indices ev) (fun b => f b t) (fun _ => false).

(** C67 for all of it: the expected derivative of the loss is the derivative of the expected cost, plus m - 1 times the expected derivative
    of the cost itself, where m is the number of variables; the expected loss is m times the expected cost. Missing for the full claim: the
    superfluous m - 1 (false, below). *)
Theorem C67_gradient_partial : forall veq anc_unwrap name n ev (l : idx -> R -> R) dl (f : (idx -> bool) -> R -> R) df t0 base u0, 1 <= n ->
  (forall e, valid e ev -> derivable_pt_lim (l e) t0 (dl e)) -> (forall b, derivable_pt_lim (f b) t0 (df b)) ->
  (forall b b', (forall e, valid e ev -> b e = b' e) -> forall t, f b t = f b' t) ->
  exists (loss : (idx -> R) -> RD) gradient,
    (forall u, exists t, arm_run veq anc_unwrap name n ev l dl f df t0 u base = Ok t /\ shape t = [] /\ el t [] = loss u) /\
    derivable_pt_lim (expected_cost ev l f) t0 gradient /\
    mean (indices (n :: ev)) (fun u => snd (loss u)) u0 (gradient + (INR (lprod ev) - 1) * expected_cost ev l (fun b _ => df b) t0)%R /\
    mean (indices (n :: ev)) (fun u => fst (loss u)) u0 (INR (lprod ev) * expected_cost ev l f t0)%R.
Proof. intros veq anc name n ev l dl f df t0 base u0 Hn Hl Hf He. exact (arm_gradient name n ev Hn l dl f df t0 Hl Hf He veq anc base u0). Qed.
Print Assumptions C67_gradient_partial.

Lemma bernoulli_zero : forall q l b, bernoulli q l (fun _ => 0%R) b = 0%R.
Proof. intros q l. induction l as [|e l IH]; intros b; cbn [bernoulli]; [reflexivity|]. rewrite !IH. ring. Qed.
Lemma bernoulli_one : forall q l b, bernoulli q l (fun _ => 1%R) b = 1%R.
Proof. intros q l. induction l as [|e l IH]; intros b; cbn [bernoulli]; [reflexivity|]. rewrite !IH. ring. Qed.

(** C67 when there is one variable, or the cost depends on the parameter through the samples only. *)
Theorem C67_unbiased_partial : forall veq anc_unwrap name n ev (l : idx -> R -> R) dl (f : (idx -> bool) -> R -> R) df t0 base u0, 1 <= n ->
  (forall e, valid e ev -> derivable_pt_lim (l e) t0 (dl e)) -> (forall b, derivable_pt_lim (f b) t0 (df b)) ->
  (forall b b', (forall e, valid e ev -> b e = b' e) -> forall t, f b t = f b' t) ->
  lprod ev = 1 \/ (forall b, df b = 0%R) ->
  exists (loss : (idx -> R) -> RD) gradient,
    (forall u, exists t, arm_run veq anc_unwrap name n ev l dl f df t0 u base = Ok t /\ shape t = [] /\ el t [] = loss u) /\
    derivable_pt_lim (expected_cost ev l f) t0 gradient /\
    mean (indices (n :: ev)) (fun u => snd (loss u)) u0 gradient.
Proof.
  intros veq anc name n ev l dl f df t0 base u0 Hn Hl Hf He H.
  destruct (C67_gradient_partial veq anc name n ev l dl f df t0 base u0 Hn Hl Hf He) as [loss [g [H1 [H2 [H3 _]]]]]. exists loss, g. split; [exact H1|]. split; [exact H2|].
  replace g with (g + (INR (lprod ev) - 1) * expected_cost ev l (fun b _ => df b) t0)%R; [exact H3|].
  destruct H as [->|H]; [change (INR 1) with 1%R; ring|]. unfold expected_cost.
  replace (fun b : idx -> bool => df b) with (fun _ : idx -> bool => 0%R) by (apply FunctionalExtensionality.functional_extensionality; auto). rewrite bernoulli_zero. ring.
Qed.
Print Assumptions C67_unbiased_partial.

(** The derivative of the logarithm of the density is the one [rd_logistic] has, for every location and value that depend on the parameter. *)
Theorem C67_density : forall (l z : R -> R) dl dz t0, derivable_pt_lim l t0 dl -> derivable_pt_lim z t0 dz ->
  fst (rd_logistic (l t0, dl) (z t0, dz)) = logistic_lp (l t0) (z t0) /\
  derivable_pt_lim (fun t => logistic_lp (l t) (z t)) t0 (snd (rd_logistic (l t0, dl) (z t0, dz))).
Proof. intros. split; [reflexivity|now apply rd_logistic_right]. Qed.
Print Assumptions C67_density.

(** Three variables with logits t, 2t and 3t; the cost is 1 if exactly the first two are the same. *)
Example C67_witness :
  let l (e : idx) (t : R) := (INR (S (nth 0 e 0%nat)) * t)%R in
  let f (b : idx -> bool) (t : R) := if eqb (b [0]) (b [1]) && negb (eqb (b [0]) (b [2])) then 1%R else 0%R in
  1 <= 4 /\ (forall e, valid e [3] -> derivable_pt_lim (l e) (1/2)%R (INR (S (nth 0 e 0)))) /\
  (forall b, derivable_pt_lim (f b) (1/2)%R 0%R) /\
  (forall b b', (forall e, valid e [3] -> b e = b' e) -> forall t, f b t = f b' t) /\
  f (fun e => negb (nth 0 e 0 =? 2)) 0%R = 1%R /\ f (fun _ => true) 0%R = 0%R.
Proof.
  cbv zeta. split; [lia|]. split; [|split; [|split; [|split; reflexivity]]].
  - intros e _. replace (INR (S (nth 0 e 0))) with (INR (S (nth 0 e 0%nat)) * 1)%R at 1 by ring.
    apply derivable_pt_lim_scal, derivable_pt_lim_id.
  - intros b. destruct (_ && _); apply derivable_pt_lim_const.
  - intros b b' H t. rewrite !H; [reflexivity| | |]; repeat constructor.
Qed.

(** C67 is false in general: with any number of variables other than one, and a cost whose own derivative is not zero on average, the gradient
    is biased, and with an expected cost that is not zero the loss is biased. *)
Theorem C67_direct_refuted : forall veq anc_unwrap name n ev (l : idx -> R -> R) dl (f : (idx -> bool) -> R -> R) df t0 base, 1 <= n ->
  (forall e, valid e ev -> derivable_pt_lim (l e) t0 (dl e)) -> (forall b, derivable_pt_lim (f b) t0 (df b)) ->
  (forall b b', (forall e, valid e ev -> b e = b' e) -> forall t, f b t = f b' t) ->
  lprod ev <> 1 ->
  forall loss : (idx -> R) -> RD, (forall u, exists t, arm_run veq anc_unwrap name n ev l dl f df t0 u base = Ok t /\ el t [] = loss u) ->
  (expected_cost ev l (fun b _ => df b) t0 <> 0%R ->
     forall gradient u0 v, derivable_pt_lim (expected_cost ev l f) t0 gradient -> mean (indices (n :: ev)) (fun u => snd (loss u)) u0 v -> v <> gradient) /\
  (expected_cost ev l f t0 <> 0%R ->
     forall u0 v, mean (indices (n :: ev)) (fun u => fst (loss u)) u0 v -> v <> expected_cost ev l f t0).
Proof.
  intros veq anc name n ev l dl f df t0 base Hn Hl Hf He Hm loss Hloss.
  assert (Hm' : (INR (lprod ev) - 1 <> 0)%R) by (intros E; apply Hm, INR_eq; change (INR 1) with 1%R; lra).
  assert (G : forall u0, exists loss' g, (forall u, loss' u = loss u) /\ derivable_pt_lim (expected_cost ev l f) t0 g /\
    mean (indices (n :: ev)) (fun u => snd (loss' u)) u0 (g + (INR (lprod ev) - 1) * expected_cost ev l (fun b _ => df b) t0)%R /\
    mean (indices (n :: ev)) (fun u => fst (loss' u)) u0 (INR (lprod ev) * expected_cost ev l f t0)%R).
  { intros u0. destruct (C67_gradient_partial veq anc name n ev l dl f df t0 base u0 Hn Hl Hf He) as [loss' [g [H1 [H2 [H3 H4]]]]]. exists loss', g.
    split; [|auto]. intros u. destruct (H1 u) as [t [E1 [_ E2]]], (Hloss u) as [t' [E1' E2']]. rewrite E1 in E1'. injection E1' as <-. congruence. }
  split.
  - intros He0 g u0 v Dg Mv E. destruct (G u0) as [loss' [g' [H1 [H2 [H3 _]]]]]. subst v.
    apply (mean_ext _ _ (fun u => snd (loss u))) in H3; [|intros; now rewrite H1]. pose proof (mean_unique _ _ _ _ _ Mv H3) as E.
    rewrite (uniqueness_limite _ _ _ _ H2 Dg) in E. assert (X : ((INR (lprod ev) - 1) * expected_cost ev l (fun b _ => df b) t0 = 0)%R) by lra.
    apply Rmult_integral in X. tauto.
  - intros He0 u0 v Mv E. destruct (G u0) as [loss' [g' [H1 [_ [_ H4]]]]]. subst v.
    apply (mean_ext _ _ (fun u => fst (loss u))) in H4; [|intros; now rewrite H1]. pose proof (mean_unique _ _ _ _ _ Mv H4) as E.
    assert (X : ((INR (lprod ev) - 1) * expected_cost ev l f t0 = 0)%R) by lra. apply Rmult_integral in X. tauto.
Qed.
Print Assumptions C67_direct_refuted.

(** Such a program: two variables with logit t, and the cost t. *)
Example C67_direct_witness : let l (e : idx) (t : R) := t in let f (b : idx -> bool) (t : R) := t in
  (forall e, valid e [2] -> derivable_pt_lim (l e) 1%R 1%R) /\ (forall b, derivable_pt_lim (f b) 1%R 1%R) /\ lprod [2] <> 1 /\
  expected_cost [2] l (fun _ _ => 1%R) 1%R <> 0%R /\ expected_cost [2] l f 1%R <> 0%R /\
  exists loss : (idx -> R) -> RD, forall u, exists t, arm_run rd_eq rd_anc "z" 1 [2] l (fun _ => 1%R) f (fun _ => 1%R) 1%R u 100 = Ok t /\ el t [] = loss u.
Proof.
  cbv zeta. split; [intros; apply derivable_pt_lim_id|]. split; [intros; apply derivable_pt_lim_id|]. split; [discriminate|].
  split; [unfold expected_cost; rewrite bernoulli_one; lra|]. split; [unfold expected_cost; rewrite bernoulli_one; lra|].
  destruct (C67_gradient_partial rd_eq rd_anc "z" 1 [2] (fun _ t => t) (fun _ => 1%R) (fun _ t => t) (fun _ => 1%R) 1%R 100 (fun _ => 0%R)) as [loss [g [H _]]];
    try (intros; apply derivable_pt_lim_id); auto.
  exists loss. intros u. destruct (H u) as [t [E1 [_ E2]]]. eauto.
Qed.
