(** C77: the gradient of programs with Reparameterization, GumbelSoftmax and Infer. *)
From Coq Require Import String List Arith Bool ZArith Lia Reals Lra.
From Coquelicot Require Import Coquelicot.
From Verif Require Import Base Torch Plates Wrap Scalar Reduce Graph Surrogate Estimators Arm Relax Reparam SpecTensor SpecArm SpecExpect SpecRelax SpecReparam Dual ProgramWitness BiasProofs2
  ListLemmas IndexLemmas ArmProofs ArmMean ArmProofs2 Expect Expect2 RelaxRows RelaxUnbiased RelaxDual ReparamLoss ReparamDual Prop_RelaxGrad.
Import ListNotations.
Open Scope string_scope.
Open Scope nat_scope.
Open Scope list_scope.

(** n samples of shape [ev] are drawn; the component [e] of a sample is [g t w e] where [w] is the uniform noise of the sample (of shape [ns]), and t the
    parameter; [dg] is its derivative at [t0]. The cost of a sample z is [f z t], with the partial derivatives [df] and [dft] at [t0]. A number is a
    value and a derivative ([RD]). *)
Definition reparam_run veq anc_unwrap (name : string) (n : nat) (ev : list nat) (g : R -> (idx -> R) -> idx -> R) dg (f : (idx -> R) -> R -> R) df dft (t0 : R) (check : bool) lp
  (u : idx -> R) base : res (ten RD) :=
  pathwise_program veq anc_unwrap rd_ops rd_exp rd_recip name n (reparam_method check) lp (cost_dual (indices ev) f df dft t0)
    (reparam_rsample ev (sample_dual g dg t0) (fun i => (u i, 0%R))) base.

(** C77 for Reparameterization: the expectation of the derivative of the loss is the derivative of the expected cost [J], and the expectation of the loss
    is the expected cost. Missing for the full claim: noise for which the derivatives are not bounded, Infer and checked paths (false, below). *)
Theorem C77_reparam_partial : forall veq anc_unwrap name n ev ns (g : R -> (idx -> R) -> idx -> R) dg (f : (idx -> R) -> R -> R) df dft t0 rho (X : (idx -> R) -> Prop) (J : R -> R) lp base,
  1 <= n -> (0 < rho)%R ->
  (forall t w, (Rabs (t - t0) < rho)%R -> open_cube (indices ns) w -> X (g t w)) ->
  (forall e, valid e ev -> differentiable (open_cube (indices ns)) (fun t w => g t w e) (fun w => dg w e) t0) ->
  smooth_on X (indices ev) f df dft t0 ->
  (forall z z', (forall e, valid e ev -> z e = z' e) -> f z t0 = f z' t0 /\ (forall e, valid e ev -> df e z = df e z') /\ dft z = dft z') ->
  (forall t, (Rabs (t - t0) < rho)%R -> expect (indices ns) (fun w => f (g t w) t) (J t)) ->
  exists (loss : (idx -> R) -> RD) gradient,
    (forall u, exists t, reparam_run veq anc_unwrap name n ev g dg f df dft t0 false lp u base = Ok t /\ shape t = [] /\ el t [] = loss u) /\
    derivable_pt_lim J t0 gradient /\ expect (indices (n :: ns)) (fun u => snd (loss u)) gradient /\ expect (indices (n :: ns)) (fun u => fst (loss u)) (J t0).
Proof.
  intros veq anc name n ev ns g dg f df dft t0 rho X J lp base Hn Hrho HX Hg Hf Hfe HJ.
  exact (reparam_gradient n ev ns Hn g dg f df dft t0 rho X J Hrho HX Hg Hf Hfe HJ veq anc name lp base).
Qed.
Print Assumptions C77_reparam_partial.

Lemma half : forall (k : R) (F : (idx -> R) -> R), (forall w, F w = Rmult k (w [])) -> expect (indices []) F (k / 2)%R.
Proof.
  intros k F E. apply (expect_ext (indices []) (fun w => Rmult k (w []))); [intros; symmetry; apply E|].
  apply (expect_cont [[]] (fun w => Rmult k (w [])) (fun _ => 0%R)).
  - apply (cont_mult [[]] (fun _ => k) (fun w => w [])); [apply cont_const|apply cont_coord; now left].
  - exists (fun x => Rmult k x). split; [intros x _; reflexivity|]. evar_last.
    + apply (is_RInt_derive (fun x => (k / 2 * x * x)%R) (fun x => (k * x)%R)).
      * intros x _. auto_derive; [exact I|]. change (@eq R (k / 2 * 1 * x + k / 2 * x * 1) (k * x))%R. field.
      * intros x _. apply (continuous_mult (fun _ => k) (fun x => x)); [apply continuous_const|apply continuous_id].
    + unfold minus, plus, opp; simpl. field.
Qed.
(** The variable is uniform on (0, t), and the cost of x is t * x; the expected cost is t * t / 2. *)
Example C77_witness :
  let g (t : R) (w : idx -> R) (e : idx) := Rmult t (w []) in
  let X (z : idx -> R) := (0 <= z [] <= 2)%R in
  let f (z : idx -> R) (t : R) := Rmult t (z []) in
  (forall t w, (Rabs (t - 1) < 1)%R -> open_cube (indices []) w -> X (g t w)) /\
  (forall e, valid e [] -> differentiable (open_cube (indices [])) (fun t w => g t w e) (fun w => w []) 1) /\
  smooth_on X (indices []) f (fun _ _ => 1%R) (fun z => z []) 1 /\
  (forall z z', (forall e, valid e [] -> z e = z' e) -> f z 1%R = f z' 1%R /\ (forall e, valid e [] -> 1%R = 1%R) /\ z [] = z' []) /\
  (forall t, (Rabs (t - 1) < 1)%R -> expect (indices []) (fun w => f (g t w) t) (t * t / 2)%R).
Proof.
  cbv zeta. split; [|split; [|split; [|split]]].
  - intros t w Ht Hw. apply Rabs_def2 in Ht. pose proof (Hw [] (or_introl eq_refl)). nra.
  - intros e _. split.
    + exists 1%R. intros w Hw. pose proof (Hw [] (or_introl eq_refl)). rewrite Rabs_pos_eq; lra.
    + intros eps He. exists 1%R. split; [lra|]. intros h w _ _. replace (_ - _ - _)%R with 0%R by ring. rewrite Rabs_R0. pose proof (Rabs_pos h). nra.
  - split.
    + intros e _. exists 1%R. intros z _. rewrite Rabs_R1. lra.
    + intros eps He. exists eps. split; [exact He|]. intros z z' h _ _ Hh Hz. specialize (Hz [] (or_introl eq_refl)). cbn [indices map flat_map fold_right].
      replace (_ - _ - _ - _)%R with (h * (z' [] - z []))%R by ring. rewrite Rabs_mult. pose proof (Rabs_pos h). pose proof (Rabs_pos (z' [] - z [])). nra.
  - intros z z' H. rewrite (H []) by constructor. auto.
  - intros t _. apply half. intros w. ring.
Qed.

(** With storch.CHECK_DIFFERENTIABLE_PATH every such program is rejected: has_differentiable_path never finds a path. *)
Theorem C77_check_refuted : forall veq anc_unwrap name n ev g dg f df dft t0 lp u base, 1 <= n ->
  reparam_run veq anc_unwrap name n ev g dg f df dft t0 true lp u base = Err ValueError.
Proof.
  intros veq anc name n ev g dg f df dft t0 lp u base Hn. unfold reparam_run, pathwise_program.
  destruct (reparam_x veq anc rd_recip name n ev (reparam_rsample ev (sample_dual g dg t0) (fun i => (u i, 0%R))) (fun i e => (g t0 (fun k => u (i :: k)) e, dg (fun k => u (i :: k)) e)) Hn) as [x [rg [X1 _]]].
  - eexists. split; [reflexivity|]. split; [reflexivity|]. intros i e Hi He. reflexivity.
  - rewrite X1. cbn [bind]. unfold backward_value, surrogate_loss. cbn [surrogate_costs]. unfold surrogate_cost. rewrite pathwise_order. cbn [bind foldM]. reflexivity.
Qed.
Print Assumptions C77_check_refuted.

(** C77 for GumbelSoftmax: n relaxed samples of independent one-hot variables with K options, as in C76, and a continuously differentiable cost [c] of the relaxed
    sample. *)
Definition gumbel_run veq anc_unwrap (straight : bool) (name : string) (n : nat) (ev : list nat) (K : nat) (tau : R) (p : idx -> nat -> R -> R) dp (c : (idx -> R) -> R) dc (t0 : R) lp
  (u : idx -> R) base : res (ten RD) :=
  pathwise_program veq anc_unwrap rd_ops rd_exp rd_recip name n (reparam_method false) lp (with_deriv (indices (ev ++ [K])) c dc)
    (fun k => (if straight then straight_rsample rd_ops rd_exp (rd_rops 0) (tau, 0%R) else rsample_gumbel_softmax rd_ops rd_exp (rd_rops 0) (tau, 0%R)) (uniform ev K u k) (prob_ten ev K p dp t0)) base.
Theorem C77_gumbel_partial : forall veq anc_unwrap name n ev K tau (p : idx -> nat -> R -> R) dp c dc t0 rho lp base,
  1 <= n -> 1 <= K -> (0 < tau)%R -> (0 < rho)%R ->
  (forall t, (Rabs (t - t0) < rho)%R -> forall r, valid r ev -> distribution K (fun j => p r j t)) ->
  (forall r j, valid r ev -> j < K -> derivable_pt_lim (p r j) t0 (dp r j)) ->
  smooth (indices (ev ++ [K])) c dc ->
  (forall z z', (forall e, valid e (ev ++ [K]) -> z e = z' e) -> c z = c z' /\ forall e, valid e (ev ++ [K]) -> dc e z = dc e z') ->
  exists (loss : (idx -> R) -> RD) (J : R -> R) gradient,
    (forall u, open_cube (indices (n :: ev ++ [K])) u -> exists t, gumbel_run veq anc_unwrap false name n ev K tau p dp c dc t0 lp u base = Ok t /\ shape t = [] /\ el t [] = loss u) /\
    (forall t, (Rabs (t - t0) < rho)%R -> expect (indices (ev ++ [K])) (fun w => c (gumbel_softmax K tau (fun r j => p r j t) w)) (J t)) /\
    derivable_pt_lim J t0 gradient /\
    expect (indices (n :: ev ++ [K])) (fun u => snd (loss u)) gradient /\ expect (indices (n :: ev ++ [K])) (fun u => fst (loss u)) (J t0).
Proof.
  intros veq anc name n ev K tau p dp c dc t0 rho lp base Hn HK Htau Hrho Hp Hdp Hc Hce. unfold gumbel_run. rewrite (indices_snoc ev K) in *.
  destruct (gumbel_gradient n ev K tau p dp t0 rho) with (c := c) (dc := dc) (veq := veq) (anc_unwrap := anc) (name := name) (lp := lp) (base := base) as [loss [J [d H]]]; auto.
  - intros t Ht r Hr. apply Hp; [exact Ht|now apply in_indices].
  - intros r j Hr. apply Hdp. now apply in_indices.
  - intros z z' H. destruct (Hce z z') as [H1 H2]; [intros e He; apply H; rewrite <- indices_snoc; now apply in_indices|]. split; [exact H1|]. intros e He. apply H2. apply in_indices. now rewrite indices_snoc.
  - exists loss, J, d. rewrite (indices_snoc ev K) in H. exact H.
Qed.
Print Assumptions C77_gumbel_partial.

(** The straight-through variant is biased: one binary variable with the probabilities t and 1 - t, and the cost 3 x^2 - 2 x^3 of the first component x of the
    (rounded) sample, that is, 0 or 1. The expectation of the loss is t, but the derivative of the loss is 0, whatever the noise is. *)
Definition smoothstep (z : idx -> R) : R := let x := z [0] in (3 * (x * x) - 2 * (x * x * x))%R.
Definition smoothstep' (e : idx) (z : idx -> R) : R := let x := z [0] in if list_eq_dec Nat.eq_dec e [0] then (6 * (x * (1 - x)))%R else 0%R.
Theorem C77_straight_through_refuted : forall veq anc_unwrap name n tau lp base t0, 1 <= n -> (0 < tau)%R -> (0 < t0 < 1)%R ->
  let p (_ : idx) (j : nat) (t : R) := (if j =? 0 then t else 1 - t)%R in
  let dp (_ : idx) (j : nat) := (if j =? 0 then 1 else -1)%R in
  exists loss : (idx -> R) -> R,
    (forall u, open_cube (indices (n :: [2])) u -> exists t, gumbel_run veq anc_unwrap true name n [] 2 tau p dp smoothstep smoothstep' t0 lp u base = Ok t /\ shape t = [] /\ el t [] = (loss u, 0%R)) /\
    expect (indices (n :: [2])) loss t0.
Proof.
  intros veq anc name n tau lp base t0 Hn Htau Ht p dp. unfold gumbel_run.
  destruct (straight_gradient n [] 2 tau p dp t0 (Rmin t0 (1 - t0)) Hn ltac:(lia) Htau ltac:(apply Rmin_glb_lt; lra)) with (c := smoothstep) (dc := smoothstep') (veq := veq) (anc_unwrap := anc) (name := name) (lp := lp) (base := base) as [loss [L1 L2]].
  - intros t Hr r _. pose proof (Rmin_l t0 (1 - t0)). pose proof (Rmin_r t0 (1 - t0)). apply Rabs_def2 in Hr. split; [|unfold p; cbn; lra]. intros j Hj. unfold p. destruct j as [|[|j]]; cbn [Nat.eqb]; lra || lia.
  - intros z z' H. assert (E : z [0] = z' [0]) by (apply H; simpl; auto). unfold smoothstep, smoothstep'. cbv zeta. rewrite E. auto.
  - intros b e _. unfold smoothstep', onehot. cbn [last removelast]. destruct (list_eq_dec Nat.eq_dec e [0]); [|reflexivity]. destruct (0 =? b []); ring.
  - exists loss. split; [exact L1|]. assert (E : categorical 2 (fun r j => p r j t0) (indices []) (fun b => smoothstep (onehot b)) (fun _ => 0) = t0); [|rewrite E in L2; exact L2].
    unfold indices, categorical, at_index, smoothstep, onehot, p. cbn. ring.
Qed.
Print Assumptions C77_straight_through_refuted.

(** Infer adds the score function to the gradient through the sample: its is_pathwise finds no path. For a variable that is uniform on (0, t) and the cost x, the expected cost
    is t / 2, but the derivative of the loss is 0, whatever the noise is. (Outside of (0, t) torch's log_prob is minus infinity; samples are never there.) *)
Definition uniform_log_prob (t0 : R) (_ : list nat) (x : RD) : RD := ((if Rle_dec 0 (fst x) then if Rlt_dec (fst x) t0 then 0 else -1 else -1) - ln t0, - / t0)%R.
Theorem C77_infer_refuted : forall veq anc_unwrap name n base t0, 1 <= n -> (0 < t0)%R ->
  (forall t, expect (indices []) (fun w => Rmult t (w [])) (t / 2)%R) /\ derivable_pt_lim (fun t => t / 2)%R t0 (1 / 2)%R /\
  forall u, open_cube (indices [n]) u -> exists t x,
    pathwise_program veq anc_unwrap rd_ops rd_exp rd_recip name n (infer_method veq anc_unwrap rd_ops rd_exp) (components_log_prob veq anc_unwrap (uniform_log_prob t0)) (fun z => z [])
      (reparam_rsample [] (sample_dual (fun t w _ => Rmult t (w [])) (fun w _ => w []) t0) (fun i => (u i, 0%R))) base = Ok t /\ shape t = [] /\ el t [] = (x, 0%R).
Proof.
  intros veq anc name n base t0 Hn Ht. split; [intros t; now apply half|]. split.
  { apply is_derive_Reals. auto_derive; [exact I|]. field. }
  intros u Hu.
  destruct (infer_loss veq anc rd_ops rd_ring rd_exp rd_recip name n [] (fun z => z []) (reparam_rsample [] (sample_dual (fun t w _ => Rmult t (w [])) (fun w _ => w []) t0) (fun i => (u i, 0%R)))
    (fun i _ => (Rmult t0 (u [i]), u [i])) Hn) with (L := uniform_log_prob t0) (base := base) as [t [T1 [T2 T3]]].
  - eexists. split; [reflexivity|]. split; [reflexivity|]. intros i e Hi He. inversion He; subst e. reflexivity.
  - intros b b' H. apply H. constructor.
  - exists t. eexists. split; [exact T1|]. split; [exact T2|]. rewrite T3, rd_osum. f_equal. rewrite (rsum_ext' _ (fun _ => 0%R)); [apply rsum_zero|]. intros i Hi. rewrite dual_box.
    unfold lsum. cbn [indices map osum fold_right]. unfold uniform_log_prob, rd_recip, rd_ops, dual_ops. cbn [o_add o_mul o_zero real_ops fst snd]. change (@eq R (/ INR n * (1 * u [i] + (- / t0 + 0) * (t0 * u [i])) + 0 * (1 * (t0 * u [i]))) 0)%R. field. split; [lra|apply not_0_INR; lia].
Qed.
Print Assumptions C77_infer_refuted.
