(** C76: the gradient of a program with RELAX. *)
From Coq Require Import String List Arith Bool ZArith Lia Reals Lra.
From Coquelicot Require Import Coquelicot.
From Verif Require Import Base Torch Plates Wrap Scalar Reduce Graph Surrogate Estimators Arm Relax SpecTensor SpecArm SpecExpect SpecRelax Dual ProgramWitness BiasProofs2
  ListLemmas IndexLemmas ArmProofs ArmMean ArmProofs2 RelaxRows RelaxUnbiased RelaxLoss RelaxDual.
Import ListNotations.
Open Scope string_scope.
Open Scope nat_scope.
Open Scope list_scope.

(** The program: n samples of independent one-hot variables with K options, one for each index of a tensor of shape [ev]; option j of variable r
    has the probability [p r j t]. The cost of a sample with the options b is [f b t]; the control variate is [c] with the partial derivatives [dc].
    The parameter t is at [t0]. [u] is the uniform noise of the relaxed samples, [w] that of the conditional samples. A number is a value and a
    derivative ([RD]). Probabilities are not clamped, as in exact arithmetic ([rd_rops 0]). *)
Definition relax_run veq anc_unwrap (name : string) (n : nat) (ev : list nat) (K : nat) (tau eta : R) (p : idx -> nat -> R -> R) dp (c : (idx -> R) -> R) dc
  (f : (idx -> nat) -> R -> R) df (t0 : R) (u w : idx -> R) base : res (ten RD) :=
  relax_program veq anc_unwrap rd_ops rd_exp rd_recip (rd_rops 0) (tau, 0%R) name n (eta, 0%R) (on_options K f df t0) (with_deriv (indices (ev ++ [K])) c dc)
    (uniform ev K u) (uniform_like ev K w n) (prob_ten ev K p dp t0) base.
Definition expected_cost (ev : list nat) (K : nat) (p : idx -> nat -> R -> R) (f : (idx -> nat) -> R -> R) (t : R) : R :=
  categorical K (fun r j => p r j t) (indices ev) (fun b => f b t) (fun _ => 0).
Definition distribution (K : nat) (q : nat -> R) : Prop := (forall j, j < K -> (0 < q j)%R) /\ fold_right (fun j s => (q j + s)%R) 0%R (seq 0 K) = 1%R.

(** C76 for one sample (RELAX's default), or more samples of variables with event dimensions, and a control variate that is continuously
    differentiable: for every noise [u], [h u] is the expectation over [w] of the derivative of the loss; the expectation of [h u] is the derivative of the expected cost. The
    value of the loss has the expected cost as its expectation. Missing for the full claim: several samples of variables without event dimensions (false,
    below), control variates with kinks such as Baseline's relu, and the clamping of probabilities and noise by a floating point epsilon. *)
Theorem C76_gradient_partial : forall veq anc_unwrap name n ev K tau eta (p : idx -> nat -> R -> R) dp c dc (f : (idx -> nat) -> R -> R) df t0 rho base,
  1 <= n -> (ev <> [] \/ n = 1) -> 1 <= K -> (0 < tau)%R -> (0 < rho)%R ->
  (forall t, (Rabs (t - t0) < rho)%R -> forall r, valid r ev -> distribution K (fun j => p r j t)) ->
  (forall r j, valid r ev -> j < K -> derivable_pt_lim (p r j) t0 (dp r j)) ->
  smooth (indices (ev ++ [K])) c dc ->
  (forall z z', (forall e, valid e (ev ++ [K]) -> z e = z' e) -> c z = c z' /\ forall e, valid e (ev ++ [K]) -> dc e z = dc e z') ->
  (forall b, derivable_pt_lim (f b) t0 (df b)) ->
  (forall b b', (forall r, valid r ev -> b r = b' r) -> forall t, f b t = f b' t) ->
  let l := indices (n :: ev ++ [K]) in
  exists (loss : (idx -> R) -> (idx -> R) -> RD) gradient h,
    (forall u w, exists t, relax_run veq anc_unwrap name n ev K tau eta p dp c dc f df t0 u w base = Ok t /\ shape t = [] /\ el t [] = loss u w) /\
    derivable_pt_lim (expected_cost ev K p f) t0 gradient /\
    (forall u, open_cube l u -> expect l (fun w => snd (loss u w)) (h u)) /\ expect l h gradient /\
    (forall w, open_cube l w -> expect l (fun u => fst (loss u w)) (expected_cost ev K p f t0)).
Proof.
  intros veq anc name n ev K tau eta p dp c dc f df t0 rho base Hn Hev HK Htau Hrho Hp Hdp Hc Hce Hf Hfe l. unfold relax_run. rewrite indices_snoc in *.
  assert (V : forall e, In e (noise K (indices ev)) -> valid e (ev ++ [K])) by (intros e He; rewrite <- indices_snoc in He; now apply in_indices).
  apply (relax_gradient n ev K tau p dp t0 rho); auto.
  - intros t Ht r Hr. apply Hp; [exact Ht|now apply in_indices].
  - intros r j Hr. apply Hdp. now apply in_indices.
  - intros z z' H. destruct (Hce z z') as [H1 H2]; [intros e He; apply H; rewrite <- indices_snoc; now apply in_indices|]. split; auto.
  - intros b b' H. apply Hfe. intros r Hr. apply H. now apply in_indices.
Qed.
Print Assumptions C76_gradient_partial.

(** Two binary variables with the probabilities t and 1 - t; the cost is t if they are the same, and the control variate is the square of a component. *)
Example C76_witness :
  let p (r : idx) (j : nat) (t : R) := (if j =? 0 then t else 1 - t)%R in
  let dp (r : idx) (j : nat) := (if j =? 0 then 1 else -1)%R in
  let f (b : idx -> nat) (t : R) := if b [0] =? b [1] then t else 0%R in
  let df (b : idx -> nat) := if b [0] =? b [1] then 1%R else 0%R in
  let c (z : idx -> R) := Rmult (z [0; 0]) (z [0; 0]) in
  let dc (e : idx) (z : idx -> R) := if list_eq_dec Nat.eq_dec e [0; 0] then Rmult 2 (z [0; 0]) else 0%R in
  (forall t, (Rabs (t - 1/2) < 1/4)%R -> forall r, valid r [2] -> distribution 2 (fun j => p r j t)) /\
  (forall r j, valid r [2] -> j < 2 -> derivable_pt_lim (p r j) (1/2)%R (dp r j)) /\
  smooth (indices ([2] ++ [2])) c dc /\
  (forall z z', (forall e, valid e ([2] ++ [2]) -> z e = z' e) -> c z = c z' /\ forall e, valid e ([2] ++ [2]) -> dc e z = dc e z') /\
  (forall b, derivable_pt_lim (f b) (1/2)%R (df b)) /\
  (forall b b', (forall r, valid r [2] -> b r = b' r) -> forall t, f b t = f b' t) /\
  c (fun _ => 1%R) <> c (fun _ => 0%R) /\ f (fun _ => 1) (1/2)%R <> f (fun r => nth 0 r 0) (1/2)%R.
Proof.
  cbv zeta. split; [|split; [|split; [|split; [|split; [|split; [|split]]]]]].
  - intros t Ht r _. apply Rabs_def2 in Ht. split; [|cbn; lra]. intros j Hj. destruct j as [|[|j]]; cbn [Nat.eqb]; lra || lia.
  - intros r j _ Hj. destruct j as [|j]; cbn [Nat.eqb]; [apply derivable_pt_lim_id|]. replace (-1)%R with (0 - 1)%R by ring. apply (derivable_pt_lim_minus (fun _ => 1%R) (fun t => t)); [apply derivable_pt_lim_const|apply derivable_pt_lim_id].
  - assert (I : forall z, cube (indices ([2] ++ [2])) z -> (0 <= z [0; 0]%nat <= 1)%R) by (intros z H; apply H; simpl; auto).
    assert (A : forall e z z', cube (indices ([2] ++ [2])) z -> cube (indices ([2] ++ [2])) z' -> (forall k, In k (indices ([2] ++ [2])) -> (Rabs (z k - z' k) < e)%R) -> (Rabs (z [0; 0]%nat - z' [0; 0]%nat) < e)%R) by (intros e z z' _ _ H; apply H; simpl; auto).
    split; [|split].
    + split.
      * exists 1%R. intros z H. specialize (I z H). rewrite Rabs_pos_eq; nra.
      * intros eps He. exists (eps / 2)%R. split; [lra|]. intros z z' H1 H2 H3. pose proof (A _ z z' H1 H2 H3) as H4. pose proof (I z H1). pose proof (I z' H2). apply Rabs_def2 in H4. apply Rabs_def1; nra.
    + intros e _. destruct (list_eq_dec Nat.eq_dec e [0; 0]).
      * split.
        -- exists 2%R. intros z H. specialize (I z H). rewrite Rabs_pos_eq; lra.
        -- intros eps He. exists (eps / 2)%R. split; [lra|]. intros z z' H1 H2 H3. pose proof (A _ z z' H1 H2 H3) as H4. apply Rabs_def2 in H4. apply Rabs_def1; lra.
      * split; [exists 0%R; intros; rewrite Rabs_R0; lra|]. intros eps He. exists 1%R. split; [lra|]. intros. rewrite Rminus_eq_0, Rabs_R0. exact He.
    + intros eps He. exists eps. split; [exact He|]. intros z z' H1 H2 H3. cbn.
      assert (H4 : (Rabs (z' [0; 0]%nat - z [0; 0]%nat) < eps)%R) by (apply H3; simpl; auto).
      set (x := z [0; 0]%nat) in *. set (x' := z' [0; 0]%nat) in *.
      replace (x' * x' - x * x - _)%R with ((x' - x) * (x' - x))%R by ring. rewrite Rabs_mult.
      pose proof (Rabs_pos (x' - x)). pose proof (Rabs_pos (z' [0; 1]%nat - z [0; 1]%nat)). pose proof (Rabs_pos (z' [1; 0]%nat - z [1; 0]%nat)). pose proof (Rabs_pos (z' [1; 1]%nat - z [1; 1]%nat)).
      apply Rle_trans with (eps * Rabs (x' - x))%R; [nra|]. apply Rmult_le_compat_l; lra.
  - intros z z' H. assert (E : z [0; 0] = z' [0; 0]) by (apply H; repeat constructor). rewrite E. split; [reflexivity|]. intros e _. reflexivity.
  - intros b. destruct (b [0] =? b [1]); [apply derivable_pt_lim_id|apply derivable_pt_lim_const].
  - intros b b' H t. rewrite !H; [reflexivity| |]; repeat constructor.
  - lra.
  - cbn. lra.
Qed.

(** C76 is false for several samples of variables without event dimensions, such as one OneHotCategorical: RELAX.estimator sums the log-probability over the event
    dimensions, of which there are none, and torch's sum over no dimensions sums over all, including the plate (the result is then rejected). *)
Theorem C76_scalar_refuted : forall veq anc_unwrap name n K tau eta (p : idx -> nat -> R -> R) dp c dc (f : (idx -> nat) -> R -> R) df t0 u w base,
  2 <= n -> 1 <= K ->
  (forall z z', (forall e, valid e [K] -> z e = z' e) -> c z = c z' /\ forall e, valid e [K] -> dc e z = dc e z') ->
  (forall b b', (forall r, valid r [] -> b r = b' r) -> f b t0 = f b' t0 /\ df b = df b') ->
  relax_run veq anc_unwrap name n [] K tau eta p dp c dc f df t0 u w base = Err ValueError.
Proof.
  intros veq anc name n K tau eta p dp c dc f df t0 u w base Hn HK Hc Hf. apply (relax_scalar veq anc rd_ops rd_ring rd_exp rd_recip (rd_rops 0) _ _ name n [] K _ _ _ _ _ (Nat.lt_le_incl _ _ Hn) HK); try exact Hn; try reflexivity.
  - intros b b' H. unfold on_options. destruct (Hf (options K b) (options K b')) as [E1 E2]; [|now rewrite E1, E2].
    intros r Hr. unfold options. rewrite (find_ext_in _ (fun j => if Req_EM_T (fst (b' (r ++ [j]))) 1 then true else false)); [reflexivity|].
    intros j Hj. apply in_seq in Hj. rewrite H; [reflexivity|]. inversion Hr; subst. repeat constructor. lia.
  - intros b b' H. unfold with_deriv. destruct (Hc (fun e => fst (b e)) (fun e => fst (b' e))) as [E1 E2]; [intros e He; now rewrite H|]. rewrite E1. f_equal.
    apply rsum_ext'. intros e He. apply in_indices in He. rewrite E2, H by exact He. reflexivity.
Qed.
Print Assumptions C76_scalar_refuted.

(** The derivatives of the operations are the ones the dual numbers of the program have. *)
Theorem C76_operations : forall (x y : R -> R) dx dy t0, derivable_pt_lim x t0 dx -> derivable_pt_lim y t0 dy ->
  ((0 < x t0)%R -> fst (rd_ln (x t0, dx)) = ln (x t0) /\ derivable_pt_lim (fun t => ln (x t)) t0 (snd (rd_ln (x t0, dx)))) /\
  (y t0 <> 0%R -> fst (rd_div (x t0, dx) (y t0, dy)) = (x t0 / y t0)%R /\ derivable_pt_lim (fun t => (x t / y t)%R) t0 (snd (rd_div (x t0, dx) (y t0, dy)))).
Proof. intros x y dx dy t0 Hx Hy. split; intros H; (split; [reflexivity|]). - now apply rd_ln_right. - now apply rd_div_right. Qed.
Print Assumptions C76_operations.
