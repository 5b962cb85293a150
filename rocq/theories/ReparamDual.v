(** The gradient of programs with Reparameterization or GumbelSoftmax is unbiased. *)
From Coq Require Import String List Arith Bool ZArith Lia Reals Lra Permutation.
From Coquelicot Require Import Coquelicot.
From Verif Require Import Base Torch Plates Wrap Scalar Reduce Graph Surrogate Estimators Arm Relax Reparam SpecTensor SpecSurrogate SpecArm SpecExpect SpecRelax SpecReparam ListLemmas Dual ProgramWitness
  BiasProofs2 IndexLemmas ArmProofs ArmMean ArmProofs2 Expect Expect2 RelaxRows RelaxDiff RelaxExpect RelaxGrad RelaxUnbiased RelaxLoss RelaxDual ReparamLoss.
Import ListNotations.
Local Open Scope R_scope.

(** Uniform limits have expectations. *)
Lemma mean_const : forall l c u, mean l (fun _ => c) u c.
Proof.
  intros l c. induction l as [|e l IH]; intros u; cbn [mean]; [reflexivity|].
  exists (fun _ => c). split; [auto|]. pose proof (is_RInt_const (V := R_NormedModule) 0 1 c) as H. unfold scal in H. simpl in H. unfold mult in H. simpl in H. now replace ((1 - 0) * c) with c in H by ring.
Qed.
Lemma expect_limit : forall l F, (forall eps, 0 < eps -> exists G v, expect l G v /\ forall u, open_cube l u -> Rabs (F u - G u) <= eps) -> exists v, expect l F v.
Proof.
  intros l F H. apply expect_ex. intros d Hd. destruct (H (d / 4) ltac:(lra)) as [G [v [HG HF]]]. destruct (HG (d / 4) ltac:(lra)) as [L [U [CL [CU [S M]]]]].
  exists (fun u => L u + - (d / 4)), (fun u => U u + d / 4). split; [apply (cont_plus l L (fun _ => - (d / 4))); [exact CL|apply cont_const]|]. split; [apply (cont_plus l U (fun _ => d / 4)); [exact CU|apply cont_const]|]. split.
  - intros u Hu. specialize (S u Hu). specialize (HF u Hu). apply Rabs_le_between in HF. lra.
  - intros u0 a b Ma Mb. destruct (M u0) as [a' [b' [Ma' [Mb' [Ha Hb]]]]].
    pose proof (mean_plus _ _ _ _ _ _ Ma' (mean_const l (- (d / 4)) u0)) as Ma2. pose proof (mean_plus _ _ _ _ _ _ Mb' (mean_const l (d / 4) u0)) as Mb2.
    rewrite (mean_unique _ _ _ _ _ Ma Ma2), (mean_unique _ _ _ _ _ Mb Mb2). lra.
Qed.

(** The average over samples of a cost that is differentiable uniformly in the noise. *)
Theorem pathwise_unbiased : forall n l (F : R -> (idx -> R) -> R) D (J : R -> R) t0 rho, (0 < n)%nat -> NoDup l -> 0 < rho ->
  (forall t, Rabs (t - t0) < rho -> expect l (F t) (J t)) -> small (open_cube l) (fun h u => F (t0 + h) u - F t0 u - h * D u) ->
  exists d, derivable_pt_lim J t0 d /\ expect l D d /\ expect (each n l) (fun u => / INR n * rsum (fun i => D (fun e => u (i :: e))) (seq 0 n)) d /\
    expect (each n l) (fun u => / INR n * rsum (fun i => F t0 (fun e => u (i :: e))) (seq 0 n)) (J t0).
Proof.
  intros n l F D J t0 rho Hn N Hrho HJ HD.
  assert (H0 : expect l (F t0) (J t0)) by (apply HJ; rewrite Rminus_eq_0, Rabs_R0; exact Hrho).
  assert (X : exists d, expect l D d).
  { apply expect_limit. intros eps He. destruct (HD eps He) as [q [Hq Q]]. set (h := Rmin q rho / 2). assert (0 < Rmin q rho) by now apply Rmin_glb_lt. pose proof (Rmin_l q rho). pose proof (Rmin_r q rho).
    assert (Hh : 0 < h) by (unfold h; lra). assert (Ah : Rabs h = h) by (apply Rabs_pos_eq; lra).
    exists (fun u => / h * (F (t0 + h) u - F t0 u)), (/ h * (J (t0 + h) - J t0)). split.
    - apply (expect_scal l (/ h) (fun u => F (t0 + h) u - F t0 u)). apply expect_minus; [|exact H0]. apply HJ. replace (t0 + h - t0) with h by ring. rewrite Ah. unfold h; lra.
    - intros u Hu. specialize (Q h u ltac:(rewrite Ah; unfold h; lra) Hu). cbv beta in Q. replace (D u - / h * (F (t0 + h) u - F t0 u)) with (- / h * (F (t0 + h) u - F t0 u - h * D u)) by (field; lra).
      rewrite Rabs_mult, Rabs_Ropp, (Rabs_pos_eq (/ h)) by (left; now apply Rinv_0_lt_compat). rewrite Ah in Q. apply Rmult_le_reg_l with h; [exact Hh|]. rewrite <- Rmult_assoc, Rinv_r by lra. lra. }
  destruct X as [d Hd]. exists d. split; [|split; [exact Hd|]].
  - apply (expect_derive l F D J t0 d rho Hrho HJ Hd). exact HD.
  - split.
    + exact (proj2 (average_unbiased n l (fun u _ => D u) D d Hn N (fun u _ => expect_const l (D u)) Hd)).
    + exact (proj2 (average_unbiased n l (fun u _ => F t0 u) (F t0) (J t0) Hn N (fun u _ => expect_const l (F t0 u)) H0)).
Qed.

(** The chain rule. *)
Lemma rsum_linear : forall {A} (a b c : A -> R) h l, rsum (fun e => a e * (b e - h * c e)) l = rsum (fun e => a e * b e) l - h * rsum (fun e => a e * c e) l.
Proof. intros A a b c h l. induction l as [|e l IH]; cbn [rsum fold_right]; [ring|]. unfold rsum in IH. rewrite IH. ring. Qed.
Lemma rsum_zero : forall {A} (l : list A), rsum (fun _ => 0) l = 0.
Proof. intros A l. induction l as [|e l IH]; cbn [rsum fold_right]; [reflexivity|]. unfold rsum in IH. rewrite IH. ring. Qed.
Lemma rsum_le_const : forall {A} (a : A -> R) B l, (forall e, In e l -> a e <= B) -> rsum a l <= INR (length l) * B.
Proof.
  intros A a B l. induction l as [|e l IH]; intros H; cbn [rsum fold_right length]; [simpl; lra|]. rewrite S_INR. specialize (IH (fun x Hx => H x (or_intror Hx))). specialize (H e (or_introl eq_refl)). unfold rsum in IH. lra.
Qed.
Lemma chain_small : forall (dom X : (idx -> R) -> Prop) (lE : list idx) (f : (idx -> R) -> R -> R) (df : idx -> (idx -> R) -> R) dft t0 (g : R -> (idx -> R) -> idx -> R) (dg : (idx -> R) -> idx -> R) rho, 0 < rho ->
  (forall t u, Rabs (t - t0) < rho -> dom u -> X (g t u)) -> (forall e, In e lE -> differentiable dom (fun t u => g t u e) (fun u => dg u e) t0) -> smooth_on X lE f df dft t0 ->
  small dom (fun h u => f (g (t0 + h) u) (t0 + h) - f (g t0 u) t0 - h * (rsum (fun e => df e (g t0 u) * dg u e) lE + dft (g t0 u))).
Proof.
  intros dom X lE f df dft t0 g dg rho Hrho HX Hg [Hb Hf].
  assert (X0 : forall u, dom u -> X (g t0 u)) by (intros u Hu; apply HX; [rewrite Rminus_eq_0, Rabs_R0; exact Hrho|exact Hu]).
  destruct (linear_all dom lE (fun e h u => g (t0 + h) u e - g t0 u e)) as [C [q [HC [Hq Q]]]].
  { intros e He. destruct (Hg e He) as [B S]. apply (small_linear dom _ (fun u => dg u e)); [exact S|exact B]. }
  apply (small_ext dom (fun h u => (f (g (t0 + h) u) (t0 + h) - f (g t0 u) t0 - rsum (fun e => df e (g t0 u) * (g (t0 + h) u e - g t0 u e)) lE - dft (g t0 u) * h) +
    rsum (fun e => df e (g t0 u) * (g (t0 + h) u e - g t0 u e - h * dg u e)) lE) _ 1 Rlt_0_1).
  { intros h u _ _. rewrite (rsum_linear (fun e => df e (g t0 u)) (fun e => g (t0 + h) u e - g t0 u e) (fun e => dg u e) h lE). ring. }
  apply small_plus.
  - intros eps He. set (M := INR (length lE) * C + 1). assert (HM : 0 < M) by (unfold M; pose proof (pos_INR (length lE)); nra).
    destruct (Hf (eps / M) ltac:(now apply Rdiv_lt_0_compat)) as [d [Hd E]]. set (m := Rmin (Rmin q rho) (d / (C + 1))). exists m.
    assert (0 < d / (C + 1)) by (apply Rdiv_lt_0_compat; lra). split; [unfold m; repeat apply Rmin_glb_lt; auto|]. intros h u Hh Hu.
    pose proof (Rmin_l (Rmin q rho) (d / (C + 1))) as M1. pose proof (Rmin_r (Rmin q rho) (d / (C + 1))) as M2. pose proof (Rmin_l q rho) as M3. pose proof (Rmin_r q rho) as M4. fold m in M1, M2.
    assert (Hd' : (C + 1) * Rabs h < d). { apply Rmult_lt_reg_l with (/ (C + 1)); [apply Rinv_0_lt_compat; lra|]. rewrite <- Rmult_assoc, Rinv_l by lra. unfold Rdiv in M2. lra. }
    pose proof (Rabs_pos h) as Ph.
    specialize (E (g t0 u) (g (t0 + h) u) h (X0 u Hu) ltac:(apply HX; [replace (t0 + h - t0) with h by ring; lra|exact Hu]) ltac:(nra)).
    eapply Rle_trans; [apply E|].
    + intros e He'. specialize (Q h u e ltac:(lra) Hu He'). cbv beta in Q. nra.
    + assert (S : rsum (fun e => Rabs (g (t0 + h) u e - g t0 u e)) lE <= INR (length lE) * (C * Rabs h)) by (apply rsum_le_const; intros e He'; apply Q; auto; lra).
      unfold rsum in S. apply Rle_trans with (eps / M * (M * Rabs h)); [|right; field; lra]. apply Rmult_le_compat_l; [left; now apply Rdiv_lt_0_compat|]. unfold M. lra.
  - apply (small_sum dom lE (fun e h u => df e (g t0 u) * (g (t0 + h) u e - g t0 u e - h * dg u e))). intros e He. apply (small_mult dom (fun u => df e (g t0 u))).
    + destruct (Hb e He) as [B HB]. exists B. intros u Hu. now apply HB, X0.
    + exact (proj2 (Hg e He)).
Qed.

(** ** Reparameterization *)
(** A cost and its partial derivatives, at [t0], as a function of numbers with derivatives. *)
Definition cost_dual (lE : list idx) (f : (idx -> R) -> R -> R) (df : idx -> (idx -> R) -> R) (dft : (idx -> R) -> R) (t0 : R) (z : idx -> RD) : RD :=
  let v e := fst (z e) in (f v t0, rsum (fun e => df e v * snd (z e)) lE + dft v).
(** The components of a sample. *)
Definition sample_dual (g : R -> (idx -> R) -> idx -> R) (dg : (idx -> R) -> idx -> R) (t0 : R) (w : idx -> RD) (e : idx) : RD := let v k := fst (w k) in (g t0 v e, dg v e).

Lemma cost_dual_ext : forall ev f df dft t0, (forall z z', (forall e, valid e ev -> z e = z' e) -> f z t0 = f z' t0 /\ (forall e, valid e ev -> df e z = df e z') /\ dft z = dft z') ->
  forall b b', (forall e, valid e ev -> b e = b' e) -> cost_dual (indices ev) f df dft t0 b = cost_dual (indices ev) f df dft t0 b'.
Proof.
  intros ev f df dft t0 H b b' Hb. unfold cost_dual. cbv zeta. destruct (H (fun e => fst (b e)) (fun e => fst (b' e))) as [E1 [E2 E3]]; [intros e He; now rewrite Hb|]. rewrite E1, E3. f_equal. f_equal.
  apply rsum_ext'. intros e He. apply in_indices in He. rewrite E2, Hb by exact He. reflexivity.
Qed.
Lemma dual_box : forall x : RD, box rd_ops rd_exp x = (1, snd x).
Proof. intros [x d]. unfold box, rd_exp, dual_exp, rd_ops, dual_ops. cbn [o_sub o_det o_mul o_zero real_ops fst snd]. rewrite Rminus_eq_0, exp_0. f_equal. ring. Qed.
Lemma average_dual : forall n (x : nat -> RD), osum rd_ops (map (fun i => o_mul rd_ops (rd_recip n) (o_mul rd_ops (box rd_ops rd_exp (o_zero rd_ops)) (x i))) (seq 0 n)) =
  (/ INR n * rsum (fun i => fst (x i)) (seq 0 n), / INR n * rsum (fun i => snd (x i)) (seq 0 n)).
Proof.
  intros n x. rewrite rd_osum, dual_box, <- !rsum_scal. f_equal; apply rsum_ext'; intros i _; unfold rd_recip, rd_ops, dual_ops; cbn [o_add o_mul o_zero real_ops fst snd]; ring.
Qed.

Section Reparam.
Variables (n : nat) (ev ns : list nat).
Hypothesis Hn : (1 <= n)%nat.
Variables (g : R -> (idx -> R) -> idx -> R) (dg : (idx -> R) -> idx -> R) (f : (idx -> R) -> R -> R) (df : idx -> (idx -> R) -> R) (dft : (idx -> R) -> R) (t0 rho : R) (X : (idx -> R) -> Prop) (J : R -> R).
Hypothesis Hrho : 0 < rho.
Notation l := (indices ns).
Hypothesis HX : forall t w, Rabs (t - t0) < rho -> open_cube l w -> X (g t w).
Hypothesis Hg : forall e, valid e ev -> differentiable (open_cube l) (fun t w => g t w e) (fun w => dg w e) t0.
Hypothesis Hf : smooth_on X (indices ev) f df dft t0.
Hypothesis Hfe : forall z z', (forall e, valid e ev -> z e = z' e) -> f z t0 = f z' t0 /\ (forall e, valid e ev -> df e z = df e z') /\ dft z = dft z'.
Hypothesis HJ : forall t, Rabs (t - t0) < rho -> expect l (fun w => f (g t w) t) (J t).

Theorem reparam_gradient : forall veq anc_unwrap name lp base, exists (loss : (idx -> R) -> RD) gradient,
  (forall u, exists t, pathwise_program veq anc_unwrap rd_ops rd_exp rd_recip name n (reparam_method false) lp (cost_dual (indices ev) f df dft t0)
     (reparam_rsample ev (sample_dual g dg t0) (fun i => (u i, 0))) base = Ok t /\ shape t = [] /\ el t [] = loss u) /\
  derivable_pt_lim J t0 gradient /\ expect (indices (n :: ns)) (fun u => snd (loss u)) gradient /\ expect (indices (n :: ns)) (fun u => fst (loss u)) (J t0).
Proof.
  intros veq anc name lp base.
  set (D := fun w => rsum (fun e => df e (g t0 w) * dg w e) (indices ev) + dft (g t0 w)).
  destruct (pathwise_unbiased n l (fun t w => f (g t w) t) D J t0 rho ltac:(lia) (NoDup_indices ns) Hrho HJ) as [d [D1 [D2 [D3 D4]]]].
  { apply (chain_small (open_cube l) X (indices ev) f df dft t0 g dg rho Hrho HX); [|exact Hf]. intros e He. apply Hg. now apply in_indices. }
  exists (fun u => (/ INR n * rsum (fun i => f (g t0 (fun e => u (i :: e))) t0) (seq 0 n), / INR n * rsum (fun i => D (fun e => u (i :: e))) (seq 0 n))), d.
  split; [|split; [exact D1|split; [exact D3|exact D4]]]. intros u.
  set (val := fun (i : nat) (e : idx) => (g t0 (fun k => u (i :: k)) e, dg (fun k => u (i :: k)) e) : RD).
  destruct (pathwise_loss veq anc rd_ops rd_ring rd_exp rd_recip name n ev (cost_dual (indices ev) f df dft t0) (reparam_rsample ev (sample_dual g dg t0) (fun i => (u i, 0))) val Hn) with (m := @reparam_method RD false) (lp := lp) (base := base) as [t [T1 [T2 T3]]].
  - eexists. split; [reflexivity|]. split; [reflexivity|]. intros i e Hi He. reflexivity.
  - intros b b' H. now apply cost_dual_ext.
  - reflexivity.
  - exists t. split; [exact T1|]. split; [exact T2|]. rewrite T3, average_dual. reflexivity.
Qed.
End Reparam.

(** ** GumbelSoftmax *)
Section Gumbel.
Variable n : nat.
Variable ev : list nat.
Variable K : nat.
Variable tau : R.
Variable p : idx -> nat -> R -> R.
Variable dp : idx -> nat -> R.
Variable t0 rho : R.
Hypothesis Hn : (1 <= n)%nat.
Hypothesis HK : (0 < K)%nat.
Hypothesis Htau : 0 < tau.
Hypothesis Hrho : 0 < rho.
Notation rows := (indices ev).
Notation l := (noise K rows).
Notation pt t := (fun r j => p r j t).
Hypothesis Hp : forall t, Rabs (t - t0) < rho -> forall r, In r rows -> probs_row K (pt t) r.
Hypothesis Hdp : forall r j, In r rows -> (j < K)%nat -> derivable_pt_lim (p r j) t0 (dp r j).
Variable c : (idx -> R) -> R.
Variable dc : idx -> (idx -> R) -> R.
Hypothesis Hc : smooth l c dc.
Hypothesis Hce : forall z z', (forall e, In e l -> z e = z' e) -> c z = c z' /\ forall e, In e l -> dc e z = dc e z'.
Let ND : NoDup rows := NoDup_indices ev.

Lemma softmax_eq : forall q w e, (forall r, In r rows -> probs_row K q r) -> open_cube l w -> In e l -> zz K tau q w e = gumbel_softmax K tau q w e.
Proof.
  intros q w e Hq Hw He. apply in_noise in He. destruct He as [r [j [Hr [-> Hj]]]].
  assert (W : forall k, (k < K)%nat -> wz tau q w (key r k) = exp ((ln (q r k) - ln (- ln (w (r ++ [k])))) / tau)).
  { intros k Hk. unfold wz, psi. rewrite row_key, opt_key. f_equal. f_equal. pose proof (proj1 (Hq r Hr) k Hk) as P. pose proof (ln_neg _ (Hw _ (in_l K rows r k Hr Hk))) as L. unfold key in *.
    replace (- (ln (w (r ++ [k])) / q r k)) with ((- ln (w (r ++ [k]))) / q r k) by (unfold Rdiv; ring). rewrite ln_div by lra. ring. }
  unfold zz, norm, gumbel_softmax. cbv zeta. change (removelast (key r j)) with (row_of (key r j)). change (last (key r j) 0%nat) with (opt (key r j)). rewrite !row_key, opt_key, W by exact Hj. unfold Rdiv at 1 3. f_equal. f_equal.
  unfold rowsum, rsum. assert (G : forall m a, (a + m <= K)%nat -> fold_right (fun k s => wz tau q w (key r k) + s) 0 (seq a m) = fold_right (fun k s => exp ((ln (q r k) - ln (- ln (w (r ++ [k])))) / tau) + s) 0 (seq a m)).
  { induction m as [|m IH]; intros a Ha; [reflexivity|]. cbn [seq fold_right]. rewrite W, IH by lia. reflexivity. }
  now apply G.
Qed.

Theorem gumbel_gradient : forall veq anc_unwrap name lp base, exists (loss : (idx -> R) -> RD) (J : R -> R) gradient,
  (forall u, open_cube (indices (n :: ev ++ [K])) u -> exists t, pathwise_program veq anc_unwrap rd_ops rd_exp rd_recip name n (reparam_method false) lp (with_deriv l c dc)
     (fun k => rsample_gumbel_softmax rd_ops rd_exp (rd_rops 0) (tau, 0) (uniform ev K u k) (prob_ten ev K p dp t0)) base = Ok t /\ shape t = [] /\ el t [] = loss u) /\
  (forall t, Rabs (t - t0) < rho -> expect (indices (ev ++ [K])) (fun w => c (gumbel_softmax K tau (pt t) w)) (J t)) /\
  derivable_pt_lim J t0 gradient /\ expect (indices (n :: ev ++ [K])) (fun u => snd (loss u)) gradient /\ expect (indices (n :: ev ++ [K])) (fun u => fst (loss u)) (J t0).
Proof.
  intros veq anc name lp base. rewrite indices_each, indices_snoc.
  set (D := Dz K rows tau p dp t0 dc). set (J := Cz K rows tau p c).
  pose proof (Cz_expect K rows tau p t0 rho HK ND Htau Hp c dc Hc) as HJ.
  destruct (pathwise_unbiased n l (fun t w => c (zz K tau (pt t) w)) D J t0 rho ltac:(lia) (noise_nodup K rows ND) Hrho HJ) as [d [D1 [D2 [D3 D4]]]].
  { exact (zz_diff K rows tau p dp t0 rho HK Htau Hrho Hp Hdp c dc Hc). }
  exists (fun u => (/ INR n * rsum (fun i => c (zz K tau (pt t0) (fun e => u (i :: e)))) (seq 0 n), / INR n * rsum (fun i => D (fun e => u (i :: e))) (seq 0 n))), J, d.
  split; [|split; [|split; [exact D1|split; [exact D3|exact D4]]]].
  2: { intros t Ht. eapply expect_ext; [|exact (HJ t Ht)]. intros w Hw. cbv beta. apply Hce. intros e He. now apply softmax_eq; [apply Hp| |]. }
  intros u Hu.
  destruct (pathwise_loss veq anc rd_ops rd_ring rd_exp rd_recip name n (ev ++ [K]) (with_deriv l c dc)
    (fun k => rsample_gumbel_softmax rd_ops rd_exp (rd_rops 0) (tau, 0) (uniform ev K u k) (prob_ten ev K p dp t0))
    (zval rd_ops rd_exp (rd_rops 0) (tau, 0) n K (uniform ev K u) (prob_ten ev K p dp t0)) Hn) with (m := @reparam_method RD false) (lp := lp) (base := base) as [t [T1 [T2 T3]]].
  - apply (rsample_spec rd_ops rd_exp rd_recip (rd_rops 0) (tau, 0) n ev K (uniform ev K u) (prob_ten ev K p dp t0)); auto; reflexivity.
  - intros b b' H. apply (C_ext ev K c dc Hce). exact H.
  - reflexivity.
  - exists t. split; [exact T1|]. split; [exact T2|]. rewrite T3, average_dual. f_equal; f_equal; apply rsum_ext'; intros i Hi; apply in_seq in Hi; rewrite (cz_eq n ev K tau p dp t0 rho) by (auto; lia); reflexivity.
Qed.

(** Straight-through samples: the values of rounded samples with the derivatives of relaxed samples. *)
Definition onehot (b : idx -> nat) (e : idx) : R := if Nat.eqb (last e 0%nat) (b (removelast e)) then 1 else 0.
Hypothesis Hflat : forall b e, In e l -> dc e (onehot b) = 0.
Theorem straight_gradient : forall veq anc_unwrap name lp base, exists loss : (idx -> R) -> R,
  (forall u, open_cube (indices (n :: ev ++ [K])) u -> exists t, pathwise_program veq anc_unwrap rd_ops rd_exp rd_recip name n (reparam_method false) lp (with_deriv l c dc)
     (fun k => straight_rsample rd_ops rd_exp (rd_rops 0) (tau, 0) (uniform ev K u k) (prob_ten ev K p dp t0)) base = Ok t /\ shape t = [] /\ el t [] = (loss u, 0)) /\
  expect (indices (n :: ev ++ [K])) loss (categorical K (pt t0) rows (fun b => c (onehot b)) (fun _ => 0%nat)).
Proof.
  intros veq anc name lp base. rewrite indices_each, indices_snoc. set (b0 := fun _ : idx => 0%nat).
  set (pk := pick K tau p t0). pose proof (Hp0 K rows p t0 rho Hrho Hp) as P0. exists (fun u => / INR n * rsum (fun i => c (onehot (pk (fun e => u (i :: e))))) (seq 0 n)).
  assert (Oe : forall b b', (forall r, In r rows -> b r = b' r) -> c (onehot b) = c (onehot b')).
  { intros b b' H. apply Hce. intros e He. apply in_noise in He. destruct He as [r [j [Hr [-> Hj]]]]. unfold onehot, key. now rewrite last_last, removelast_snoc, H. }
  split.
  - intros u Hu. set (val := fun (i : nat) (e : idx) => (onehot (pk (fun k => u (i :: k))) e, snd (zval rd_ops rd_exp (rd_rops 0) (tau, 0) n K (uniform ev K u) (prob_ten ev K p dp t0) i e)) : RD).
    destruct (pathwise_loss veq anc rd_ops rd_ring rd_exp rd_recip name n (ev ++ [K]) (with_deriv l c dc)
      (fun k => straight_rsample rd_ops rd_exp (rd_rops 0) (tau, 0) (uniform ev K u k) (prob_ten ev K p dp t0)) val Hn) with (m := @reparam_method RD false) (lp := lp) (base := base) as [t [T1 [T2 T3]]].
    + destruct (rsample_spec rd_ops rd_exp rd_recip (rd_rops 0) (tau, 0) n ev K (uniform ev K u) (prob_ten ev K p dp t0) Hn HK eq_refl eq_refl) as [s [S1 [S2 S3]]].
      eexists. unfold straight_rsample. rewrite S1. cbn [bind]. split; [reflexivity|]. split; [exact S2|]. intros i e Hi He. cbn [el]. rewrite S3 by auto.
      assert (B : el (discretize rd_ops (rd_rops 0) s) (i :: e) = bval rd_ops rd_exp (rd_rops 0) (tau, 0) n K (uniform ev K u) (prob_ten ev K p dp t0) i e).
      { destruct (valid_snoc_inv _ _ _ He) as [e0 [k [-> [H1 H2]]]]. unfold discretize. cbn [el]. change (i :: e0 ++ [k]) with ([i] ++ e0 ++ [k]).
        rewrite (width_E ev K s [n] S2), last_lead. unfold bval. rewrite removelast_snoc, last_last. apply (hard_ext veq rd_ops rd_exp rd_recip (rd_rops 0) (tau, 0) n K Hn HK). intros j Hj. rewrite row_at_snoc. apply S3; auto. now apply valid_snoc. }
      rewrite B. destruct (valid_snoc_inv _ _ _ He) as [e0 [k [-> [H1 H2]]]]. rewrite (b_eq n ev K tau p dp t0 rho) by (auto; now apply in_indices).
      unfold val, onehot, pk. rewrite last_last, removelast_snoc. unfold rd_ops, dual_ops. cbn [o_add o_sub o_det real_ops fst snd]. destruct (Nat.eqb k _); cbn [fst snd]; f_equal; simpl; ring.
    + intros b b' H. apply (C_ext ev K c dc Hce). exact H.
    + reflexivity.
    + exists t. split; [exact T1|]. split; [exact T2|]. rewrite T3, average_dual.
      assert (Z : forall i, with_deriv l c dc (val i) = (c (onehot (pk (fun e => u (i :: e)))), 0)).
      { intros i. unfold with_deriv. unfold val. cbn [fst snd]. f_equal. transitivity (rsum (fun _ : idx => 0) l); [|apply rsum_zero].
        apply rsum_ext'. intros e He. change (fun e1 : idx => onehot (pk (fun k => u (i :: k))) e1) with (onehot (pk (fun k => u (i :: k)))). rewrite Hflat by exact He. ring. }
      rewrite (rsum_ext' (fun i => fst (with_deriv l c dc (val i))) (fun i => c (onehot (pk (fun e => u (i :: e)))))) by (intros i _; now rewrite Z).
      rewrite (rsum_ext' (fun i => snd (with_deriv l c dc (val i))) (fun _ => 0)) by (intros i _; now rewrite Z). rewrite rsum_zero, Rmult_0_r. reflexivity.
  - assert (PG : forall w, good K rows (pk w)) by (intros w; apply (pick_good n ev K tau p t0 Hn HK)).
    assert (EF : expect l (fun w => c (onehot (pk w))) (categorical K (pt t0) rows (fun b => c (onehot b)) b0)).
    { apply (options_law K (pt t0) rows b0 (fun b => c (onehot b)) (fun w => c (onehot (pk w))) ND P0).
      - intros w Hw. destruct (configs_any K rows b0 (pk w) ND (PG w)) as [b [B1 B2]]. exists b. split; [exact B1|]. apply Oe. intros r Hr. symmetry. now apply B2.
      - intros b w Hb Hw Hwin. apply Oe. apply (pick_wins ev K tau p t0 rho); auto. now apply (config_good K rows b0). }
    exact (proj2 (average_unbiased n l (fun w _ => c (onehot (pk w))) (fun w => c (onehot (pk w))) _ ltac:(lia) (noise_nodup K rows ND) (fun w _ => expect_const l _) EF)).
Qed.
End Gumbel.
