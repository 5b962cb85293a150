(** The loss of a program with RELAX on numbers with a derivative, and its expectation. *)
From Coq Require Import String List Arith Bool ZArith Lia Reals Lra.
From Coquelicot Require Import Coquelicot.
From Verif Require Import Base Torch Plates Wrap Scalar Reduce Graph Surrogate Estimators Arm Relax SpecTensor SpecSurrogate SpecArm SpecExpect SpecRelax ListLemmas Dual ProgramWitness
  BiasProofs2 ArmMean ArmProofs2 RelaxedLaw Expect Expect2 RelaxSubst RelaxRows RelaxDiff RelaxExpect RelaxGrad RelaxUnbiased AnyPlate RelaxLoss.
From Verif Require Relaxed.
Import ListNotations.
Local Open Scope R_scope.

(** What torch computes on numbers with a derivative. *)
Definition rd_ln (x : RD) : RD := (ln (fst x), snd x / fst x).
Definition rd_div (x y : RD) : RD := (fst x / fst y, (snd x * fst y - fst x * snd y) / (fst y * fst y)).
Definition rd_lt (x y : RD) : bool := if Rlt_dec (fst x) (fst y) then true else false.
Definition rd_true (x : RD) : bool := if Req_EM_T (fst x) 0 then false else true.
Definition rd_clamp (eps : R) (x : RD) : RD := (Relaxed.clamp_probs eps (fst x), if Rle_dec eps (fst x) then if Rle_dec (fst x) (1 - eps) then snd x else 0 else 0).
Definition rd_rops (eps : R) : rops RD := mkR rd_ln rd_div rd_lt rd_true (rd_clamp eps).
(** These are the derivatives. *)
Lemma rd_ln_right : forall (f : R -> R) df t0, derivable_pt_lim f t0 df -> 0 < f t0 -> derivable_pt_lim (fun t => ln (f t)) t0 (snd (rd_ln (f t0, df))).
Proof.
  intros f df t0 D P. cbn [rd_ln fst snd]. replace (df / f t0) with (/ f t0 * df) by (unfold Rdiv; ring).
  apply (derivable_pt_lim_comp f ln t0 df (/ f t0)); [exact D|]. now apply derivable_pt_lim_ln.
Qed.
Lemma rd_div_right : forall (f g : R -> R) df dg t0, derivable_pt_lim f t0 df -> derivable_pt_lim g t0 dg -> g t0 <> 0 ->
  derivable_pt_lim (fun t => f t / g t) t0 (snd (rd_div (f t0, df) (g t0, dg))).
Proof.
  intros f g df dg t0 D1 D2 N. cbn [rd_div fst snd]. pose proof (derivable_pt_lim_div f g t0 df dg D1 D2 N) as D.
  replace ((df * g t0 - f t0 * dg) / (g t0 * g t0)) with ((df * g t0 - dg * f t0) / (g t0)²) by (unfold Rsqr; f_equal; ring). exact D.
Qed.
Lemma clamp_id : forall x, 0 <= fst x <= 1 -> rd_clamp 0 x = x.
Proof.
  intros [x d] [H1 H2]. unfold rd_clamp, Relaxed.clamp_probs. cbn [fst snd] in *. rewrite Rmax_left by lra. rewrite Rminus_0_r, Rmin_left by lra.
  destruct (Rle_dec 0 x); [|lra]. destruct (Rle_dec x 1); [reflexivity|lra].
Qed.

(** The noise as a tensor, the probabilities as a tensor, the options a sample stands for, and a control variate with its derivative. *)
Definition uniform (ev : list nat) (K : nat) (u : idx -> R) (k : nat) : ten RD := mkten (k :: ev ++ [K]) (fun i => (u i, 0)).
(** The noise of conditional samples has the shape of the samples: Monte Carlo sampling removes the dimension of a single sample. *)
Definition uniform_like (ev : list nat) (K : nat) (u : idx -> R) (n : nat) : ten RD := if Nat.eqb n 1 then squeeze0 (uniform ev K u 1) else uniform ev K u n.
Lemma like_el : forall ev K u n i e, (i < n)%nat -> el (uniform_like ev K u n) (AnyPlate.pre n i ++ e) = (u (i :: e), 0).
Proof.
  intros ev K u n i e Hi. unfold uniform_like, AnyPlate.pre. destruct (Nat.eqb n 1) eqn:E.
  - apply Nat.eqb_eq in E. subst n. replace i with 0%nat by lia. reflexivity.
  - apply Nat.eqb_neq in E. replace (Nat.ltb 1 n) with true by (symmetry; apply Nat.ltb_lt; lia). reflexivity.
Qed.
Definition prob_ten (ev : list nat) (K : nat) (p : idx -> nat -> R -> R) (dp : idx -> nat -> R) (t0 : R) : ten RD :=
  mkten (ev ++ [K]) (fun e => (p (removelast e) (last e 0%nat) t0, dp (removelast e) (last e 0%nat))).
Definition options (K : nat) (v : idx -> RD) (r : idx) : nat := match find (fun j => if Req_EM_T (fst (v (r ++ [j]))) 1 then true else false) (seq 0 K) with Some j => j | None => 0%nat end.
Definition on_options (K : nat) (f : (idx -> nat) -> R -> R) (df : (idx -> nat) -> R) (t0 : R) (v : idx -> RD) : RD := (f (options K v) t0, df (options K v)).
Definition with_deriv (l : list idx) (c : (idx -> R) -> R) (dc : idx -> (idx -> R) -> R) (z : idx -> RD) : RD :=
  (c (fun e => fst (z e)), rsum (fun e => dc e (fun e => fst (z e)) * snd (z e)) l).

Lemma indices_snoc : forall ev K, indices (ev ++ [K]) = noise K (indices ev).
Proof.
  induction ev as [|n ev IH]; intros K.
  - cbn [app indices]. unfold noise, cells. cbn [flat_map]. rewrite app_nil_r. induction (seq 0 K) as [|j s IH]; [reflexivity|]. cbn [flat_map map app]. f_equal; exact IH.
  - cbn [app indices]. rewrite IH. unfold noise. induction (seq 0 n) as [|i s IHs]; [reflexivity|]. cbn [flat_map]. rewrite flat_map_app. f_equal; [|exact IHs].
    clear IH IHs. induction (indices ev) as [|e es IHe]; [reflexivity|]. cbn [flat_map map]. rewrite map_app, IHe. f_equal. unfold cells. rewrite map_map. reflexivity.
Qed.
Lemma indices_each : forall n s, indices (n :: s) = each n (indices s).
Proof. reflexivity. Qed.

(** The first largest element. *)
Lemma argmax_fst : forall eps s s' m js, (forall j, In j (m :: js) -> fst (s j) = fst (s' j)) -> argmax_from (rd_rops eps) s m js = argmax_from (rd_rops eps) s' m js.
Proof.
  intros eps s s' m js. revert m. induction js as [|j js IH]; intros m H; [reflexivity|]. cbn [argmax_from rd_rops r_lt]. unfold rd_lt. rewrite (H m), (H j) by (simpl; auto).
  destruct (Rlt_dec (fst (s' m)) (fst (s' j))); apply IH; intros k Hk; apply H; simpl in *; tauto.
Qed.
Lemma argmax_strict : forall eps s k m js, In k (m :: js) -> (forall j, In j (m :: js) -> j <> k -> fst (s j) < fst (s k)) -> argmax_from (rd_rops eps) s m js = k.
Proof.
  intros eps s k m js. revert m. induction js as [|j js IH]; intros m Hk H; [destruct Hk as [Hk|[]]; exact Hk|]. cbn [argmax_from rd_rops r_lt]. unfold rd_lt.
  destruct (Rlt_dec (fst (s m)) (fst (s j))) as [L|L].
  - apply IH; [|intros i Hi; apply H; now right]. destruct Hk as [<-|Hk]; [|exact Hk]. destruct (Nat.eq_dec j m) as [->|N]; [lra|]. specialize (H j (or_intror (or_introl eq_refl)) N). lra.
  - apply IH; [|intros i [<-|Hi]; apply H; simpl; auto]. destruct Hk as [<-|[<-|Hk]]; [now left| |now right]. destruct (Nat.eq_dec m j) as [->|N]; [now left|]. specialize (H m (or_introl eq_refl) N). lra.
Qed.
Lemma row_strict : forall eps K s k, (k < K)%nat -> (forall j, (j < K)%nat -> j <> k -> fst (s j) < fst (s k)) -> row_argmax (rd_rops eps) K s = k.
Proof.
  intros eps K s k Hk H. unfold row_argmax. apply argmax_strict.
  - destruct k; [now left|right; apply in_seq; lia].
  - intros j [<-|Hj] N; apply H; auto; [lia|]. apply in_seq in Hj. lia.
Qed.
Lemma row_fst : forall eps K s s', (0 < K)%nat -> (forall j, (j < K)%nat -> fst (s j) = fst (s' j)) -> row_argmax (rd_rops eps) K s = row_argmax (rd_rops eps) K s'.
Proof. intros eps K s s' HK H. apply argmax_fst. intros j [<-|Hj]; [now apply H|]. apply in_seq in Hj. apply H. lia. Qed.

(** Softmax of numbers with a derivative. *)
Lemma softmax_dual : forall eps K (s : nat -> RD) (w d : idx -> R) r j, (0 < K)%nat -> (forall k, (k < K)%nat -> exp (fst (s k)) = w (key r k)) -> (forall k, (k < K)%nat -> snd (s k) = d (key r k)) -> (j < K)%nat ->
  row_softmax rd_ops rd_exp (rd_rops eps) K s j = (norm K w (key r j), lin K (norm K w) d (key r j)).
Proof.
  intros eps K s w d r j HK Hw Hd Hj. unfold row_softmax. rewrite rd_osum.
  assert (E1 : rsum (fun k => fst (rd_exp (s k))) (seq 0 K) = rowsum K w r).
  { apply rsum_ext'. intros k Hk. apply in_seq in Hk. apply Hw. lia. }
  assert (E2 : rsum (fun k => snd (rd_exp (s k))) (seq 0 K) = rowsum K (fun e => w e * d e) r).
  { apply rsum_ext'. intros k Hk. apply in_seq in Hk. change (exp (fst (s k)) * snd (s k) = w (key r k) * d (key r k)). rewrite Hw, Hd by lia. reflexivity. }
  rewrite E1, E2. assert (P : 0 < rowsum K w r) by (apply (rowsum_pos K w r 0); [|exact HK]; intros k Hk; rewrite <- (Hw k Hk); apply exp_pos).
  cbn [rd_rops r_ln]. unfold rd_ln, rd_exp, dual_exp, rd_ops, dual_ops. cbn [fst snd o_sub o_mul real_ops].
  assert (E3 : exp (fst (s j) - ln (rowsum K w r)) = norm K w (key r j)).
  { unfold Rminus. rewrite exp_plus, exp_Ropp, exp_ln by exact P. rewrite (Hw j Hj). unfold norm. rewrite row_key. reflexivity. }
  rewrite E3. f_equal. unfold lin. rewrite row_key, (Hd j Hj). f_equal. f_equal.
  unfold norm at 1. transitivity (/ rowsum K w r * rowsum K (fun e => w e * d e) r); [unfold Rdiv; ring|]. rewrite <- rowsum_scal. apply rowsum_ext. intros k Hk. rewrite row_key. unfold Rdiv. ring.
Qed.

Lemma find_ext_in : forall {A} (f g : A -> bool) l, (forall x, In x l -> f x = g x) -> find f l = find g l.
Proof. intros A f g l. induction l as [|x l IH]; intros H; [reflexivity|]. cbn [find]. rewrite (H x (or_introl eq_refl)), IH by (intros; apply H; now right). reflexivity. Qed.

Section Dual.
Variable n : nat.
Variable ev : list nat.
Variable K : nat.
Variable tau : R.
Variable p : idx -> nat -> R -> R.
Variable dp : idx -> nat -> R.
Variable t0 rho : R.
Hypothesis Hn : (1 <= n)%nat.
Hypothesis HK : (0 < K)%nat.
Hypothesis Htau : 0 < tau.
Hypothesis Hrho : 0 < rho.
Notation pt := (fun t r j => p r j t).
Let rows := indices ev.
Let l := noise K rows.
Hypothesis Hp : forall t, Rabs (t - t0) < rho -> forall r, In r rows -> probs_row K (pt t) r.
Hypothesis Hdp : forall r j, In r rows -> (j < K)%nat -> derivable_pt_lim (p r j) t0 (dp r j).
Variable c : (idx -> R) -> R.
Variable dc : idx -> (idx -> R) -> R.
Hypothesis Hc : smooth l c dc.
Hypothesis Hce : forall z z', (forall e, In e l -> z e = z' e) -> c z = c z' /\ forall e, In e l -> dc e z = dc e z'.
Variable f : (idx -> nat) -> R -> R.
Variable df : (idx -> nat) -> R.
Hypothesis Hf : forall b, derivable_pt_lim (f b) t0 (df b).
Hypothesis Hfe : forall b b', (forall r, In r rows -> b r = b' r) -> forall t, f b t = f b' t.
Variable eta : R.

Let Hp0 := Hp0 K rows p t0 rho Hrho Hp.
Let ND : NoDup rows := NoDup_indices ev.
Notation ro := (rd_rops 0).
Notation probs := (prob_ten ev K p dp t0).
Notation dtau := ((tau, 0) : RD).
Notation deta := ((eta, 0) : RD).
Notation F := (on_options K f df t0).
Notation C := (with_deriv l c dc).
Notation U u := (uniform ev K u).
Notation Zval u := (zval rd_ops rd_exp ro dtau n K (U u) probs).
Notation Bval u := (bval rd_ops rd_exp ro dtau n K (U u) probs).
Notation Tval u v := (tval rd_ops rd_exp ro dtau n K (U u) (uniform_like ev K v n) probs).
Notation sub i u := (fun e => u (i :: e) : R).

Lemma p_in : forall r j, In r rows -> (j < K)%nat -> 0 < p r j t0 <= 1.
Proof. intros r j Hr Hj. split; [now apply (proj1 (Hp0 r Hr))|]. now apply (probs_le K (pt t0) r j (Hp0 r Hr)). Qed.
Lemma prow_eq : forall r j, prow probs r j = (p r j t0, dp r j).
Proof. intros r j. unfold prow, prob_ten. cbn [el]. now rewrite removelast_snoc, last_last. Qed.

Lemma open_sub : forall u i, open_cube (each n l) u -> (i < n)%nat -> open_cube l (sub i u).
Proof. intros u i H Hi e He. apply H, in_each. exists i, e. auto. Qed.

Definition pick (w : idx -> R) (r : idx) : nat := row_argmax ro K (fun j => (zz K tau (pt t0) w (key r j), 0)).

Lemma wz_eq : forall w r j, open_cube l w -> In r rows -> (j < K)%nat -> exp ((ln (p r j t0) - ln (- ln (w (key r j)))) / tau) = wz tau (pt t0) w (key r j).
Proof.
  intros w r j Hw Hr Hj. unfold wz, psi. rewrite row_key, opt_key. f_equal. f_equal. pose proof (p_in r j Hr Hj) as P. pose proof (ln_neg _ (Hw _ (in_l K rows r j Hr Hj))) as L.
  cbv beta. replace (- (ln (w (key r j)) / p r j t0)) with ((- ln (w (key r j))) / p r j t0) by (unfold Rdiv; ring). rewrite ln_div by lra. ring.
Qed.
Lemma z_eq : forall u i r j, open_cube (each n l) u -> (i < n)%nat -> In r rows -> (j < K)%nat ->
  Zval u i (r ++ [j]) = (zz K tau (pt t0) (sub i u) (key r j), lin K (zz K tau (pt t0) (sub i u)) (fun e => score p dp t0 e / tau) (key r j)).
Proof.
  intros u i r j Hu Hi Hr Hj. pose proof (open_sub u i Hu Hi) as Hw. unfold zval. rewrite removelast_snoc, last_last. unfold Relax.relaxed_row.
  assert (S : forall k, (k < K)%nat -> r_div ro (o_sub rd_ops (r_ln ro (r_clamp ro (prow probs r k))) (r_ln ro (o_opp rd_ops (r_ln ro (r_clamp ro (el (U u n) (i :: r ++ [k]))))))) dtau =
     ((ln (p r k t0) - ln (- ln (u (i :: key r k)))) / tau, dp r k / p r k t0 / tau)).
  { intros k Hk. rewrite prow_eq. cbn [uniform el]. pose proof (p_in r k Hr Hk) as P. pose proof (Hw _ (in_l K rows r k Hr Hk)) as W. cbv beta in W. unfold key in W.
    cbn [rd_rops r_clamp r_ln r_div]. rewrite !clamp_id by (cbn [fst]; lra). unfold rd_ln, rd_div, rd_ops, dual_ops. cbn [fst snd o_sub o_opp real_ops]. unfold key. pose proof (ln_neg _ W). f_equal. field. repeat split; lra. }
  apply (softmax_dual 0 K _ (wz tau (pt t0) (sub i u)) (fun e => score p dp t0 e / tau) r j HK).
  - intros k Hk. rewrite (S k Hk). cbn [fst]. now apply (wz_eq (sub i u)).
  - intros k Hk. rewrite (S k Hk). cbn [snd]. unfold score. now rewrite row_key, opt_key.
  - exact Hj.
Qed.

(** The option chosen. *)
Lemma pick_range : forall w r, (pick w r < K)%nat.
Proof. intros w r. exact (row_argmax_range rd_recip ro n K Hn HK _). Qed.
Lemma pick_good : forall w, good K rows (pick w).
Proof. intros w r _. apply pick_range. Qed.
Lemma pick_wins : forall w b, open_cube l w -> good K rows b -> wins K (pt t0) rows b w = true -> forall r, In r rows -> pick w r = b r.
Proof.
  intros w b Hw Hb Hwin r Hr. unfold pick. apply row_strict; [now apply Hb|]. intros j Hj Nj. cbn [fst].
  unfold wins in Hwin. rewrite forallb_forall in Hwin. assert (A : ahead w (key r j, key r (b r), p r j t0 / p r (b r) t0) = true).
  { apply Hwin. unfold races. apply in_flat_map. exists r. split; [exact Hr|]. unfold races_row. apply in_map_iff. exists j. split; [reflexivity|]. now apply in_rest. }
  unfold ahead in A. destruct Rlt_dec as [L|L] in A; [|discriminate]. clear A.
  pose proof (Hw _ (in_l K rows r j Hr Hj)) as Wj. pose proof (Hw _ (in_l K rows r (b r) Hr (Hb r Hr))) as Wb. rewrite pw_pos in L by lra.
  pose proof (p_in r j Hr Hj) as Pj. pose proof (p_in r (b r) Hr (Hb r Hr)) as Pb.
  assert (L' : ln (w (key r j)) < p r j t0 / p r (b r) t0 * ln (w (key r (b r)))) by (rewrite <- (ln_exp (p r j t0 / p r (b r) t0 * ln (w (key r (b r))))); apply ln_increasing; lra).
  pose proof (ln_neg _ Wj) as Nj'. pose proof (ln_neg _ Wb) as Nb'.
  unfold zz, norm. rewrite !row_key. unfold Rdiv at 1 2. apply Rmult_lt_compat_r.
  - apply Rinv_0_lt_compat. apply (rowsum_pos K _ r j); [intros; apply wz_pos|exact Hj].
  - unfold wz, psi. rewrite !row_key, !opt_key. cbv beta. apply exp_increasing. unfold Rdiv at 1 3. apply Rmult_lt_compat_r; [now apply Rinv_0_lt_compat|]. apply Ropp_lt_contravar. apply ln_increasing.
    + replace (- (ln (w (key r (b r))) / p r (b r) t0)) with ((- ln (w (key r (b r)))) / p r (b r) t0) by (unfold Rdiv; ring). apply Rdiv_lt_0_compat; lra.
    + apply Ropp_lt_contravar. apply (Rmult_lt_reg_l (p r j t0)); [lra|]. replace (p r j t0 * (ln (w (key r j)) / p r j t0)) with (ln (w (key r j))) by (field; lra).
      replace (p r j t0 * (ln (w (key r (b r))) / p r (b r) t0)) with (p r j t0 / p r (b r) t0 * ln (w (key r (b r)))) by (unfold Rdiv; ring). exact L'.
Qed.
Lemma b_eq : forall u i r j, open_cube (each n l) u -> (i < n)%nat -> In r rows ->
  Bval u i (r ++ [j]) = if Nat.eqb j (pick (sub i u) r) then (1, 0) else (0, 0).
Proof.
  intros u i r j Hu Hi Hr. unfold bval. rewrite removelast_snoc, last_last. unfold hard_row.
  replace (row_argmax ro K (zrow rd_ops rd_exp ro dtau n K (U u) probs i r)) with (pick (sub i u) r); [reflexivity|].
  unfold pick. apply row_fst; [exact HK|]. intros k Hk. unfold zrow. rewrite z_eq by auto. reflexivity.
Qed.
Lemma b_argmax : forall u i r, open_cube (each n l) u -> (i < n)%nat -> In r rows -> row_argmax ro K (brow rd_ops rd_exp ro dtau n K (U u) probs i r) = pick (sub i u) r.
Proof.
  intros u i r Hu Hi Hr. apply row_strict; [apply pick_range|]. intros j Hj Nj. unfold brow. rewrite !b_eq by auto. rewrite Nat.eqb_refl.
  replace (Nat.eqb j (pick (sub i u) r)) with false by (symmetry; now apply Nat.eqb_neq). cbn [fst]. lra.
Qed.
Lemma find_one : forall k m a, (a <= k < a + m)%nat -> find (fun j => if Req_EM_T (fst (if Nat.eqb j k then (1, 0) else (0, 0))) 1 then true else false) (seq a m) = Some k.
Proof.
  intros k m. induction m as [|m IH]; intros a H; [lia|]. cbn [seq find]. destruct (Nat.eqb_spec a k) as [->|N]; cbn [fst].
  - destruct (Req_EM_T 1 1); [reflexivity|lra].
  - destruct (Req_EM_T 0 1); [lra|]. apply IH. lia.
Qed.
Lemma options_eq : forall u i r, open_cube (each n l) u -> (i < n)%nat -> In r rows -> options K (Bval u i) r = pick (sub i u) r.
Proof.
  intros u i r Hu Hi Hr. unfold options. rewrite (find_ext_in _ (fun j => if Req_EM_T (fst (if Nat.eqb j (pick (sub i u) r) then (1, 0) else (0, 0))) 1 then true else false)).
  - rewrite find_one; [reflexivity|]. pose proof (pick_range (sub i u) r). lia.
  - intros j _. rewrite b_eq by auto. reflexivity.
Qed.
Lemma cost_eq : forall u i, open_cube (each n l) u -> (i < n)%nat -> cost_val rd_ops rd_exp ro dtau n K F (U u) probs i = (f (pick (sub i u)) t0, df (pick (sub i u))).
Proof.
  intros u i Hu Hi. unfold cost_val, on_options.
  assert (E : forall r, In r rows -> options K (Bval u i) r = pick (sub i u) r) by (intros; now apply options_eq).
  rewrite (Hfe _ _ E t0). rewrite (df_ext rows t0 f df Hf Hfe _ _ E). reflexivity.
Qed.
Lemma lp_eq : forall u i r, open_cube (each n l) u -> (i < n)%nat -> In r rows ->
  lval rd_ops rd_exp ro dtau n K (U u) probs i r = (ln (p r (pick (sub i u) r) t0), dp r (pick (sub i u) r) / p r (pick (sub i u) r) t0).
Proof.
  intros u i r Hu Hi Hr. unfold lval, log_prob_row. rewrite b_argmax by auto. rewrite prow_eq. pose proof (p_in r _ Hr (pick_range (sub i u) r)) as P.
  cbn [rd_rops r_clamp r_ln]. rewrite clamp_id by (cbn [fst]; lra). reflexivity.
Qed.
Lemma t_eq : forall u v i r j, open_cube (each n l) u -> open_cube (each n l) v -> (i < n)%nat -> In r rows -> (j < K)%nat ->
  Tval u v i (r ++ [j]) = (zc K tau (pt t0) (pick (sub i u)) (sub i v) (key r j), lin K (zc K tau (pt t0) (pick (sub i u)) (sub i v)) (dshare tau p dp t0 (pick (sub i u)) (sub i v)) (key r j)).
Proof.
  intros u v i r j Hu Hv Hi Hr Hj. pose proof (open_sub v i Hv Hi) as Hw. unfold tval. rewrite removelast_snoc, last_last. unfold Relax.cond_row. cbv zeta.
  rewrite b_argmax by auto. set (b := pick (sub i u)) in *. pose proof (pick_range (sub i u) r) as Rb. fold b in Rb.
  apply (softmax_dual 0 K _ (wc tau (pt t0) b (sub i v)) (dshare tau p dp t0 b (sub i v)) r j HK); [| |exact Hj].
  all: intros k Hk; unfold brow; rewrite b_eq by auto; fold b; rewrite prow_eq; rewrite ?like_el by exact Hi;
    pose proof (p_in r k Hr Hk) as P; pose proof (Hw _ (in_l K rows r k Hr Hk)) as W; pose proof (Hw _ (in_l K rows r (b r) Hr Rb)) as Wb; cbv beta in W, Wb;
    pose proof (ln_neg _ W) as N; pose proof (ln_neg _ Wb) as Nb; cbn [rd_rops r_true r_clamp r_ln r_div]; rewrite !clamp_id by (cbn [fst]; unfold key in *; lra).
  - unfold wc. rewrite row_key, opt_key. destruct (Nat.eqb k (b r)) eqn:E; unfold rd_true, psi; cbn [fst].
    + destruct (Req_EM_T 1 0); [lra|]. reflexivity.
    + destruct (Req_EM_T 0 0); [|lra]. reflexivity.
  - unfold dshare, share, score. rewrite row_key, opt_key. destruct (Nat.eqb k (b r)) eqn:E; unfold rd_true; cbn [fst].
    + destruct (Req_EM_T 1 0); [lra|]. unfold rd_div, rd_ln, rd_ops, dual_ops. cbn [fst snd o_opp o_sub real_ops]. unfold key in *. field. repeat split; lra.
    + destruct (Req_EM_T 0 0); [|lra]. unfold rd_div, rd_ln, rd_ops, dual_ops. cbn [fst snd o_opp o_sub real_ops]. unfold key in *.
      assert (X : 0 < - (ln (v (i :: r ++ [k])) / p r k t0) - ln (v (i :: r ++ [b r]))).
      { assert (0 < (- ln (v (i :: r ++ [k]))) / p r k t0) by (apply Rdiv_lt_0_compat; lra). unfold Rdiv in *. lra. }
      set (y := ln (v (i :: r ++ [k]))) in *. set (yb := ln (v (i :: r ++ [b r]))) in *.
      assert (X' : - y - yb * p r k t0 <> 0).
      { intros E0. assert (Q : - (y / p r k t0) - yb = (- y - yb * p r k t0) / p r k t0) by (field; lra). rewrite Q, E0 in X. unfold Rdiv in X. rewrite Rmult_0_l in X. lra. }
      field. repeat split; try lra.
Qed.

Notation Dz := (Dz K rows tau p dp t0 dc).
Notation Dc b := (Dc K rows tau p dp t0 dc b).
Lemma with_eq : forall (z : idx -> RD) (w d : idx -> R), (forall e, In e l -> z e = (w e, d e)) -> C z = (c w, rsum (fun e => dc e w * d e) l).
Proof.
  intros z w d H. unfold with_deriv. destruct (Hce (fun e => fst (z e)) w) as [E1 E2]; [intros e He; now rewrite H|]. rewrite E1. f_equal.
  apply rsum_ext'. intros e He. rewrite (E2 e He), (H e He). reflexivity.
Qed.
Lemma cz_eq : forall u i, open_cube (each n l) u -> (i < n)%nat -> C (Zval u i) = (c (zz K tau (pt t0) (sub i u)), Dz (sub i u)).
Proof. intros u i Hu Hi. apply (with_eq _ (zz K tau (pt t0) (sub i u)) (lin K (zz K tau (pt t0) (sub i u)) (fun e => score p dp t0 e / tau))). intros e He. apply in_noise in He. destruct He as [r [j [Hr [-> Hj]]]]. now apply z_eq. Qed.
Lemma ct_eq : forall u v i, open_cube (each n l) u -> open_cube (each n l) v -> (i < n)%nat ->
  C (Tval u v i) = (c (zc K tau (pt t0) (pick (sub i u)) (sub i v)), Dc (pick (sub i u)) (sub i v)).
Proof.
  intros u v i Hu Hv Hi. apply (with_eq _ (zc K tau (pt t0) (pick (sub i u)) (sub i v)) (lin K (zc K tau (pt t0) (pick (sub i u)) (sub i v)) (dshare tau p dp t0 (pick (sub i u)) (sub i v)))).
  intros e He. apply in_noise in He. destruct He as [r [j [Hr [-> Hj]]]]. now apply t_eq.
Qed.
Lemma lsum_eq : forall u i, open_cube (each n l) u -> (i < n)%nat -> snd (lsum rd_ops rd_exp ro dtau n ev K (U u) probs i) = dlog rows p dp t0 (pick (sub i u)).
Proof. intros u i Hu Hi. unfold lsum. rewrite rd_osum. cbn [snd]. unfold dlog. apply rsum_ext'. intros r Hr. rewrite lp_eq by auto. reflexivity. Qed.
Lemma box_eq : forall x : RD, box rd_ops rd_exp x = (1, snd x).
Proof. intros [x d]. unfold box, rd_exp, dual_exp, rd_ops, dual_ops. cbn [o_sub o_det o_mul o_zero real_ops fst snd]. rewrite Rminus_eq_0, exp_0. f_equal. ring. Qed.

Definition relax_total (u v : idx -> R) : RD :=
  osum rd_ops (map (fun i => o_mul rd_ops (rd_recip n) (o_mul rd_ops (box rd_ops rd_exp (lsum rd_ops rd_exp ro dtau n ev K (U u) probs i))
    (o_add rd_ops (variate rd_ops rd_exp ro dtau deta n ev K C (U u) (uniform_like ev K v n) probs i) (cost_val rd_ops rd_exp ro dtau n K F (U u) probs i)))) (seq 0 n)).
Notation grad := (sample_grad K rows tau p dp t0 c dc f df eta pick).
Lemma total_eq : forall u v, open_cube (each n l) u -> open_cube (each n l) v ->
  relax_total u v = (/ INR n * rsum (fun i => f (pick (sub i u)) t0) (seq 0 n), / INR n * rsum (fun i => grad (sub i u) (sub i v)) (seq 0 n)).
Proof.
  intros u v Hu Hv. unfold relax_total. rewrite rd_osum. rewrite <- !rsum_scal.
  assert (E : forall i, In i (seq 0 n) -> o_mul rd_ops (rd_recip n) (o_mul rd_ops (box rd_ops rd_exp (lsum rd_ops rd_exp ro dtau n ev K (U u) probs i))
    (o_add rd_ops (variate rd_ops rd_exp ro dtau deta n ev K C (U u) (uniform_like ev K v n) probs i) (cost_val rd_ops rd_exp ro dtau n K F (U u) probs i))) =
    (/ INR n * f (pick (sub i u)) t0, / INR n * grad (sub i u) (sub i v))).
  { intros i Hi. apply in_seq in Hi. assert (Hi' : (i < n)%nat) by lia. unfold variate. cbv zeta. rewrite !box_eq, lsum_eq, cost_eq, cz_eq, ct_eq by auto.
    unfold sample_grad, two, rd_recip, rd_ops, dual_ops. cbn [o_add o_mul o_sub o_det o_one o_zero real_ops fst snd]. cbv zeta. f_equal; ring. }
  f_equal; apply rsum_ext'; intros i Hi; rewrite (E i Hi); reflexivity.
Qed.

Lemma F_ext : forall b b' : idx -> RD, (forall e, valid e (ev ++ [K]) -> b e = b' e) -> F b = F b'.
Proof.
  intros b b' H. assert (E : forall r, In r rows -> options K b r = options K b' r).
  { intros r Hr. apply in_indices in Hr. unfold options.
    rewrite (find_ext_in (fun j => if Req_EM_T (fst (b (r ++ [j]))) 1 then true else false) (fun j => if Req_EM_T (fst (b' (r ++ [j]))) 1 then true else false)); [reflexivity|].
    intros j Hj. apply in_seq in Hj. rewrite H by (apply valid_snoc; [exact Hr|lia]). reflexivity. }
  unfold on_options. rewrite (Hfe _ _ E t0), (df_ext rows t0 f df Hf Hfe _ _ E). reflexivity.
Qed.
Lemma in_l_valid : forall e, In e l <-> valid e (ev ++ [K]).
Proof. intros e. unfold l, rows. rewrite <- indices_snoc. apply in_indices. Qed.
Lemma C_ext : forall z z' : idx -> RD, (forall e, valid e (ev ++ [K]) -> z e = z' e) -> C z = C z'.
Proof.
  intros z z' H. rewrite (with_eq z' (fun e => fst (z' e)) (fun e => snd (z' e))) by (intros; apply surjective_pairing).
  apply with_eq. intros e He. apply in_l_valid in He. rewrite (H e He). apply surjective_pairing.
Qed.

Variable b0 : idx -> nat.
Definition cost_mean (t : R) : R := categorical K (pt t) rows (fun b => f b t) b0.
Theorem relax_gradient : forall veq anc_unwrap name base, ev <> [] \/ n = 1%nat -> exists (loss : (idx -> R) -> (idx -> R) -> RD) gradient h,
  (forall u v, exists t, relax_program veq anc_unwrap rd_ops rd_exp rd_recip ro dtau name n deta F C (U u) (uniform_like ev K v n) probs base = Ok t /\ shape t = [] /\ el t [] = loss u v) /\
  derivable_pt_lim cost_mean t0 gradient /\
  (forall u, open_cube (indices (n :: ev ++ [K])) u -> expect (indices (n :: ev ++ [K])) (fun v => snd (loss u v)) (h u)) /\
  expect (indices (n :: ev ++ [K])) h gradient /\
  (forall v, open_cube (indices (n :: ev ++ [K])) v -> expect (indices (n :: ev ++ [K])) (fun u => fst (loss u v)) (cost_mean t0)).
Proof.
  intros veq anc name base Hev. exists relax_total.
  destruct (sample_unbiased K rows tau p dp t0 rho HK ND Htau Hrho Hp Hdp b0 c dc Hc f df Hf Hfe eta pick (fun w _ => pick_good w) pick_wins) as [S1 [S2 S3]].
  pose proof (noise_nodup K rows ND) as NL.
  destruct (average_unbiased n l grad (sample_mean K rows tau p dp t0 c dc f df eta pick) _ ltac:(lia) NL S1 S2) as [A1 A2].
  eexists. eexists. split; [|split; [|split; [|split]]].
  - intros u v. apply (relax_loss veq anc rd_ops rd_ring rd_exp rd_recip ro dtau deta name n ev K F C (U u) (uniform_like ev K v n) probs); auto.
    + exact F_ext.
    + exact C_ext.
  - exact S3.
  - rewrite indices_each, indices_snoc. fold rows. fold l. intros u Hu. eapply expect_ext; [|exact (A1 u Hu)]. intros v Hv. cbv beta. rewrite total_eq by auto. reflexivity.
  - rewrite indices_each, indices_snoc. fold rows. fold l. exact A2.
  - rewrite indices_each, indices_snoc. fold rows. fold l. intros v Hv.
    assert (EF : expect l (fun w => f (pick w) t0) (cost_mean t0)).
    { apply (options_law K (pt t0) rows b0 (fun b => f b t0) (fun w => f (pick w) t0) ND Hp0).
      - intros w Hw. destruct (configs_any K rows b0 (pick w) ND (pick_good w)) as [b [B1 B2]]. exists b. split; [exact B1|]. apply Hfe. intros r Hr. symmetry. now apply B2.
      - intros b w Hb Hw Hwin. apply Hfe. apply pick_wins; auto. now apply (config_good K rows b0). }
    destruct (average_unbiased n l (fun w _ => f (pick w) t0) (fun w => f (pick w) t0) _ ltac:(lia) NL (fun w _ => expect_const l _) EF) as [_ A3].
    eapply expect_ext; [|exact A3]. intros u Hu. cbv beta. rewrite total_eq by auto. reflexivity.
Qed.
End Dual.
