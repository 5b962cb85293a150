(** The derivatives of expectations of relaxed and resampled values, and the expectation of RELAX's gradient of one sample. *)
From Coq Require Import List Arith Bool Lia Reals Lra.
From Coquelicot Require Import Coquelicot.
From Verif Require Import SpecArm SpecExpect SpecRelax ArmMean RelaxedLaw Expect Expect2 RelaxSubst RelaxRows RelaxDiff RelaxExpect.
Import ListNotations.
Local Open Scope R_scope.

Lemma small_deriv : forall (dom : (idx -> R) -> Prop) f t0 f', derivable_pt_lim f t0 f' -> small dom (fun h _ => f (t0 + h) - f t0 - h * f').
Proof.
  intros dom f t0 f' H eps He. destruct (H eps He) as [q Hq]. exists q. split; [apply cond_pos|]. intros h u Hh _. destruct (Req_dec h 0) as [->|Hn]; [rewrite Rplus_0_r; replace (f t0 - f t0 - 0 * f') with 0 by ring; rewrite !Rabs_R0; lra|].
  specialize (Hq h Hn Hh). replace (f (t0 + h) - f t0 - h * f') with (((f (t0 + h) - f t0) / h - f') * h) by (field; exact Hn). rewrite Rabs_mult. apply Rmult_le_compat_r; [apply Rabs_pos|]. lra.
Qed.
Lemma small_scal : forall (dom : (idx -> R) -> Prop) c G, small dom G -> small dom (fun h u => c * G h u).
Proof. intros dom c G H. apply (small_mult dom (fun _ => c)); [exists (Rabs c); intros; lra|exact H]. Qed.

Section Moving.
Variable K : nat.
Variable rows : list idx.
Variable tau : R.
Variable p : idx -> nat -> R -> R.
Variable dp : idx -> nat -> R.
Variable t0 rho : R.
Hypothesis HK : (0 < K)%nat.
Hypothesis ND : NoDup rows.
Hypothesis Htau : 0 < tau.
Hypothesis Hrho : 0 < rho.
Notation pt := (fun t r j => p r j t).
Hypothesis Hp : forall t, Rabs (t - t0) < rho -> forall r, In r rows -> probs_row K (pt t) r.
Hypothesis Hdp : forall r j, In r rows -> (j < K)%nat -> derivable_pt_lim (p r j) t0 (dp r j).
Let l := noise K rows.
Let dom := open_cube l.
Lemma Hp0 : forall r, In r rows -> probs_row K (pt t0) r.
Proof. apply Hp. rewrite Rminus_eq_0, Rabs_R0. exact Hrho. Qed.
Lemma near : forall h, Rabs h < rho -> Rabs (t0 + h - t0) < rho. Proof. intros h H. now replace (t0 + h - t0) with h by ring. Qed.
Definition score (e : idx) : R := dp (row_of e) (opt e) / p (row_of e) (opt e) t0.

(** *** Relaxed samples *)
Variable c : (idx -> R) -> R.
Variable dc : idx -> (idx -> R) -> R.
Hypothesis Hc : smooth l c dc.
Definition Dz (u : idx -> R) : R := rsum (fun e => dc e (zz K tau (pt t0) u) * lin K (zz K tau (pt t0) u) (fun e => score e / tau) e) l.
Definition dlnp (h : R) (_ : idx -> R) (e : idx) : R := (ln (p (row_of e) (opt e) (t0 + h)) - ln (p (row_of e) (opt e) t0)) / tau.

Lemma dlnp_small : forall r j, In r rows -> (j < K)%nat -> small dom (fun h u => dlnp h u (key r j) - h * (score (key r j) / tau)).
Proof.
  intros r j Hr Hj. unfold dlnp, score. rewrite !row_key, !opt_key. pose proof (proj1 (Hp0 r Hr) j Hj) as P.
  apply (small_ext _ (fun h u => / tau * ((ln (p r j (t0 + h)) - ln (p r j t0)) - h * (/ p r j t0 * dp r j))) _ 1 Rlt_0_1); [intros; unfold Rdiv; ring|]. apply small_scal.
  apply (small_deriv dom (fun t => ln (p r j t))). apply (derivable_pt_lim_comp (p r j) ln); [now apply Hdp|]. now apply derivable_pt_lim_ln.
Qed.
Lemma wz_move : forall h u r j, Rabs h < rho -> dom u -> In r rows -> (j < K)%nat -> wz tau (pt (t0 + h)) u (key r j) = wz tau (pt t0) u (key r j) * exp (dlnp h u (key r j)).
Proof.
  intros h u r j Hh Hu Hr Hj. unfold wz, dlnp. rewrite !row_key, !opt_key. pose proof (proj1 (Hp0 r Hr) j Hj) as P. pose proof (proj1 (Hp _ (near h Hh) r Hr) j Hj) as P'. cbv beta in *.
  pose proof (ln_neg _ (Hu _ (in_l K rows r j Hr Hj))) as L. unfold psi. rewrite <- exp_plus. f_equal.
  assert (E : forall q, 0 < q -> ln (- (ln (u (key r j)) / q)) = ln (- ln (u (key r j))) - ln q).
  { intros q Hq. rewrite <- ln_div by lra. f_equal. unfold Rdiv. ring. }
  rewrite !E by lra. field. lra.
Qed.
Lemma zz_diff : small dom (fun h u => c (zz K tau (pt (t0 + h)) u) - c (zz K tau (pt t0) u) - h * Dz u).
Proof.
  pose proof (compose_diff K dom rows (wz tau (pt t0)) dlnp (fun _ e => score e / tau) HK) as Q.
  assert (Q1 : forall u r j, dom u -> In r rows -> (j < K)%nat -> 0 < wz tau (pt t0) u (key r j)) by (intros; apply wz_pos).
  specialize (Q Q1 dlnp_small). assert (Q2 : forall r j, In r rows -> (j < K)%nat -> bounded dom (fun _ => score (key r j) / tau)) by (intros r j _ _; exists (Rabs (score (key r j) / tau)); intros; lra).
  specialize (Q Q2 c dc Hc). cbv beta in Q. eapply (small_ext _ _ _ rho Hrho); [|exact Q]. intros h u Hh Hu. cbv beta. change (norm K (wz tau (pt t0) u)) with (zz K tau (pt t0) u). unfold Dz. f_equal. f_equal.
  destruct Hc as [CC _]. symmetry. apply (cont_out K rows); [exact CC|now apply zz_cube|]. intros e He. apply in_noise in He. destruct He as [r [j [Hr [-> Hj]]]]. unfold zz.
  rewrite <- (norm_shift K rows (wz tau (pt t0) u) (dlnp h u) r j) by (auto; intros; apply wz_pos). unfold norm. rewrite !row_key, wz_move by auto. f_equal. apply rowsum_ext. intros i Hi. now apply wz_move.
Qed.
Lemma Dz_expect : exists v, expect l Dz v.
Proof.
  apply (zz_expect K rows tau HK ND Htau (pt t0) Hp0 (fun z => rsum (fun e => dc e z * lin K z (fun e => score e / tau) e) l)). destruct Hc as [_ [CD _]].
  apply (cont_sum l l (fun e z => dc e z * lin K z (fun e => score e / tau) e)). intros e He. apply cont_mult; [now apply CD|]. apply (lin_cont K l rows (fun z => z) (fun _ e => score e / tau)); [intros; now apply cont_coord|intros; apply cont_const|exact He].
Qed.
Definition Cz (t : R) : R := ev l (fun u => c (zz K tau (pt t) u)).
Lemma Cz_expect : forall t, Rabs (t - t0) < rho -> expect l (fun u => c (zz K tau (pt t) u)) (Cz t).
Proof. intros t Ht. destruct Hc as [CC _]. destruct (zz_expect K rows tau HK ND Htau (pt t) (Hp t Ht) c CC) as [v Hv]. unfold Cz. exact (eq_ind_r (fun x => expect l (fun u => c (zz K tau (pt t) u)) x) Hv (expect_ev l (fun u => c (zz K tau (pt t) u)) v Hv)). Qed.
Theorem Cz_deriv : derivable_pt_lim Cz t0 (ev l Dz).
Proof.
  destruct Dz_expect as [d Hd]. rewrite (expect_ev _ _ _ Hd). apply (expect_derive l (fun t u => c (zz K tau (pt t) u)) Dz Cz t0 d rho Hrho Cz_expect Hd). intros eps He. destruct (zz_diff eps He) as [q [Hq Q]]. exists q. split; [exact Hq|]. intros h u Hh Hu. now apply Q.
Qed.

(** *** Resampled values *)
Section Conditional.
Variable b : idx -> nat.
Hypothesis Hb : good K rows b.
Definition dshare (v : idx -> R) (e : idx) : R := share (pt t0) b v e * score e / tau.
Definition Dc (v : idx -> R) : R := rsum (fun e => dc e (zc K tau (pt t0) b v) * lin K (zc K tau (pt t0) b v) (dshare v) e) l.
Definition eps_of (h : R) (e : idx) : R := p (row_of e) (opt e) t0 / p (row_of e) (opt e) (t0 + h) - 1.
Definition dcond (h : R) (v : idx -> R) (e : idx) : R := if Nat.eqb (opt e) (b (row_of e)) then 0 else - ln (1 + share (pt t0) b v e * eps_of h e) / tau.

Lemma eps_small : forall r j, In r rows -> (j < K)%nat -> small dom (fun h _ => eps_of h (key r j) - h * - score (key r j)).
Proof.
  intros r j Hr Hj. unfold eps_of, score. rewrite !row_key, !opt_key. pose proof (proj1 (Hp0 r Hr) j Hj) as P.
  apply (small_ext _ (fun h u => p r j t0 * (/ p r j (t0 + h) - / p r j t0 - h * (- dp r j / Rsqr (p r j t0)))) _ 1 Rlt_0_1); [intros; unfold Rsqr, Rdiv; cbv beta in *; rewrite Rinv_mult; match goal with |- _ = p r j t0 * ?x - 1 - _ => generalize x; intro y end; field; lra|]. apply small_scal.
  apply (small_deriv dom (fun t => / p r j t)). pose proof (derivable_pt_lim_div (fct_cte 1) (p r j) t0 0 (dp r j) (derivable_pt_lim_const 1 t0) (Hdp r j Hr Hj) ltac:(cbv beta in P; lra)) as D.
  apply is_derive_Reals in D. apply is_derive_Reals. cbv beta in P. replace (- dp r j / Rsqr (p r j t0)) with ((0 * p r j t0 - dp r j * fct_cte 1 t0) / Rsqr (p r j t0)) by (unfold fct_cte, Rdiv; ring). eapply is_derive_ext; [|exact D]. intros t. unfold div_fct, fct_cte, Rdiv. lazymatch goal with |- @eq _ ?a ?b => change (@eq R a b) end. ring.
Qed.
Lemma dcond_small : forall r j, In r rows -> (j < K)%nat -> small dom (fun h v => dcond h v (key r j) - h * dshare v (key r j)).
Proof.
  intros r j Hr Hj. unfold dcond, dshare. rewrite !row_key, !opt_key. destruct (Nat.eqb j (b r)) eqn:E.
  { apply (small_ext _ (fun _ _ => 0) _ 1 Rlt_0_1); [|apply small_zero]. intros h u _ _. unfold share. rewrite row_key, opt_key, E. unfold Rdiv. ring. }
  apply (small_ext _ (fun h v => - / tau * ((ln (1 + share (pt t0) b v (key r j) * eps_of h (key r j)) - share (pt t0) b v (key r j) * eps_of h (key r j)) + share (pt t0) b v (key r j) * (eps_of h (key r j) - h * - score (key r j)))) _ 1 Rlt_0_1); [intros; unfold Rdiv; ring|].
  apply small_scal. apply small_plus.
  - destruct (small_linear dom (fun h _ => eps_of h (key r j)) (fun _ => - score (key r j)) (eps_small r j Hr Hj)) as [A [q [Hq Q]]]; [exists (Rabs (- score (key r j))); intros; lra|].
    set (A' := Rmax A 1). assert (HA : 1 <= A') by apply Rmax_r. assert (Hq' : 0 < Rmin q (/ (2 * A'))) by (apply Rmin_glb_lt; [exact Hq|apply Rinv_0_lt_compat; lra]).
    apply (small_square dom _ (2 * (A' * A')) _ Hq'). intros h u Hh Hu. pose proof (Rmin_l q (/ (2 * A'))). pose proof (Rmin_r q (/ (2 * A'))). specialize (Q h u ltac:(lra) Hu). cbv beta in Q.
    assert (Q' : Rabs (eps_of h (key r j)) <= A' * Rabs h) by (eapply Rle_trans; [exact Q|]; apply Rmult_le_compat_r; [apply Rabs_pos|apply Rmax_l]).
    pose proof (share_range K rows (pt t0) Hp0 b u (key r j) Hb Hu (in_l K rows r j Hr Hj)) as S. set (s := share (pt t0) b u (key r j)) in *. set (x := eps_of h (key r j)) in *.
    assert (Sx : Rabs (s * x) <= A' * Rabs h). { rewrite Rabs_mult, (Rabs_pos_eq s) by lra. pose proof (Rabs_pos x). assert (s * Rabs x <= 1 * Rabs x) by (apply Rmult_le_compat_r; lra). lra. }
    assert (H12 : A' * Rabs h <= 1 / 2). { assert (A' * Rabs h <= A' * / (2 * A')) by (apply Rmult_le_compat_l; lra). replace (A' * / (2 * A')) with (1 / 2) in H1 by (field; lra). exact H1. }
    eapply Rle_trans; [apply ln_near; lra|]. pose proof (Rabs_pos (s * x)). replace (s * x * (s * x)) with (Rabs (s * x) * Rabs (s * x)) by (rewrite <- Rabs_mult; apply Rabs_pos_eq; apply Rle_0_sqr).
    assert (Rabs (s * x) * Rabs (s * x) <= (A' * Rabs h) * (A' * Rabs h)) by (apply Rmult_le_compat; lra). lra.
  - apply (small_mult dom (fun v => share (pt t0) b v (key r j))); [|now apply eps_small]. exists 1. intros u Hu. pose proof (share_range K rows (pt t0) Hp0 b u (key r j) Hb Hu (in_l K rows r j Hr Hj)). rewrite Rabs_pos_eq; lra.
Qed.
Lemma dshare_bounded : forall r j, In r rows -> (j < K)%nat -> bounded dom (fun v => dshare v (key r j)).
Proof.
  intros r j Hr Hj. exists (Rabs (score (key r j) / tau)). intros u Hu. unfold dshare. pose proof (share_range K rows (pt t0) Hp0 b u (key r j) Hb Hu (in_l K rows r j Hr Hj)).
  unfold Rdiv. rewrite Rmult_assoc, Rabs_mult, (Rabs_pos_eq (share _ _ _ _)) by lra. pose proof (Rabs_pos (score (key r j) * / tau)). 
  assert (share (pt t0) b u (key r j) * Rabs (score (key r j) * / tau) <= 1 * Rabs (score (key r j) * / tau)) by (apply Rmult_le_compat_r; lra). lra.
Qed.
Lemma wc_move : forall h u r j, Rabs h < rho -> dom u -> In r rows -> (j < K)%nat -> wc tau (pt (t0 + h)) b u (key r j) = wc tau (pt t0) b u (key r j) * exp (dcond h u (key r j)).
Proof.
  intros h u r j Hh Hu Hr Hj. unfold wc, dcond, share, eps_of. rewrite !row_key, !opt_key. pose proof (proj1 (Hp0 r Hr) j Hj) as P. pose proof (proj1 (Hp _ (near h Hh) r Hr) j Hj) as P'. cbv beta in *.
  pose proof (ln_neg _ (Hu _ (in_l K rows r j Hr Hj))) as L. pose proof (ln_neg _ (Hu _ (in_l K rows r (b r) Hr (Hb r Hr)))) as Lb. destruct Nat.eqb; [rewrite exp_0; ring|].
  unfold psi. rewrite <- exp_plus. f_equal. set (x := - ln (u (key r j))). set (y := - ln (u (key r (b r)))). assert (Hx : 0 < x) by (unfold x; lra). assert (Hy : 0 < y) by (unfold y; lra).
  assert (E : forall q, - (ln (u (key r j)) / q) - ln (u (key r (b r))) = x / q + y) by (intros; unfold x, y, Rdiv; ring). rewrite !E. assert (E2 : - (ln (u (key r j)) / p r j t0) = x / p r j t0) by (unfold x, Rdiv; ring). rewrite E2.
  pose proof (Rdiv_lt_0_compat _ _ Hx P) as R1. pose proof (Rdiv_lt_0_compat _ _ Hx P') as R2.
  assert (E3 : 1 + x / p r j t0 / (x / p r j t0 + y) * (p r j t0 / p r j (t0 + h) - 1) = (x / p r j (t0 + h) + y) / (x / p r j t0 + y)).
  { field. repeat split; try lra. pose proof (Rmult_lt_0_compat _ _ Hy P). lra. }
  rewrite E3, ln_div by lra. field. lra.
Qed.
Lemma zc_diff : small dom (fun h u => c (zc K tau (pt (t0 + h)) b u) - c (zc K tau (pt t0) b u) - h * Dc u).
Proof.
  pose proof (compose_diff K dom rows (wc tau (pt t0) b) dcond dshare HK) as Q.
  assert (Q1 : forall u r j, dom u -> In r rows -> (j < K)%nat -> 0 < wc tau (pt t0) b u (key r j)) by (intros; apply wc_pos).
  specialize (Q Q1 dcond_small dshare_bounded c dc Hc). cbv beta in Q. eapply (small_ext _ _ _ rho Hrho); [|exact Q]. intros h u Hh Hu. cbv beta. change (norm K (wc tau (pt t0) b u)) with (zc K tau (pt t0) b u). unfold Dc. f_equal. f_equal.
  destruct Hc as [CC _]. symmetry. apply (cont_out K rows); [exact CC|now apply zc_cube|]. intros e He. apply in_noise in He. destruct He as [r [j [Hr [-> Hj]]]]. unfold zc.
  rewrite <- (norm_shift K rows (wc tau (pt t0) b u) (dcond h u) r j) by (auto; intros; apply wc_pos). unfold norm. rewrite !row_key, wc_move by auto. f_equal. apply rowsum_ext. intros i Hi. now apply wc_move.
Qed.
Lemma Dc_expect : exists v, expect l Dc v.
Proof.
  pose proof Hc as [CC [CD _]]. assert (BD : bounded dom Dc).
  { unfold Dc. apply (bounded_sum dom l (fun e u => dc e (zc K tau (pt t0) b u) * lin K (zc K tau (pt t0) b u) (dshare u) e)). intros e He. apply bounded_mult.
    - destruct (CD e He) as [[B HB] _]. exists B. intros u _. apply HB. now apply zc_cube.
    - apply in_noise in He. destruct He as [r [j [Hr [-> Hj]]]]. apply (lin_bounded K dom rows (wc tau (pt t0) b) dshare HK); auto; [intros; apply wc_pos|apply dshare_bounded]. }
  destruct BD as [B HB]. apply (expect_open l _ B); [now apply noise_nodup|exact HB| |].
  - intros eps He. unfold Dc. apply (cont_sum l l (fun e u => dc e (zc K tau (pt t0) b (squash eps u)) * lin K (zc K tau (pt t0) b (squash eps u)) (dshare (squash eps u)) e)). intros e Hin.
    assert (CZ : forall e, In e l -> cont_on l (fun u => zc K tau (pt t0) b (squash eps u) e)) by (intros; apply (zc_cont K rows tau Htau (pt t0) Hp0); auto).
    apply cont_mult.
    + apply (cont_vec l l (dc e) (fun e u => zc K tau (pt t0) b (squash eps u) e)); [now apply CD|exact CZ|]. intros e' u He' _. now apply (zc_cube K rows tau HK).
    + apply (lin_cont K l rows (fun u => zc K tau (pt t0) b (squash eps u)) (fun u => dshare (squash eps u))); [exact CZ| |exact Hin].
      intros e' He'. unfold dshare. apply (cont_ext l (fun u => score e' / tau * share (pt t0) b (squash eps u) e')); [intros; unfold Rdiv; ring|]. apply cont_scal. now apply (share_cont K rows (pt t0) Hp0).
  - intros u w _ _ E. unfold Dc. assert (EZ : forall e, In e l -> zc K tau (pt t0) b u e = zc K tau (pt t0) b w e) by (intros e He; now apply (same_z K rows tau (pt t0) b u w e E Hb)).
    apply rsum_ext'. intros e He. f_equal; [apply (cont_out K rows); [now apply CD|now apply zc_cube|exact EZ]|].
    assert (ES : forall e, In e l -> dshare u e = dshare w e) by (intros e' He'; unfold dshare; now rewrite (proj2 (proj2 (same_w K rows tau (pt t0) b u w e' E Hb He')))).
    unfold lin. rewrite EZ, ES by exact He. f_equal. f_equal. apply in_noise in He. destruct He as [r [j [Hr [-> Hj]]]]. rewrite row_key. apply rowsum_ext. intros i Hi. now rewrite EZ, ES by now apply in_l.
Qed.
Definition Cc (t : R) : R := ev l (fun u => c (zc K tau (pt t) b u)).
Lemma Cc_expect : forall t, Rabs (t - t0) < rho -> expect l (fun u => c (zc K tau (pt t) b u)) (Cc t).
Proof. intros t Ht. destruct Hc as [CC _]. destruct (zc_expect K rows tau HK ND Htau (pt t) (Hp t Ht) b c Hb CC) as [v Hv]. unfold Cc. exact (eq_ind_r (fun x => expect l (fun u => c (zc K tau (pt t) b u)) x) Hv (expect_ev l (fun u => c (zc K tau (pt t) b u)) v Hv)). Qed.
Theorem Cc_deriv : derivable_pt_lim Cc t0 (ev l Dc).
Proof.
  destruct Dc_expect as [d Hd]. rewrite (expect_ev _ _ _ Hd). apply (expect_derive l (fun t u => c (zc K tau (pt t) b u)) Dc Cc t0 d rho Hrho Cc_expect Hd). intros eps He. destruct (zc_diff eps He) as [q [Hq Q]]. exists q. split; [exact Hq|]. intros h u Hh Hu. now apply Q.
Qed.
End Conditional.
End Moving.
