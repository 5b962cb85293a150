(** Examples for the unordered set estimator. *)
From Coq Require Import Reals List Arith Bool Lra Lia.
From Verif Require Import Gumbel GumbelProofs SworWeights Unordered SpecUnordered UnorderedProofs.
Import ListNotations.
Local Open Scope R_scope.

Lemma ln_below : forall x, 0 < x -> ln x <= x - 1.
Proof.
  intros x Hx. destruct (Req_dec (ln x) 0) as [E|E].
  - rewrite E. assert (exp (ln x) = 1) by (rewrite E; apply exp_0). rewrite exp_ln in * by auto. lra.
  - pose proof (exp_ineq1 (ln x) E). rewrite exp_ln in * by auto. lra.
Qed.

(** Two samples with probabilities in the ratio 1 : 2, scaled so that all exponents are whole numbers. *)
Definition w_A : R := 4 / (1 + l_eps).
Definition w_lps : list R := [ln (1 / w_A); ln (2 / w_A)].
Definition w_cost (s : nat) : R := match s with 0%nat => 1 | _ => 0 end.
Lemma A_val : w_A * (1 + l_eps) = 4.
Proof. unfold w_A. pose proof eps_pos. field. lra. Qed.
Lemma eps_small : 0 < l_eps < 1 / 100.
Proof. split; [apply eps_pos|]. unfold l_eps. lra. Qed.
Lemma A_bounds : 3 < w_A < 4.
Proof. pose proof A_val. pose proof eps_small. nra. Qed.
Lemma w_p0 : exp (nth 0 w_lps 0) = / w_A.
Proof. pose proof A_bounds. simpl. rewrite exp_ln; [field; lra|]. apply Rmult_lt_0_compat; [lra|apply Rinv_0_lt_compat; lra]. Qed.
Lemma w_p1 : exp (nth 1 w_lps 0) = 2 * / w_A.
Proof. pose proof A_bounds. simpl. rewrite exp_ln; [field; lra|]. apply Rmult_lt_0_compat; [lra|apply Rinv_0_lt_compat; lra]. Qed.
Lemma w_sum : total (map exp w_lps) = 3 * / w_A.
Proof.
  change (map exp w_lps) with [exp (nth 0 w_lps 0); exp (nth 1 w_lps 0)]. rewrite w_p0, w_p1. unfold total. simpl. ring.
Qed.
Lemma w_sum_le : total (map exp w_lps) <= 1.
Proof.
  rewrite w_sum. pose proof A_bounds. assert (w_A * / w_A = 1) by (apply Rinv_r; lra). assert (0 < / w_A) by (apply Rinv_0_lt_compat; lra). nra.
Qed.
Lemma ln3_bounds : 1 < INR 3 /\ 0 < ln (INR 3) <= 2.
Proof.
  replace (INR 3) with 3 by (simpl; lra). split; [lra|]. split; [rewrite <- ln_1; apply ln_increasing; lra|]. pose proof (ln_below 3). lra.
Qed.
Lemma w_small : ln w_A + ln (ln (INR 3)) < 10.
Proof.
  pose proof A_bounds. pose proof (ln_below w_A). pose proof ln3_bounds. pose proof (ln_below (ln (INR 3))). lra.
Qed.
Notation wp := (fun s => exp (nth s w_lps 0)).
Lemma w_rest : rest l_eps 2 wp * exp (ln w_A) - 1 = 0.
Proof.
  pose proof A_bounds. change (rest l_eps 2 wp) with (rest l_eps (length w_lps) wp). rewrite (rest_val w_lps). rewrite w_sum, exp_ln by lra. pose proof A_val.
  replace ((1 - 3 * / w_A + l_eps) * w_A) with (w_A * (1 + l_eps) - 3) by (field; lra). lra.
Qed.
Lemma power_0 : forall v, power v 0 = 1.
Proof. intros v. unfold power. rewrite Rmult_0_l. apply exp_0. Qed.
Lemma w_f0 : forall v, 0 < v -> factor (ln w_A) l_eps wp v 0 = 1 - v + l_eps.
Proof.
  intros v Hv. pose proof A_bounds. unfold factor, power. rewrite w_p0, exp_ln by lra. rewrite Rinv_l by lra. rewrite Rmult_1_l, exp_ln by auto. reflexivity.
Qed.
Lemma w_f1 : forall v, 0 < v -> factor (ln w_A) l_eps wp v 1 = 1 - v * v + l_eps.
Proof.
  intros v Hv. pose proof A_bounds. unfold factor, power. rewrite w_p1, exp_ln by lra. replace (2 * / w_A * w_A) with 2 by (field; lra).
  replace (2 * ln v) with (ln v + ln v) by ring. rewrite exp_plus, exp_ln by auto. reflexivity.
Qed.
Lemma w_baseline : u_baseline 3 (ln w_A) w_lps w_cost 1 <> set_baseline 3 (ln w_A) l_eps 2 wp w_cost 1.
Proof.
  rewrite (baseline_val 3 (ln w_A) w_lps ltac:(lia) ltac:(discriminate) w_sum_le w_small) by (simpl; lia).
  unfold set_baseline, second_ratio. change (length w_lps) with 2%nat. cbn [seq map total fold_right Nat.eqb w_cost].
  rewrite w_p0. unfold twice, mass. change (length w_lps) with 2%nat. rewrite w_rest.
  cbn [Nat.sub seq map total fold_right filter but but2 Nat.eqb negb andb product].
  assert (E1 : INR 1 / INR 3 = 1 / 3) by (simpl; field). assert (E2 : INR 2 / INR 3 = 2 / 3) by (simpl; field). rewrite E1, E2.
  rewrite !power_0, !w_f0, !w_f1 by lra. pose proof eps_small as He. pose proof A_bounds.
  assert (0 < / w_A) by (apply Rinv_0_lt_compat; lra).
  set (e := l_eps) in *. intros K.
  assert (K2 : (1 * ((1 - 1 / 3 * (1 / 3) + e) * 1 / (1 - 1 / 3 + e)) + (1 * ((1 - 2 / 3 * (2 / 3) + e) * 1 / (1 - 2 / 3 + e)) + 0)) /
         (1 * ((1 - 1 / 3 * (1 / 3) + e) * 1) + (1 * ((1 - 2 / 3 * (2 / 3) + e) * 1) + 0)) =
         (1 * 1 + (1 * 1 + 0)) / (1 * ((1 - 1 / 3 + e) * 1) + (1 * ((1 - 2 / 3 + e) * 1) + 0))).
  { apply Rmult_eq_reg_l with (/ w_A); [|lra]. lra. }
  clear K. assert (K3 : ((8 / 9 + e) * (1 / 3 + e) + (5 / 9 + e) * (2 / 3 + e)) * (1 + 2 * e) = 2 * (13 / 9 + 2 * e) * (2 / 3 + e) * (1 / 3 + e)).
  { apply Rmult_eq_reg_r with (/ ((2 / 3 + e) * (1 / 3 + e) * (13 / 9 + 2 * e) * (1 + 2 * e))).
    2:{ apply Rinv_neq_0_compat. repeat apply Rmult_integral_contrapositive_currified; lra. }
    transitivity (((1 * ((1 - 1 / 3 * (1 / 3) + e) * 1 / (1 - 1 / 3 + e)) + (1 * ((1 - 2 / 3 * (2 / 3) + e) * 1 / (1 - 2 / 3 + e)) + 0)) /
         (1 * ((1 - 1 / 3 * (1 / 3) + e) * 1) + (1 * ((1 - 2 / 3 * (2 / 3) + e) * 1) + 0)))).
    - field. repeat split; lra.
    - rewrite K2. field. repeat split; lra. }
  nra.
Qed.

(** One sample with probability one and one integration point: the series of the code is used outside its range. *)
Lemma s_series : forall e, 0 <= e <= 1 -> u_weight 2 11 [0] 0 <> leave_one_out 2 11 e 1 (fun s => exp (nth s [0] 0)) 0.
Proof.
  intros e He. assert (V : INR 1 / INR 2 = / 2) by (simpl; field).
  assert (L2 : 1 / 2 < - ln (/ 2) < 1).
  { rewrite ln_Rinv by lra. rewrite Ropp_involutive. split.
    - assert (exp (1 / 2) < 2).
      { pose proof (exp_pos (1 / 2)). assert (exp (1 / 2) * exp (1 / 2) = exp 1) by (rewrite <- exp_plus; f_equal; lra). pose proof exp_le_3. nra. }
      rewrite <- (ln_exp (1 / 2)). apply ln_increasing; [apply exp_pos|auto].
    - replace 1 with (ln (exp 1)) by apply ln_exp. apply ln_increasing; [lra|]. pose proof (exp_ineq1 1). lra. }
  set (g := 0 + 11 + ln (- ln (/ 2))).
  assert (G : 10 <= g < 11).
  { unfold g. assert (ln (/ 2) < ln (- ln (/ 2)) < ln 1) by (split; apply ln_increasing; lra). rewrite ln_1 in *. lra. }
  assert (Y : 1024 <= exp g).
  { assert (2 <= exp 1) by (pose proof (exp_ineq1 1); lra).
    assert (P : forall n, 2 ^ n <= exp (INR n)).
    { induction n as [|n IH]; [simpl; rewrite exp_0; lra|]. rewrite S_INR, exp_plus. cbn [pow]. assert (0 < 2 ^ n) by (apply pow_lt; lra). nra. }
    specialize (P 10%nat). assert (exp (INR 10) <= exp g). { assert (INR 10 <= g) by (simpl; lra). destruct (Req_dec (INR 10) g) as [->|]; [lra|]. left. apply exp_increasing. lra. }
    simpl pow in P. lra. }
  assert (T : u_term 11 0 (/ 2) <= - 2).
  { unfold u_term. fold g. destruct Rle_dec; [|lra]. set (y := exp g) in *. assert (y ^ 4 = y ^ 2 * y ^ 2) by ring. assert (y ^ 2 = y * y) by ring. assert (y * y >= 1024 * 1024) by nra. nra. }
  assert (W : u_weight 2 11 [0] 0 = exp (- u_term 11 0 (/ 2))).
  { unfold u_weight, log_p_without, log_p_S, int_points, logsumexp. cbn [Nat.sub seq map]. rewrite V. unfold rsum. cbn [fold_right].
    rewrite !Rplus_0_r, !ln_exp. unfold u_without, lp_of. cbn [nth]. f_equal. ring. }
  rewrite W. unfold leave_one_out, mass. cbn [Nat.sub seq map total fold_right filter but all Nat.eqb negb product nth]. rewrite V, exp_0.
  set (P := power _ _). assert (0 < P) by (apply exp_pos).
  assert (F : 1 / 2 <= factor 11 e (fun s => exp (nth s [0] 0)) (/ 2) 0).
  { unfold factor, power. cbn [nth]. rewrite exp_0. assert (exp (1 * exp 11 * ln (/ 2)) <= 1 / 2); [|lra].
    rewrite <- (exp_ln (1 / 2)) by lra. assert (ln (1 / 2) = ln (/ 2)) by (f_equal; lra). rewrite H0. assert (1 < exp 11) by (pose proof (exp_ineq1 11); lra).
    left. apply exp_increasing. nra. }
  set (f := factor _ _ _ _ _) in *. intros K.
  assert (K2 : exp (- u_term 11 0 (/ 2)) * f = 1).
  { rewrite K. field. split; nra. }
  assert (2 < exp (- u_term 11 0 (/ 2))). { pose proof (exp_ineq1 2). assert (exp 2 <= exp (- u_term 11 0 (/ 2))). { destruct (Req_dec 2 (- u_term 11 0 (/ 2))) as [<-|]; [lra|]. left. apply exp_increasing. lra. } lra. }
  nra.
Qed.
