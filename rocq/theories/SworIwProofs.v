(** The expectation of the weights of sampling without replacement. *)
From Coq Require Import Reals List Arith Bool Lia Lra.
From Coquelicot Require Import Coquelicot.
From Verif Require Import Base Torch Gumbel GumbelProofs Swor SworWeights SpecSwor ListLemmas.
Import ListNotations.
Local Open Scope R_scope.

(** ** Two options of equal probability *)
Definition lhalf : R := ln (/ 2).
Definition pair_var (u v : R) : var :=
  mkVar [] false (fun _ _ => [lhalf; lhalf]) (fun _ _ => [gumbel_rsample lhalf u; gumbel_rsample lhalf v]).
(** The weight as a function of the uniform numbers. *)
Definition wgt (lo hi : R) : R := / 2 / (1 + iw_eps - exp (- / 2) * (lo * exp (l_eps * ln lo)) / hi).
Definition wgt2 (u v : R) : R := wgt (Rmin u v) (Rmax u v).

Lemma exp_lhalf : exp lhalf = / 2. Proof. unfold lhalf. apply exp_ln. lra. Qed.
Lemma ln_neg : forall u, 0 < u < 1 -> ln u < 0.
Proof. intros u H. rewrite <- ln_1. apply ln_increasing; lra. Qed.
Lemma exp_gumbel : forall u, 0 < u < 1 -> exp (0 - gumbel_rsample lhalf u) = - 2 * ln u.
Proof.
  intros u H. unfold gumbel_rsample. replace (0 - (lhalf - ln (- ln u))) with (- lhalf + ln (- ln u)) by lra. pose proof (ln_neg u H).
  rewrite exp_plus, exp_ln, exp_Ropp, exp_lhalf by lra. lra.
Qed.
Lemma gumbel_mono : forall u v, 0 < u < 1 -> 0 < v < 1 -> u <= v -> gumbel_rsample lhalf u <= gumbel_rsample lhalf v.
Proof.
  intros u v Hu Hv [H| ->]; [|lra]. unfold gumbel_rsample. pose proof (ln_neg u Hu). pose proof (ln_neg v Hv). assert (ln u < ln v) by (apply ln_increasing; lra).
  assert (ln (- ln v) < ln (- ln u)) by (apply ln_increasing; lra). lra.
Qed.
Lemma iw_eps_pos : 0 < iw_eps. Proof. unfold iw_eps. lra. Qed.

(** The weight for the lower of two conditional Gumbels as threshold. *)
Lemma low_weight : forall u v, 0 < u < 1 -> 0 < v < 1 -> u <= v ->
  exp lhalf / (iw_q (Some (cond_gumbel_one 0 (gumbel_rsample lhalf v) (gumbel_rsample lhalf u))) lhalf + iw_eps) = wgt u v.
Proof.
  intros u v Hu Hv H. rewrite cond_value by now apply gumbel_mono. rewrite !exp_gumbel by assumption. unfold iw_q, wgt. rewrite exp_lhalf. f_equal.
  pose proof (ln_neg u Hu). pose proof (ln_neg v Hv). pose proof eps_pos.
  assert (L : ln u <= ln v) by (destruct H as [H|E]; [left; apply ln_increasing; lra|rewrite E; lra]).
  replace (lhalf - (0 - ln (1 + (1 + l_eps) * (-2 * ln u) - -2 * ln v))) with (lhalf + ln (1 + (1 + l_eps) * (-2 * ln u) - -2 * ln v)) by lra.
  rewrite exp_plus, exp_ln, exp_lhalf by nra.
  replace (- (/ 2 * (1 + (1 + l_eps) * (-2 * ln u) - -2 * ln v))) with (- / 2 + (ln u + l_eps * ln u) + - ln v) by lra.
  rewrite !exp_plus, (exp_ln u), (exp_Ropp (ln v)), (exp_ln v) by lra. unfold Rdiv. ring.
Qed.

Lemma lmax2 : forall a b, lmax [a; b] = Rmax a b. Proof. reflexivity. Qed.
Lemma pair_sampled : forall topk, topk_fn ple topk -> forall u v, 0 < u < 1 -> 0 < v < 1 ->
  exists rows p s joint, sample_var (select_swor topk 2) 2 None (pair_var u v) sstart = Ok (rows, p, s) /\ length rows = 2%nat /\ NoDup rows /\
    ss_joint s = Some joint /\ total (compute_iw joint (ss_pert s)) = wgt2 u v.
Proof.
  intros topk Hk u v Hu Hv. unfold sample_var, decode, sstart, pair_var. cbn [ss_fin ss_joint ss_pert bind option_map v_events v_lp v_noise v_cond].
  unfold decode_events. cbn [v_events lprod fold_right seq fold_left v_cond v_lp v_noise].
  unfold decode_step. cbn [b_joint b_rows b_parent b_amt b_pert]. unfold select_swor. rewrite map_length, cond_length. cbn [length Nat.min].
  set (g := map Some (cond_gumbel 0 [gumbel_rsample lhalf u; gumbel_rsample lhalf v])).
  assert (Hg : length g = 2%nat) by reflexivity.
  destruct (Hk g 2%nat ltac:(rewrite Hg; lia)) as [T1 [T2 [T3 [T4 T5]]]]. set (idx := topk g 2%nat) in *. clearbody idx.
  destruct idx as [|i [|j [|? ?]]]; try discriminate T2.
  assert (Hi : (i < 2)%nat) by (rewrite <- Hg; apply T3; now left). assert (Hj : (j < 2)%nat) by (rewrite <- Hg; apply T3; right; now left).
  assert (Hij : i <> j) by (inversion T1 as [|? ? N1 _]; subst; intros ->; apply N1; now left).
  cbn [length Nat.ltb Nat.leb]. cbn.
  set (gu := gumbel_rsample lhalf u) in *. set (gv := gumbel_rsample lhalf v) in *.
  assert (Lu : gu <= Rmax gu gv) by apply Rmax_l. assert (Lv : gv <= Rmax gu gv) by apply Rmax_r.
  assert (Mono : forall a b, 0 < a < 1 -> 0 < b < 1 -> a < b -> gumbel_rsample lhalf a < gumbel_rsample lhalf b).
  { intros a b Ha Hb H. unfold gumbel_rsample. pose proof (ln_neg a Ha). pose proof (ln_neg b Hb). assert (ln a < ln b) by (apply ln_increasing; lra).
    assert (ln (- ln b) < ln (- ln a)) by (apply ln_increasing; lra). lra. }
  assert (C : (i = 0 /\ j = 1 \/ i = 1 /\ j = 0)%nat) by lia. destruct C as [[-> ->]|[-> ->]].
  - specialize (T5 0%nat 1%nat _ _ _ _ ltac:(lia) eq_refl eq_refl eq_refl eq_refl). cbn [ple] in T5. rewrite lmax2 in T5.
    assert (V : v <= u).
    { destruct (Rle_dec v u) as [Y|Y]; [exact Y|]. exfalso. assert (G : gu < gv) by (apply Mono; lra). apply (cond_mono 0 (Rmax gu gv) gu gv Lu Lv) in G. lra. }
    eexists _, _, _, _. split; [reflexivity|]. split; [reflexivity|]. split; [repeat constructor; simpl; intuition discriminate|]. split; [reflexivity|].
    unfold compute_iw. cbn [ss_pert length nth Nat.sub map firstn skipn app total fold_right]. rewrite (Rmax_left gu gv) by now apply gumbel_mono.
    unfold gu, gv. rewrite low_weight by assumption. unfold wgt2. rewrite Rmin_right, Rmax_left by exact V. cbn [ss_pert length nth Nat.sub skipn fold_right]. lra.
  - specialize (T5 0%nat 1%nat _ _ _ _ ltac:(lia) eq_refl eq_refl eq_refl eq_refl). cbn [ple] in T5. rewrite lmax2 in T5.
    assert (V : u <= v).
    { destruct (Rle_dec u v) as [Y|Y]; [exact Y|]. exfalso. assert (G : gv < gu) by (apply Mono; lra). apply (cond_mono 0 (Rmax gu gv) gv gu Lv Lu) in G. lra. }
    eexists _, _, _, _. split; [reflexivity|]. split; [reflexivity|]. split; [repeat constructor; simpl; intuition discriminate|]. split; [reflexivity|].
    unfold compute_iw. cbn [ss_pert length nth Nat.sub map firstn skipn app total fold_right]. rewrite (Rmax_right gu gv) by now apply gumbel_mono.
    unfold gu, gv. rewrite low_weight by assumption. unfold wgt2. rewrite Rmin_left, Rmax_right by exact V. cbn [ss_pert length nth Nat.sub skipn fold_right]. lra.
Qed.

(** ** Its mean over the noise of one option *)
Definition chord : R := / 2 * exp (- / 2) / (1 - exp (- / 2)).
Lemma c_bounds : 0 < exp (- / 2) /\ exp (- / 2) < 614 / 1000.
Proof.
  split; [apply exp_pos|]. rewrite exp_Ropp. assert (163 / 100 < exp (/ 2)).
  { assert (H : 1 + / 32 < exp (/ 32)) by (apply exp_ineq1; lra).
    assert (S : forall x y, 0 < x -> x < exp y -> x * x < exp (2 * y)) by (intros x y H0 H1; replace (2 * y) with (y + y) by lra; rewrite exp_plus; nra).
    apply S in H; [|lra]. apply S in H; [|lra]. apply S in H; [|lra]. apply S in H; [|lra].
    replace (2 * (2 * (2 * (2 * / 32)))) with (/ 2) in H by lra. lra. }
  apply (Rmult_lt_reg_r (exp (/ 2))); [lra|]. rewrite Rinv_l by lra. lra.
Qed.
Lemma pow_le : forall x, 0 < x <= 1 -> exp (l_eps * ln x) <= 1.
Proof.
  intros x Hx. assert (ln x <= 0) by (rewrite <- ln_1; destruct (proj2 Hx) as [L|E]; [left; apply ln_increasing; lra|rewrite E; lra]). pose proof eps_pos.
  assert (E : l_eps * ln x <= 0) by nra. destruct E as [E|E]; [left; rewrite <- exp_0; now apply exp_increasing|rewrite E, exp_0; lra].
Qed.
Lemma wgt_le : forall lo hi, 0 < lo <= hi -> hi <= 1 -> 0 <= wgt lo hi <= / 2 + chord * (lo / hi).
Proof.
  intros lo hi H1 H2. unfold wgt, chord. destruct c_bounds as [C1 C2]. set (c := exp (- / 2)) in *. pose proof (pow_le lo ltac:(lra)) as P1. pose proof (exp_pos (l_eps * ln lo)) as P0.
  set (e := exp (l_eps * ln lo)) in *. pose proof iw_eps_pos as I. set (r := lo / hi).
  assert (R1 : 0 < r) by (apply Rdiv_lt_0_compat; lra). assert (R2 : r <= 1) by (apply (Rmult_le_reg_r hi); [lra|]; unfold r, Rdiv; rewrite Rmult_assoc, Rinv_l; lra).
  replace (c * (lo * e) / hi) with (c * e * r) by (unfold r; field; lra).
  assert (K : 0 <= c * r * (1 - e)) by (apply Rmult_le_pos; [nra|lra]). assert (D : 1 - c * r <= 1 + iw_eps - c * e * r) by lra. assert (D0 : 0 < 1 - c * r) by nra.
  split; [apply Rlt_le, Rdiv_lt_0_compat; lra|].
  apply Rle_trans with (/ 2 / (1 - c * r)).
  - unfold Rdiv. apply Rmult_le_compat_l; [lra|]. apply Rinv_le_contravar; lra.
  - apply (Rmult_le_reg_r (1 - c * r)); [lra|]. unfold Rdiv at 1. rewrite Rmult_assoc, Rinv_l, Rmult_1_r by lra.
    replace (/ 2 * c / (1 - c) * r) with (/ 2 * (c * r) / (1 - c)) by (field; lra).
    apply (Rmult_le_reg_r (1 - c)); [lra|]. replace ((/ 2 + / 2 * (c * r) / (1 - c)) * (1 - c * r) * (1 - c)) with (/ 2 * (1 - c + c * r) * (1 - c * r)) by (field; lra). nra.
Qed.
Lemma ln_junk : forall x, x <= 0 -> ln x = 0.
Proof. intros x Hx. unfold ln. destruct (Rlt_dec 0 x) as [C|C]; [exfalso; lra|reflexivity]. Qed.
Lemma pow_cont : forall x, 0 <= x -> continuous (fun u => u * exp (l_eps * ln u)) x.
Proof.
  intros x [Hx|<-].
  - apply (ex_derive_continuous (V := R_NormedModule)). auto_derive. repeat split; auto.
  - apply continuity_pt_filterlim. intros e He. exists (Rmin e 1). split; [apply Rmin_pos; lra|]. intros y [_ Hy]. unfold dist in *. simpl in *. unfold R_dist in *.
    rewrite Rmult_0_l, Rminus_0_r in *. pose proof (Rmin_l e 1). pose proof (Rmin_r e 1).
    apply Rle_lt_trans with (Rabs y); [|lra]. rewrite Rabs_mult. rewrite (Rabs_pos_eq (exp _)) by (left; apply exp_pos).
    assert (E : exp (l_eps * ln y) <= 1).
    { destruct (Rle_dec y 0) as [N|N]; [rewrite (ln_junk y N), Rmult_0_r, exp_0; lra|]. apply pow_le. rewrite Rabs_pos_eq in Hy by lra. lra. }
    pose proof (Rabs_pos y). pose proof (exp_pos (l_eps * ln y)). nra.
Qed.
Lemma wgt_cont_lo : forall v x, 0 < v <= 1 -> 0 <= x <= v -> continuous (fun u => wgt u v) x.
Proof.
  intros v x Hv Hx. unfold wgt.
  assert (D : 1 + iw_eps - exp (- / 2) * (x * exp (l_eps * ln x)) / v <> 0).
  { destruct c_bounds as [C1 C2]. pose proof iw_eps_pos. assert (x * exp (l_eps * ln x) <= v).
    { destruct (proj1 Hx) as [P|<-]; [|lra]. pose proof (pow_le x ltac:(lra)). pose proof (exp_pos (l_eps * ln x)). nra. }
    assert (0 <= x * exp (l_eps * ln x)) by (pose proof (exp_pos (l_eps * ln x)); nra).
    set (y := x * exp (l_eps * ln x)) in *. assert (y / v <= 1) by (apply (Rmult_le_reg_r v); [lra|]; unfold Rdiv; rewrite Rmult_assoc, Rinv_l; lra).
    assert (0 <= y / v) by (apply Rdiv_le_0_compat; lra).
    unfold Rdiv in *. rewrite Rmult_assoc. nra. }
  apply (continuous_comp (fun u => u * exp (l_eps * ln u)) (fun y => / 2 / (1 + iw_eps - exp (- / 2) * y / v))).
  - apply pow_cont. lra.
  - apply (ex_derive_continuous (V := R_NormedModule)). auto_derive. exact D.
Qed.
Lemma wgt_cont_hi : forall v x, 0 < v -> v <= x <= 1 -> continuous (fun u => wgt v u) x.
Proof.
  intros v x Hv Hx. unfold wgt. apply (ex_derive_continuous (V := R_NormedModule)). auto_derive. split; [lra|]. split; [|auto].
  destruct c_bounds as [C1 C2]. pose proof iw_eps_pos. pose proof (pow_le v ltac:(lra)) as P1. pose proof (exp_pos (l_eps * ln v)) as P0.
  set (e := exp (l_eps * ln v)) in *. assert (Y : v * e / x <= 1) by (apply (Rmult_le_reg_r x); [lra|]; unfold Rdiv; rewrite Rmult_assoc, Rinv_l; nra).
  assert (0 <= v * e / x) by (apply Rdiv_le_0_compat; nra). unfold Rdiv in *. set (y := v * e * / x) in *.
  replace (exp (- / 2) * (v * e) * / x) with (exp (- / 2) * y) by (unfold y; ring). nra.
Qed.

Lemma lo_bound : forall v, 0 < v -> is_RInt (fun u => / 2 + chord * (u / v)) 0 v (v / 2 + chord * (v / 2)).
Proof.
  intros v Hv. evar_last. apply (is_RInt_derive (fun u => / 2 * u + chord * (u * u / (2 * v)))).
  - intros x _. auto_derive; [lra|]. field. lra.
  - intros x _. apply (ex_derive_continuous (V := R_NormedModule)). auto_derive. lra.
  - unfold minus, plus, opp. simpl. field. lra.
Qed.
Lemma hi_bound : forall v, 0 < v < 1 -> is_RInt (fun u => / 2 + chord * (v / u)) v 1 ((1 - v) / 2 - chord * (v * ln v)).
Proof.
  intros v Hv. evar_last. apply (is_RInt_derive (fun u => / 2 * u + chord * (v * ln u))).
  - intros x Hx. rewrite Rmin_left in Hx by lra. auto_derive; [lra|]. field. lra.
  - intros x Hx. rewrite Rmin_left in Hx by lra. apply (ex_derive_continuous (V := R_NormedModule)). auto_derive. lra.
  - unfold minus, plus, opp. simpl. rewrite ln_1. field.
Qed.

Lemma pair_mean : forall v, 0 < v < 1 -> exists m, is_RInt (fun u => wgt2 u v) 0 1 m /\ m <= 99 / 100.
Proof.
  intros v Hv.
  assert (A1 : ex_RInt (fun u => wgt u v) 0 v).
  { apply (ex_RInt_continuous (V := R_CompleteNormedModule)). intros z Hz. rewrite Rmin_left, Rmax_right in Hz by lra. apply wgt_cont_lo; lra. }
  assert (A2 : ex_RInt (fun u => wgt v u) v 1).
  { apply (ex_RInt_continuous (V := R_CompleteNormedModule)). intros z Hz. rewrite Rmin_left, Rmax_right in Hz by lra. apply wgt_cont_hi; lra. }
  pose proof (RInt_correct (V := R_CompleteNormedModule) _ _ _ A1) as B1. pose proof (RInt_correct (V := R_CompleteNormedModule) _ _ _ A2) as B2.
  exists (RInt (fun u => wgt u v) 0 v + RInt (fun u => wgt v u) v 1). split.
  - apply (is_RInt_Chasles (V := R_NormedModule) _ 0 v 1 _ _).
    + apply (is_RInt_ext (V := R_NormedModule) (fun u => wgt u v)); [|exact B1]. intros u Hu. rewrite Rmin_left, Rmax_right in Hu by lra.
      unfold wgt2. rewrite Rmin_left, Rmax_right by lra. reflexivity.
    + apply (is_RInt_ext (V := R_NormedModule) (fun u => wgt v u)); [|exact B2]. intros u Hu. rewrite Rmin_left, Rmax_right in Hu by lra.
      unfold wgt2. rewrite Rmin_right, Rmax_left by lra. reflexivity.
  - assert (C1 : RInt (fun u => wgt u v) 0 v <= v / 2 + chord * (v / 2)).
    { rewrite <- (is_RInt_unique (V := R_CompleteNormedModule) _ _ _ _ (lo_bound v ltac:(lra))). apply RInt_le; [lra|exact A1|eexists; apply lo_bound; lra|].
      intros u Hu. apply wgt_le; lra. }
    assert (C2 : RInt (fun u => wgt v u) v 1 <= (1 - v) / 2 - chord * (v * ln v)).
    { rewrite <- (is_RInt_unique (V := R_CompleteNormedModule) _ _ _ _ (hi_bound v Hv)). apply RInt_le; [lra|exact A2|eexists; apply hi_bound; lra|].
      intros u Hu. apply wgt_le; lra. }
    destruct c_bounds as [D1 D2].
    assert (L : v / 2 - v * ln v <= exp (- / 2)).
    { set (y := exp (- / 2) / v). assert (Py : 0 < y) by (apply Rdiv_lt_0_compat; lra).
      assert (Y : ln y <= y - 1) by (pose proof (exp_ineq1_le (ln y)) as X; rewrite exp_ln in X by exact Py; lra).
      unfold y, Rdiv in Y. rewrite ln_mult, ln_exp, ln_Rinv in Y; [|lra|lra|apply Rinv_0_lt_compat; lra].
      apply (Rmult_le_compat_l v) in Y; [|lra]. replace (v * (exp (- / 2) * / v - 1)) with (exp (- / 2) - v) in Y by (field; lra). lra. }
    assert (P : 0 < chord) by (unfold chord; apply Rdiv_lt_0_compat; lra).
    assert (Q : chord * exp (- / 2) <= 489 / 1000).
    { unfold chord. set (c := exp (- / 2)) in *. replace (/ 2 * c / (1 - c) * c) with (/ 2 * (c * c) / (1 - c)) by (field; lra).
      apply (Rmult_le_reg_r (1 - c)); [lra|]. unfold Rdiv. rewrite Rmult_assoc, Rinv_l, Rmult_1_r by lra. nra. }
    assert (chord * (v / 2 - v * ln v) <= chord * exp (- / 2)) by (apply Rmult_le_compat_l; lra). lra.
Qed.

(** ** The weights for independent Gumbels *)
Section Threshold.
Variables (vs lp : list R) (i k : nat) (idx : list nat) (kappa : R).
Hypothesis Hd : length lp = length vs.
Hypothesis Hi : (i < length vs)%nat.
Hypothesis Hk : (2 <= k)%nat.
Hypothesis Htop : is_topk ple (map Some vs) k idx.
Hypothesis Hth : threshold i (k - 2) vs kappa.
Notation val j := (nth j vs 0).
Notation larger := (filter (fun j => negb (Nat.eqb j i) && (if Rlt_dec kappa (val j) then true else false)) (seq 0 (length vs))).

Lemma larger_in : forall j, In j larger <-> (j < length vs)%nat /\ j <> i /\ kappa < val j.
Proof.
  intros j. rewrite filter_In, in_seq, andb_true_iff, negb_true_iff, Nat.eqb_neq. destruct (Rlt_dec kappa (val j)); intuition (try lia; try lra; try discriminate).
Qed.
Lemma larger_nodup : NoDup larger. Proof. apply NoDup_filter, seq_NoDup. Qed.
Lemma larger_length : length larger = (k - 2)%nat. Proof. destruct Hth as [c [_ [_ H]]]. exact H. Qed.
Lemma val_at : forall j, (j < length vs)%nat -> nth_error (map Some vs) j = Some (Some (val j)).
Proof. intros j Hj. rewrite nth_error_map. rewrite (nth_error_nth' vs 0 Hj). reflexivity. Qed.
Lemma idx_nodup : NoDup idx. Proof. apply Htop. Qed.
Lemma idx_length : length idx = k. Proof. apply Htop. Qed.
Lemma idx_lt : forall j, In j idx -> (j < length vs)%nat.
Proof. intros j Hj. destruct Htop as [_ [_ [H _]]]. specialize (H j Hj). now rewrite map_length in H. Qed.
Lemma idx_top : forall a b, In a idx -> ~ In b idx -> (b < length vs)%nat -> val b <= val a.
Proof.
  intros a b Ha Hb Lb. destruct Htop as [_ [_ [_ [H _]]]]. exact (H a b _ _ Ha Hb (val_at a (idx_lt a Ha)) (val_at b Lb)).
Qed.
Definition lowest : nat := nth (k - 1) idx 0%nat.
Lemma lowest_in : In lowest idx. Proof. apply nth_In. rewrite idx_length. lia. Qed.
Lemma lowest_le : forall a, In a idx -> val lowest <= val a.
Proof.
  intros a Ha. destruct (In_nth idx a 0%nat Ha) as [x [Hx Ex]]. rewrite idx_length in Hx.
  destruct (Nat.eq_dec x (k - 1)) as [->|Hne]; [unfold lowest; rewrite Ex; lra|].
  destruct Htop as [_ [_ [_ [_ H]]]]. refine (H x (k - 1)%nat a lowest _ _ _ _ _ (val_at a (idx_lt a Ha)) (val_at lowest (idx_lt _ lowest_in))); [lia| |].
  - rewrite <- Ex. apply nth_error_nth'. rewrite idx_length. lia.
  - apply nth_error_nth'. rewrite idx_length. lia.
Qed.
Lemma too_many : forall l, NoDup l -> (k < length l)%nat -> ~ incl l idx.
Proof. intros l ND Hl C. pose proof (NoDup_incl_length ND C) as X. rewrite idx_length in X. lia. Qed.
Lemma too_few : forall l, (length l < k)%nat -> ~ incl idx l.
Proof. intros l Hl C. pose proof (NoDup_incl_length idx_nodup C) as X. rewrite idx_length in X. lia. Qed.

Lemma above : kappa < val i -> In i idx /\ val lowest = kappa.
Proof.
  intros Gi. assert (LL : length (i :: larger) = (k - 1)%nat) by (simpl; rewrite larger_length; lia).
  assert (ND : NoDup (i :: larger)) by (constructor; [intros C; apply larger_in in C; tauto|apply larger_nodup]).
  assert (Big : forall a, In a (i :: larger) <-> (a < length vs)%nat /\ kappa < val a).
  { intros a. split.
    - intros [<-|H]; [tauto|]. apply larger_in in H. tauto.
    - intros [H1 H2]. destruct (Nat.eq_dec i a) as [->|Hne]; [now left|]. right. apply larger_in. auto. }
  assert (All : forall a, In a (i :: larger) -> In a idx).
  { intros s Hs. destruct (in_dec Nat.eq_dec s idx) as [H|H]; [exact H|]. exfalso. apply (too_few (i :: larger)); [lia|]. intros e He. apply Big.
    apply Big in Hs. pose proof (idx_top e s He H (proj1 Hs)). split; [now apply idx_lt|lra]. }
  split; [apply All; now left|].
  assert (Le : val lowest <= kappa).
  { destruct (Rle_dec (val lowest) kappa) as [H|H]; [exact H|]. exfalso. apply (too_few (i :: larger)); [lia|]. intros e He. apply Big. split; [now apply idx_lt|].
    pose proof (lowest_le e He). lra. }
  destruct Hth as [c [C1 [C2 _]]]. assert (Cl : (c < length vs)%nat) by (apply nth_error_Some; congruence). apply (nth_error_nth vs c 0) in C2.
  destruct (in_dec Nat.eq_dec c idx) as [Hc|Hc]; [|pose proof (idx_top lowest c lowest_in Hc Cl); lra].
  destruct (Nat.eq_dec c lowest) as [<-|Hne]; [exact C2|]. exfalso. apply (too_many (c :: lowest :: i :: larger)).
  - constructor; [intros [H|H]; [congruence|apply Big in H; lra]|]. constructor; [intros H; apply Big in H; lra|exact ND].
  - cbn [length] in *. lia.
  - intros a [<-|[<-|H]]; [exact Hc|exact lowest_in|now apply All].
Qed.

Lemma below : val i < kappa -> In i idx -> i = lowest.
Proof.
  intros Gi Hin. destruct (Nat.eq_dec i lowest) as [H|H]; [exact H|]. exfalso. destruct Hth as [c [C1 [C2 C3]]].
  assert (Cl : (c < length vs)%nat) by (apply nth_error_Some; congruence). apply (nth_error_nth vs c 0) in C2.
  pose proof (lowest_le i Hin) as Le.
  assert (All : forall a, (a < length vs)%nat -> kappa <= val a -> In a idx).
  { intros a La Ha. destruct (in_dec Nat.eq_dec a idx) as [X|X]; [exact X|]. pose proof (idx_top i a Hin X La). lra. }
  apply (too_many (i :: lowest :: c :: larger)).
  - constructor; [|constructor; [|constructor; [|apply larger_nodup]]].
    + intros [X|[X|X]]; [congruence|congruence|apply larger_in in X; lra].
    + intros [X|X]; [rewrite X in C2; lra|apply larger_in in X; lra].
    + intros X. apply larger_in in X. lra.
  - cbn [length]. rewrite C3. lia.
  - intros a [<-|[<-|[<-|X]]]; [exact Hin|exact lowest_in|apply All; [exact Cl|lra]|apply larger_in in X; apply All; [tauto|lra]].
Qed.

(** The weight of an option. *)
Lemma weight_absent : forall (l : list nat) w, ~ In i l -> weight_of i l w = 0.
Proof.
  induction l as [|a l IH]; intros w Hn; [reflexivity|]. destruct w as [|x w]; [reflexivity|]. unfold weight_of in *. cbn [combine map total fold_right fst snd].
  replace (Nat.eqb a i) with false by (symmetry; apply Nat.eqb_neq; intros ->; apply Hn; now left). fold (total (map (fun jw => if Nat.eqb (fst jw) i then snd jw else 0) (combine l w))).
  rewrite IH by (intros C; apply Hn; now right). lra.
Qed.
Lemma weight_nth : forall (l : list nat) w j, NoDup l -> length w = length l -> nth_error l j = Some i -> weight_of i l w = nth j w 0.
Proof.
  induction l as [|a l IH]; intros w j ND Hw Hj; [destruct j; discriminate|]. destruct w as [|x w]; [discriminate|]. inversion ND as [|? ? N1 N2]; subst. destruct j as [|j]; simpl in Hj.
  - injection Hj as ->. pose proof (weight_absent l w N1) as X. unfold weight_of in *. cbn [combine map total fold_right fst snd nth].
    rewrite Nat.eqb_refl. unfold total in X. rewrite X. lra.
  - assert (a <> i) by (intros ->; apply N1; eapply nth_error_In; eauto). pose proof (IH w j N2 ltac:(simpl in Hw; lia) Hj) as X. unfold weight_of in *. cbn [combine map total fold_right fst snd nth].
    replace (Nat.eqb a i) with false by (symmetry; now apply Nat.eqb_neq). unfold total in X. rewrite X. lra.
Qed.

Lemma iw_shape : forall t, compute_iw (pick 0 lp idx) (pick None (map Some vs) idx) = t ->
  length t = k /\ forall j, (j < k)%nat -> nth j t 0 = if Nat.eqb j (k - 1) then 0 else exp (nth (nth j idx 0%nat) lp 0) / (iw_q (Some (val lowest)) (nth (nth j idx 0%nat) lp 0) + iw_eps).
Proof.
  intros t <-. unfold compute_iw, pick. rewrite !map_length, idx_length.
  assert (K : nth (k - 1) (map (fun j => nth j (map Some vs) None) idx) None = Some (val lowest)).
  { rewrite (nth_indep _ None (nth 0 (map Some vs) None)) by (rewrite map_length, idx_length; lia). rewrite (map_nth (fun j => nth j (map Some vs) None)). fold lowest.
    apply nth_error_nth. apply val_at, idx_lt, lowest_in. }
  rewrite K, map_map. set (f := fun x : nat => exp (nth x lp 0) / (iw_q (Some (val lowest)) (nth x lp 0) + iw_eps)).
  assert (Lm : length (map f idx) = k) by (rewrite map_length; apply idx_length).
  assert (Lf : length (firstn (k - 1) (map f idx)) = (k - 1)%nat) by (rewrite firstn_length; lia).
  rewrite (skipn_all2 (map f idx)) by lia. split; [rewrite app_length, Lf; simpl; lia|]. intros j Hj. destruct (Nat.eqb_spec j (k - 1)) as [->|Hne].
  - rewrite app_nth2 by lia. rewrite Lf, Nat.sub_diag. reflexivity.
  - rewrite app_nth1 by lia. rewrite <- (firstn_skipn (k - 1) (map f idx)) in Lm.
    assert (E : nth j (firstn (k - 1) (map f idx)) 0 = nth j (map f idx) 0).
    { rewrite <- (firstn_skipn (k - 1) (map f idx)) at 2. rewrite app_nth1 by lia. reflexivity. }
    rewrite E. rewrite (nth_indep _ 0 (f 0%nat)) by (rewrite map_length, idx_length; lia). rewrite map_nth. reflexivity.
Qed.

Lemma weight_above : kappa < val i ->
  weight_of i idx (compute_iw (pick 0 lp idx) (pick None (map Some vs) idx)) = exp (nth i lp 0) / (1 - exp (- exp (nth i lp 0 - kappa)) + iw_eps).
Proof.
  intros Gi. destruct (above Gi) as [A1 A2]. destruct (In_nth idx i 0%nat A1) as [j [Hj Ej]]. destruct (iw_shape _ eq_refl) as [T1 T2].
  rewrite idx_length in Hj. rewrite (weight_nth idx _ j); [|apply idx_nodup|now rewrite T1, idx_length|rewrite <- Ej; apply nth_error_nth'; now rewrite idx_length].
  rewrite T2 by exact Hj. destruct (Nat.eqb_spec j (k - 1)) as [->|_]; [exfalso; fold lowest in Ej; rewrite Ej in A2; lra|]. rewrite Ej, A2. reflexivity.
Qed.
Lemma weight_below : val i < kappa -> weight_of i idx (compute_iw (pick 0 lp idx) (pick None (map Some vs) idx)) = 0.
Proof.
  intros Gi. destruct (in_dec Nat.eq_dec i idx) as [Hin|Hn]; [|now apply weight_absent]. pose proof (below Gi Hin) as E. destruct (iw_shape _ eq_refl) as [T1 T2].
  rewrite (weight_nth idx _ (k - 1)%nat); [|apply idx_nodup|now rewrite T1, idx_length|rewrite E; apply nth_error_nth'; rewrite idx_length; lia].
  rewrite T2 by lia. now rewrite Nat.eqb_refl.
Qed.
End Threshold.

Theorem threshold_mean : forall topk, topk_fn ple topk -> forall (lp vals : list R) i k kappa, length vals = length lp -> (i < length lp)%nat -> (2 <= k <= length lp)%nat ->
  threshold i (k - 2) vals kappa ->
  let pert u := map Some (map (fun j => if Nat.eqb j i then gumbel_rsample (nth i lp 0) u else nth j vals 0) (seq 0 (length lp))) in
  let q := 1 - exp (- exp (nth i lp 0 - kappa)) in
  is_RInt (fun u => let idx := select_swor topk k (pert u) lp in weight_of i idx (compute_iw (pick 0 lp idx) (pick None (pert u) idx))) 0 1
    (exp (nth i lp 0) * (q / (q + iw_eps))).
Proof.
  intros topk Hk lp vals i k kappa Hv Hi Hkd Hth pert q. set (l := nth i lp 0) in *. set (u0 := exp (- exp (l - kappa))).
  pose proof (exp_pos (l - kappa)) as Pe. assert (U0 : 0 < u0 < 1) by (split; [apply exp_pos|unfold u0; rewrite <- exp_0; apply exp_increasing; lra]).
  assert (Lt : forall u, 0 < u < 1 -> (u < u0 -> gumbel_rsample l u < kappa) /\ (u0 < u -> kappa < gumbel_rsample l u)).
  { intros u Hu. pose proof (ln_neg u Hu) as Ln. unfold gumbel_rsample. assert (L0 : ln u0 = - exp (l - kappa)) by apply ln_exp. split; intros H.
    - assert (A : ln u < ln u0) by (apply ln_increasing; lra). assert (B : ln (exp (l - kappa)) < ln (- ln u)) by (apply ln_increasing; lra). rewrite ln_exp in B. lra.
    - assert (A : ln u0 < ln u) by (apply ln_increasing; lra). assert (B : ln (- ln u) < ln (exp (l - kappa))) by (apply ln_increasing; lra). rewrite ln_exp in B. lra. }
  assert (W : forall u, 0 < u < 1 -> let vs := map (fun j => if Nat.eqb j i then gumbel_rsample l u else nth j vals 0) (seq 0 (length lp)) in
    length vs = length lp /\ nth i vs 0 = gumbel_rsample l u /\ threshold i (k - 2) vs kappa /\ is_topk ple (map Some vs) k (select_swor topk k (pert u) lp)).
  { intros u Hu vs. assert (Lv : length vs = length lp) by (unfold vs; now rewrite map_length, seq_length).
    assert (Nv : forall j, (j < length lp)%nat -> nth j vs 0 = if Nat.eqb j i then gumbel_rsample l u else nth j vals 0).
    { intros j Hj. unfold vs. set (f := fun j => if Nat.eqb j i then gumbel_rsample l u else nth j vals 0). rewrite (nth_indep _ 0 (f 0%nat)) by (rewrite map_length, seq_length; lia).
      rewrite map_nth, seq_nth by lia. reflexivity. }
    split; [exact Lv|]. split; [rewrite Nv by lia; now rewrite Nat.eqb_refl|]. split.
    - destruct Hth as [c [C1 [C2 C3]]]. exists c. assert (Cl : (c < length lp)%nat) by (rewrite <- Hv; apply nth_error_Some; congruence).
      split; [exact C1|]. split.
      + rewrite (nth_error_nth' vs 0) by lia. rewrite Nv by lia. rewrite (proj2 (Nat.eqb_neq c i) C1). f_equal. exact (nth_error_nth vals c 0 C2).
      + rewrite Lv, <- Hv, <- C3. f_equal. apply filter_ext_in. intros j Hj. apply in_seq in Hj. destruct (Nat.eqb_spec j i) as [->|Hne]; [reflexivity|].
        rewrite Nv by lia. rewrite (proj2 (Nat.eqb_neq j i) Hne). reflexivity.
    - unfold select_swor, pert. fold l. fold vs. rewrite map_length, Lv, Nat.min_l by lia. apply Hk. rewrite map_length, Lv. lia. }
  assert (Vq : 0 < q + iw_eps) by (unfold q; fold u0; pose proof iw_eps_pos; lra).
  replace (exp l * (q / (q + iw_eps))) with (plus (scal (u0 - 0) 0) (scal (1 - u0) (exp l / (q + iw_eps)))).
  2:{ unfold plus, scal. simpl. unfold mult. simpl. unfold q. fold u0. field. unfold q in Vq. fold u0 in Vq. lra. }
  apply (is_RInt_Chasles (V := R_NormedModule) _ 0 u0 1).
  - apply (is_RInt_ext (V := R_NormedModule) (fun _ => 0)); [|apply (is_RInt_const (V := R_NormedModule))]. intros u Hu. rewrite Rmin_left, Rmax_right in Hu by lra.
    destruct (W u ltac:(lra)) as [W1 [W2 [W3 W4]]]. symmetry. cbv zeta. apply (weight_below _ lp i k _ kappa); auto; try lia. rewrite W2. apply Lt; lra.
  - apply (is_RInt_ext (V := R_NormedModule) (fun _ => exp l / (q + iw_eps))); [|apply (is_RInt_const (V := R_NormedModule))]. intros u Hu. rewrite Rmin_left, Rmax_right in Hu by lra.
    destruct (W u ltac:(lra)) as [W1 [W2 [W3 W4]]]. symmetry. cbv zeta. apply (weight_above _ lp i k _ kappa); auto; try lia. rewrite W2. apply Lt; lra.
Qed.
