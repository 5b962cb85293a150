From Coq Require Import Reals List Lra Lia.
From Verif Require Import Gumbel.
Import ListNotations.
Local Open Scope R_scope.

Lemma eps_pos : 0 < l_eps.
Proof. unfold l_eps. apply Rinv_0_lt_compat. lra. Qed.

Lemma log1mexp_val : forall a, a <= 0 -> log1mexp a = ln (1 - exp a + l_eps).
Proof.
  intros a Ha. unfold log1mexp. rewrite Rabs_left1 by auto. rewrite Ropp_involutive.
  destruct (Rlt_dec l_c a); f_equal; lra.
Qed.

Lemma lmax_ge : forall l x, In x l -> x <= lmax l.
Proof.
  induction l as [|y l IH]; intros x H; [destruct H|]. destruct l as [|z l].
  - destruct H as [->|[]]. simpl; lra.
  - change (lmax (y :: z :: l)) with (Rmax y (lmax (z :: l))). destruct H as [->|H].
    + apply Rmax_l.
    + eapply Rle_trans; [apply IH; auto|apply Rmax_r].
Qed.
Lemma lmax_In : forall l, l <> [] -> In (lmax l) l.
Proof.
  induction l as [|y l IH]; intros H; [congruence|]. destruct l as [|z l]; [left; reflexivity|].
  change (lmax (y :: z :: l)) with (Rmax y (lmax (z :: l))). unfold Rmax. destruct (Rle_dec y (lmax (z :: l))).
  - right. apply IH. discriminate.
  - left; auto.
Qed.

Lemma relu_softplus : forall v, relu v + softplus (- Rabs v) = ln (1 + exp v).
Proof.
  intros v. unfold relu, softplus. destruct (Rle_dec 0 v) as [H|H].
  - rewrite Rmax_right by auto. rewrite Rabs_right by lra.
    rewrite <- (ln_exp v) at 1. rewrite <- ln_mult.
    + f_equal. rewrite Rmult_plus_distr_l, <- exp_plus. replace (v + - v) with 0 by lra. rewrite exp_0. lra.
    + apply exp_pos.
    + pose proof (exp_pos (- v)). lra.
  - rewrite Rmax_left by lra. rewrite Rabs_left by lra. rewrite Ropp_involutive. lra.
Qed.

Lemma cond_value : forall T Z g, g <= Z ->
  cond_gumbel_one T Z g = T - ln (1 + (1 + l_eps) * exp (T - g) - exp (T - Z)).
Proof.
  intros T Z g H. unfold cond_gumbel_one. set (v := T - g + log1mexp (g - Z)).
  replace (T - relu v - softplus (- Rabs v)) with (T - (relu v + softplus (- Rabs v))) by lra.
  rewrite relu_softplus. f_equal. f_equal. unfold v. rewrite log1mexp_val by lra.
  rewrite exp_plus, exp_ln.
  - replace (T - Z) with ((T - g) + (g - Z)) by lra. rewrite exp_plus. lra.
  - pose proof eps_pos. assert (exp (g - Z) <= 1); [|lra]. rewrite <- exp_0.
    destruct (Rle_lt_or_eq_dec g Z H) as [L|E]; [left; apply exp_increasing; lra|subst; right; f_equal; lra].
Qed.

Lemma arg_pos : forall T Z g, g <= Z -> 0 < 1 + (1 + l_eps) * exp (T - g) - exp (T - Z).
Proof.
  intros T Z g H. pose proof eps_pos. assert (exp (T - Z) <= exp (T - g)).
  { destruct (Rle_lt_or_eq_dec g Z H) as [L|E]; [left; apply exp_increasing; lra|subst; lra]. }
  pose proof (exp_pos (T - g)). nra.
Qed.

Lemma cond_mono : forall T Z g h, g <= Z -> h <= Z -> (cond_gumbel_one T Z g < cond_gumbel_one T Z h <-> g < h).
Proof.
  assert (M : forall T Z g h, g <= Z -> h <= Z -> g < h -> cond_gumbel_one T Z g < cond_gumbel_one T Z h).
  { intros T Z g h Hg Hh L. rewrite !cond_value by auto.
    assert (ln (1 + (1 + l_eps) * exp (T - h) - exp (T - Z)) < ln (1 + (1 + l_eps) * exp (T - g) - exp (T - Z))); [|lra].
    apply ln_increasing; [now apply arg_pos|]. assert (exp (T - h) < exp (T - g)) by (apply exp_increasing; lra).
    pose proof eps_pos. nra. }
  intros T Z g h Hg Hh. split; [|apply M; auto]. intros L. destruct (Rtotal_order g h) as [H|[H|H]]; auto.
  - subst. lra.
  - pose proof (M T Z h g Hh Hg H). lra.
Qed.

Lemma cond_length : forall T gs, length (cond_gumbel T gs) = length gs.
Proof. intros. unfold cond_gumbel. now rewrite map_length. Qed.

Lemma cond_nth : forall T gs i, (i < length gs)%nat -> nth i (cond_gumbel T gs) 0 = cond_gumbel_one T (lmax gs) (nth i gs 0).
Proof.
  intros T gs i H. unfold cond_gumbel. rewrite nth_indep with (d' := cond_gumbel_one T (lmax gs) 0) by now rewrite map_length.
  apply map_nth.
Qed.

Lemma cond_order : forall T gs i j, (i < length gs)%nat -> (j < length gs)%nat ->
  (nth i (cond_gumbel T gs) 0 < nth j (cond_gumbel T gs) 0 <-> nth i gs 0 < nth j gs 0).
Proof.
  intros T gs i j Hi Hj. rewrite !cond_nth by auto. apply cond_mono; apply lmax_ge; now apply nth_In.
Qed.

Lemma lmax_unique : forall l m, In m l -> (forall x, In x l -> x <= m) -> lmax l = m.
Proof.
  intros l m H1 H2. apply Rle_antisym; [|now apply lmax_ge]. apply H2. apply lmax_In. intros ->. destruct H1.
Qed.

Lemma cond_max : forall T gs, gs <> [] -> lmax (cond_gumbel T gs) = T - ln (1 + l_eps * exp (T - lmax gs)).
Proof.
  intros T gs H.
  assert (E : cond_gumbel_one T (lmax gs) (lmax gs) = T - ln (1 + l_eps * exp (T - lmax gs))).
  { rewrite cond_value by lra. f_equal. f_equal. lra. }
  rewrite <- E. apply lmax_unique.
  - unfold cond_gumbel. apply in_map. now apply lmax_In.
  - intros x Hx. unfold cond_gumbel in Hx. apply in_map_iff in Hx as [g [<- Hg]].
    destruct (Rtotal_order g (lmax gs)) as [L|[->|L]].
    + left. apply cond_mono; try lra. 
    + lra.
    + pose proof (lmax_ge gs g Hg). lra.
Qed.

Lemma cond_max_bounds : forall T gs, gs <> [] ->
  T - l_eps * exp (T - lmax gs) < lmax (cond_gumbel T gs) < T.
Proof.
  intros T gs H. rewrite cond_max by auto. set (x := l_eps * exp (T - lmax gs)).
  assert (Hx : 0 < x) by (apply Rmult_lt_0_compat; [apply eps_pos|apply exp_pos]).
  assert (0 < ln (1 + x)) by (rewrite <- ln_1; apply ln_increasing; lra).
  assert (ln (1 + x) < x). { rewrite <- (ln_exp x) at 2. apply ln_increasing; [lra|]. apply exp_ineq1. lra. }
  lra.
Qed.
