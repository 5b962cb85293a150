(** C33: conditional Gumbel samples. *)
From Coq Require Import Reals List Lra.
From Verif Require Import Gumbel GumbelProofs.
Import ListNotations.
Local Open Scope R_scope.

(** C33. The order of the unconditional Gumbel samples is kept: for all options i, j of one parent. *)
Theorem C33_order : forall T gs i j, (i < length gs)%nat -> (j < length gs)%nat ->
  (nth i (cond_gumbel T gs) 0 < nth j (cond_gumbel T gs) 0 <-> nth i gs 0 < nth j gs 0).
Proof. exact cond_order. Qed.
Print Assumptions C33_order.

(** The maximum: below the perturbed log-probability T of the parent by less than 10^-6 times e^(T - max gs). Missing for
    the full claim: the maximum is not T, because log1mexp adds 10^-6 inside the logarithm (C33_maximum_refuted). *)
Theorem C33_maximum_partial : forall T gs, gs <> [] ->
  T - / 1000000 * exp (T - lmax gs) < lmax (cond_gumbel T gs) < T /\
  lmax (cond_gumbel T gs) = T - ln (1 + / 1000000 * exp (T - lmax gs)).
Proof. intros T gs H. split; [exact (cond_max_bounds T gs H)|exact (cond_max T gs H)]. Qed.
Print Assumptions C33_maximum_partial.

(** For no input is the maximum the perturbed log-probability of the parent; and the difference has no bound. *)
Theorem C33_maximum_refuted :
  (forall T gs, gs <> [] -> lmax (cond_gumbel T gs) <> T) /\
  (forall d, exists T gs, gs <> [] /\ lmax (cond_gumbel T gs) < T - d).
Proof.
  split.
  - intros T gs H E. destruct (cond_max_bounds T gs H). lra.
  - intros d. exists 0, [ - (Rabs d + ln 1000000)]. split; [discriminate|]. rewrite cond_max by discriminate. simpl lmax.
    replace (0 - - (Rabs d + ln 1000000)) with (Rabs d + ln 1000000) by lra. rewrite exp_plus, exp_ln by lra.
    unfold l_eps. replace (/ 1000000 * (exp (Rabs d) * 1000000)) with (exp (Rabs d)) by lra.
    assert (Rabs d < ln (1 + exp (Rabs d))).
    { rewrite <- (ln_exp (Rabs d)) at 1. apply ln_increasing; [apply exp_pos|]. lra. }
    pose proof (Rle_abs d). lra.
Qed.
Print Assumptions C33_maximum_refuted.

(** What each value is. *)
Theorem C33_value : forall T gs i, (i < length gs)%nat ->
  nth i (cond_gumbel T gs) 0 = T - ln (1 + (1 + / 1000000) * exp (T - nth i gs 0) - exp (T - lmax gs)).
Proof.
  intros T gs i H. rewrite cond_nth by auto. apply cond_value. apply lmax_ge. now apply nth_In.
Qed.
Print Assumptions C33_value.

(** Two options: the first keeps the larger value. *)
Example C33_witness : nth 1%nat (cond_gumbel (-1) [2; -3]) 0 < nth 0%nat (cond_gumbel (-1) [2; -3]) 0 /\
  lmax (cond_gumbel (-1) [2; -3]) < -1.
Proof.
  split.
  - apply C33_order; simpl; auto; lra.
  - apply C33_maximum_partial. discriminate.
Qed.
