(** C72 and C55: the distribution of relaxed samples, as expectations over the uniform noise. The random numbers lie strictly
    between 0 and 1 and are not clamped (eps = 0), as for real numbers. *)
From Coq Require Import Reals List Arith Bool Lia Lra.
From Coquelicot Require Import Coquelicot.
From Verif Require Import Relaxed SpecRelaxed RelaxedProofs SpecArm ArmMean RelaxedLaw.
Import ListNotations.
Local Open Scope R_scope.

(** C72: what conditional_gumbel_rsample draws given the hard sample [b] has the distribution of a relaxed sample whose largest
    entry is [b]. For every test function [h] of the relaxed sample: if [m] is the expectation of [h] over the resampled
    values, then the expectation of [h] over the relaxed samples in which [b] is largest is the probability of [b] times [m],
    at every temperature, for any number of options and all probabilities. ([g] is the expectation given the random number of
    option [b]; it must be continuous. The random number of option [b] is integrated last.) *)
Theorem C72_resample : forall n b probs tau, length probs = n -> (b < n)%nat -> 0 < tau -> inside_simplex probs ->
  forall (h : list R -> R) (g : R -> R) m u, (forall x, 0 <= x <= 1 -> continuous g x) -> is_RInt g 0 1 m ->
  (forall x, 0 < x < 1 ->
     mean (others n b) (fun v => h (cond_categorical 0 tau (one_hot n b) probs (noise_row n v))) (at_index u [b] x) (g x)) ->
  mean ([b] :: others n b)
    (fun v => let z := relaxed_categorical 0 tau probs (noise_row n v) in if largest_at z b then h z else 0) u (nth b probs 0 * m).
Proof. exact resample_law. Qed.
Print Assumptions C72_resample.

(** Two options of probability 1/2 at temperature 1, with the probability that the second entry is at most 1/3 as
    expectation: given the first option it is 2/3, and 1/2 * 2/3 = 1/3 of all relaxed samples are such. *)
Example C72_witness :
  let h := fun z : list R => if Rle_dec (nth 1 z 0) (1 / 3) then 1 else 0 in
  inside_simplex [1 / 2; 1 / 2] /\ (forall x, 0 <= x <= 1 -> continuous (pw (1 / 2)) x) /\ is_RInt (pw (1 / 2)) 0 1 (2 / 3) /\
  forall x u, 0 < x < 1 ->
    mean (others 2 0) (fun v => h (cond_categorical 0 1 (one_hot 2 0) [1 / 2; 1 / 2] (noise_row 2 v))) (at_index u [0%nat] x) (pw (1 / 2) x).
Proof.
  intros h. split; [split; [intros x [<-|[<-|[]]]; lra|simpl; lra]|]. split; [intros; apply pw_cont; lra|]. split.
  - evar_last. apply (ftc_open (fun x => 2 / 3 * pw (3 / 2) x)).
    + intros x Hx. apply (continuous_scal_r (K := R_AbsRing) (V := R_NormedModule) (2 / 3) (pw (3 / 2))). apply pw_cont; lra.
    + intros x Hx. evar_last. apply (is_derive_scal (pw (3 / 2))). apply pw_derive. lra.
      rewrite pw_pos by lra. replace ((3 / 2 - 1) * ln x) with (1 / 2 * ln x) by field. field.
    + intros x Hx. apply pw_cont; lra.
    + rewrite (pw_pos _ 1) by lra. rewrite ln_1, Rmult_0_r, exp_0. unfold pw. destruct (Rle_dec 0 0); lra.
  - intros x u Hx. change (others 2 0) with [[1%nat]]. cbn [mean]. set (a := pw (1 / 2) x). assert (Ea : a = exp (1 / 2 * ln x)) by (apply pw_pos; lra).
    assert (Ha : 0 < a <= 1) by (pose proof (pw_range (1 / 2) x ltac:(lra) ltac:(lra)) as P; fold a in P; rewrite Ea in *; pose proof (exp_pos (1 / 2 * ln x)); lra).
    exists (fun y => if Rle_dec y a then 1 else 0). split.
    + intros y Hy. unfold h.
      assert (P : nth 1 (cond_categorical 0 1 (one_hot 2 0) [1 / 2; 1 / 2] (noise_row 2 (at_index (at_index u [0%nat] x) [1%nat] y))) 0 <= 1 / 3 <-> y <= a).
      { rewrite Ea. apply (pair_cond (at_index (at_index u [0%nat] x) [1%nat] y)); [exact Hx|exact Hy]. }
      destruct Rle_dec as [A|A], Rle_dec as [B|B]; auto; exfalso; tauto.
    + evar_last. apply (is_RInt_Chasles (V := R_NormedModule) _ 0 a 1).
      * apply (is_RInt_ext (V := R_NormedModule) (fun _ => 1)); [|apply (is_RInt_const (V := R_NormedModule))]. intros y Hy. rewrite Rmin_left, Rmax_right in Hy by lra. destruct Rle_dec; lra.
      * apply (is_RInt_ext (V := R_NormedModule) (fun _ => 0)); [|apply (is_RInt_const (V := R_NormedModule))]. intros y Hy. rewrite Rmin_left, Rmax_right in Hy by lra. destruct Rle_dec; lra.
      * unfold plus, scal. simpl. unfold mult. simpl. ring.
Qed.

(** C55: the expected hard sample of a relaxed sample is the vector of probabilities, at every temperature. *)
Theorem C55_categorical_law : forall n b probs tau, length probs = n -> (b < n)%nat -> 0 < tau -> inside_simplex probs -> forall u,
  mean ([b] :: others n b) (fun v => nth b (discretize_categorical (relaxed_categorical 0 tau probs (noise_row n v))) 0) u (nth b probs 0).
Proof. exact hard_law. Qed.
Print Assumptions C55_categorical_law.

(** For Bernoulli variables also with the clamping of torch, for probabilities inside the clamping range. *)
Theorem C55_bernoulli_law : forall eps tau p, 0 < eps -> 0 < tau -> eps < p <= 1 - eps ->
  is_RInt (fun u => discretize_bernoulli (relaxed_bernoulli eps tau p u)) 0 1 p.
Proof. exact bernoulli_law. Qed.
Print Assumptions C55_bernoulli_law.

Example C55_law_witness : inside_simplex [1 / 6; 1 / 2; 1 / 3] /\ 1 / 100 < 1 / 3 <= 1 - 1 / 100.
Proof. split; [split; [intros x [<-|[<-|[<-|[]]]]; lra|simpl; lra]|lra]. Qed.
