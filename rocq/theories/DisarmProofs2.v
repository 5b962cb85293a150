(** The expected loss of a program with DisARM, and its derivative. *)
From Coq Require Import String List Arith Bool ZArith Lia Reals Lra FunctionalExtensionality.
From Coquelicot Require Import Coquelicot.
From Verif Require Import Base Torch Plates Wrap Scalar Reduce Graph Sampling Surrogate Estimators Arm SpecTensor SpecSurrogate SpecArm ListLemmas Dual ProgramWitness BiasProofs2 BiasProofs3 OnePlate
  ArmProofs ArmMean ArmProofs2 DisarmProofs.
Import ListNotations.
Open Scope R_scope.

(** "(-1) ** b' * ~b.eq(b') * sigmoid(|l|)" (storch/method/arm.py:149). *)
Definition disarm_weight (b b' l : R) : R :=
  if Req_EM_T b b' then 0 else (if Req_EM_T b' 1 then -1 else 1) * sig (Rabs l).

Definition wt (p x : R) : R := if eqb (upper p x) (lower p x) then 0 else (if lower p x then -1 else 1) * Rmax p (1 - p).
Lemma sig_abs : forall l, sig (Rabs l) = Rmax (sig l) (1 - sig l).
Proof.
  intros l. rewrite <- sig_opp. unfold Rabs. destruct (Rcase_abs l) as [H|H].
  - rewrite Rmax_right; [reflexivity|]. left. apply sig_lt. lra.
  - rewrite Rmax_left; [reflexivity|]. destruct (Req_dec l 0) as [->|]; [rewrite Ropp_0; lra|]. left. apply sig_lt. lra.
Qed.
Lemma wt_low : forall p x, 0 < p < 1 -> x < Rmin p (1 - p) -> upper p x = false /\ lower p x = true /\ wt p x = - Rmax p (1 - p).
Proof.
  intros p x Hp Hx. assert (A := Rmin_l p (1 - p)). assert (B := Rmin_r p (1 - p)).
  assert (E1 : upper p x = false) by (unfold upper; destruct (Rlt_dec (1 - p) x); [lra|reflexivity]).
  assert (E2 : lower p x = true) by (unfold lower; destruct (Rlt_dec x p); [reflexivity|lra]).
  split; auto. split; auto. unfold wt. rewrite E1, E2. cbn [eqb]. ring.
Qed.
Lemma wt_high : forall p x, 0 < p < 1 -> 1 - Rmin p (1 - p) < x -> upper p x = true /\ lower p x = false /\ wt p x = Rmax p (1 - p).
Proof.
  intros p x Hp Hx. assert (A := Rmin_l p (1 - p)). assert (B := Rmin_r p (1 - p)).
  assert (E1 : upper p x = true) by (unfold upper; destruct (Rlt_dec (1 - p) x); [reflexivity|lra]).
  assert (E2 : lower p x = false) by (unfold lower; destruct (Rlt_dec x p); [lra|reflexivity]).
  split; auto. split; auto. unfold wt. rewrite E1, E2. cbn [eqb]. ring.
Qed.
Lemma wt_mid : forall p x, 0 < p < 1 -> Rmin p (1 - p) < x < 1 - Rmin p (1 - p) -> wt p x = 0.
Proof.
  intros p x Hp Hx. unfold wt. replace (eqb (upper p x) (lower p x)) with true; [reflexivity|]. symmetry. apply eqb_true_iff.
  unfold upper, lower, Rmin in *. destruct (Rle_dec p (1 - p)), (Rlt_dec (1 - p) x), (Rlt_dec x p); auto; lra.
Qed.
Lemma minmax : forall p, Rmax p (1 - p) * Rmin p (1 - p) = p * (1 - p).
Proof. intros p. unfold Rmax, Rmin. destruct (Rle_dec p (1 - p)); ring. Qed.
Lemma wt_split : forall p (bit : R -> bool) lo hi, 0 < p < 1 ->
  (forall x, x < Rmin p (1 - p) -> bit x = lo) -> (forall x, 1 - Rmin p (1 - p) < x -> bit x = hi) ->
  forall a b, is_RInt (fun x => wt p x * (if bit x then a else b)) 0 1 (p * (1 - p) * (if hi then a else b) + - (p * (1 - p)) * (if lo then a else b)).
Proof.
  intros p bit lo hi Hp Hlo Hhi a b. set (q := Rmin p (1 - p)) in *. set (M := Rmax p (1 - p)).
  assert (Q : 0 < q <= 1 - q) by (unfold q, Rmin; destruct (Rle_dec p (1 - p)); lra).
  set (vl := if lo then a else b). set (vh := if hi then a else b).
  replace (p * (1 - p) * vh + - (p * (1 - p)) * vl) with (- M * vl * q + (0 + M * vh * q)) by (unfold M, q; rewrite <- (minmax p); ring).
  apply (@is_RInt_Chasles R_NormedModule _ 0 q 1 (- M * vl * q) (0 + M * vh * q)).
  - pose proof (is_RInt_const 0 q (- M * vl)) as I. change (scal (q - 0) (- M * vl)) with ((q - 0) * (- M * vl)) in I.
    replace ((q - 0) * (- M * vl)) with (- M * vl * q) in I by ring. eapply is_RInt_ext; [|exact I]. intros x Hx. rewrite Rmin_left, Rmax_right in Hx by lra.
    destruct (wt_low p x Hp) as [_ [_ E]]; [exact (proj2 Hx)|]. rewrite E, Hlo by (exact (proj2 Hx)). reflexivity.
  - apply (@is_RInt_Chasles R_NormedModule _ q (1 - q) 1 0 (M * vh * q)).
    + pose proof (is_RInt_const q (1 - q) 0) as I. change (scal (1 - q - q) 0) with ((1 - q - q) * 0) in I. rewrite Rmult_0_r in I.
      eapply is_RInt_ext; [|exact I]. intros x Hx. rewrite Rmin_left, Rmax_right in Hx by lra. rewrite (wt_mid p x Hp) by exact Hx. symmetry. apply Rmult_0_l.
    + pose proof (is_RInt_const (1 - q) 1 (M * vh)) as I. change (scal (1 - (1 - q)) (M * vh)) with ((1 - (1 - q)) * (M * vh)) in I.
      replace ((1 - (1 - q)) * (M * vh)) with (M * vh * q) in I by ring. eapply is_RInt_ext; [|exact I]. intros x Hx. rewrite Rmin_left, Rmax_right in Hx by lra.
      destruct (wt_high p x Hp) as [_ [_ E]]; [exact (proj1 Hx)|]. rewrite E, Hhi by (exact (proj1 Hx)). reflexivity.
Qed.
Lemma upper_wt : forall c, 0 < c < 1 -> splits (wt c) (upper c) (slope c).
Proof.
  intros c Hc a b. pose proof (wt_split c (upper c) false true Hc (fun x H => proj1 (wt_low c x Hc H)) (fun x H => proj1 (wt_high c x Hc H)) a b) as I.
  cbv iota in I. exact I.
Qed.
Lemma lower_wt : forall c, 0 < c < 1 -> splits (wt c) (lower c) (fun b => -1 * slope c b).
Proof.
  intros c Hc a b. pose proof (wt_split c (lower c) true false Hc (fun x H => proj1 (proj2 (wt_low c x Hc H))) (fun x H => proj1 (proj2 (wt_high c x Hc H))) a b) as I.
  cbv iota in I. replace (-1 * slope c true * a + -1 * slope c false * b) with (c * (1 - c) * b + - (c * (1 - c)) * a) by (unfold slope; ring). exact I.
Qed.

Section DisarmGradient.
Variables (name : string) (n : nat) (ev : list nat).
Hypothesis Hn : (1 <= n)%nat.
Hypothesis Hev : ev <> [].
Variables (l : idx -> R -> R) (dl : idx -> R) (f : (idx -> bool) -> R -> R) (df : (idx -> bool) -> R) (t0 : R).
Hypothesis Hl : forall e, valid e ev -> derivable_pt_lim (l e) t0 (dl e).
Hypothesis Hf : forall b, derivable_pt_lim (f b) t0 (df b).
Hypothesis Hext : forall b b', (forall e, valid e ev -> b e = b' e) -> forall t, f b t = f b' t.
Variable dw : RD -> RD -> RD -> RD.
Hypothesis Hdw : forall b b' x, fst (dw b b' x) = disarm_weight (fst b) (fst b') (fst x).
Let p (e : idx) : R := sig (l e t0).
Let F (v : idx -> RD) : RD := (f (bits v) t0, df (bits v)).
Let logits : ten RD := mkten ev (fun e => (l e t0, dl e)).
Let f0 (b : idx -> bool) : R := f b t0.
Let B (i : nat) (u : idx -> R) : idx -> bool := fun e => upper (p e) (u (i :: e)).
Let B' (i : nat) (u : idx -> R) : idx -> bool := fun e => lower (p e) (u (i :: e)).
Let b0 : idx -> bool := fun _ => false.
Let f0_on : on (indices ev) f0 := f0_on ev f t0 Hext.
Let df_on : on (indices ev) df := df_on ev f df t0 Hf Hext.
Lemma q_in : forall e, 0 < p e < 1. Proof. intros e. apply sig_pos. Qed.

Lemma bval_upper : forall u i e, 0 < u (i :: e) < 1 -> (i < n)%nat -> fst (bval rd_ops rd_gt0 n (noise ev u) logits i e) = if upper (p e) (u (i :: e)) then 1 else 0.
Proof.
  intros u i e I Hi. unfold p. rewrite <- upper_gt0 by auto. unfold bval, zval, rd_gt0. replace (i <? n)%nat with true by (symmetry; now apply Nat.ltb_lt).
  cbn [el noise logits fst rd_ops dual_ops o_add o_one o_zero real_ops]. destruct (Rlt_dec 0 (logistic_quantile (u (i :: e)) + l e t0)); reflexivity.
Qed.
Lemma bval_lower : forall u i e, 0 < u (i :: e) < 1 -> (i < n)%nat -> fst (bval rd_ops rd_gt0 n (noise ev u) logits (n + i) e) = if lower (p e) (u (i :: e)) then 1 else 0.
Proof.
  intros u i e I Hi. unfold p. rewrite <- lower_gt0 by auto. unfold bval, zval, rd_gt0. replace (n + i <? n)%nat with false by (symmetry; apply Nat.ltb_ge; lia).
  replace (n + i - n)%nat with i by lia.
  cbn [el noise logits fst rd_ops dual_ops o_add o_opp o_one o_zero real_ops]. destruct (Rlt_dec 0 (- logistic_quantile (u (i :: e)) + l e t0)); reflexivity.
Qed.
Notation term u i := (gval rd_ops d_half rd_gt0 dw n ev (noise ev u) logits i).
Lemma term_low : forall u i, inner (indices (n :: ev)) u -> (i < n)%nat -> snd (term u i) = rsum (fun e => / 2 * (dl e * wt (p e) (u (i :: e)))) (indices ev).
Proof.
  intros u i Hu Hi. unfold gval. rewrite rd_osum. unfold rd_ops at 1, dual_ops, d_half. cbn [o_mul o_add real_ops fst snd]. rewrite Rmult_0_l, Rplus_0_r.
  rewrite rsum_scal. f_equal. apply rsum_ext. intros e He. apply in_indices in He.
  assert (I : 0 < u (i :: e) < 1) by (apply Hu, in_indices; constructor; auto).
  unfold mval. replace (i <? n)%nat with true by (symmetry; now apply Nat.ltb_lt). unfold rd_ops at 1 2, dual_ops. cbn [o_mul o_det o_add o_zero real_ops fst snd]. rewrite Hdw, bval_upper, bval_lower by auto.
  unfold logits. cbn [el fst snd]. unfold disarm_weight. rewrite sig_abs. fold (p e). unfold wt.
  destruct (upper (p e) (u (i :: e))), (lower (p e) (u (i :: e))); cbn [eqb]; repeat match goal with |- context [Req_EM_T ?a ?b] => destruct (Req_EM_T a b) end; try lra; ring.
Qed.
Lemma term_high : forall u i, (i < n)%nat -> snd (term u (n + i)) = 0.
Proof.
  intros u i Hi. unfold gval. rewrite rd_osum. unfold rd_ops at 1, dual_ops, d_half. cbn [o_mul o_add real_ops fst snd]. rewrite Rmult_0_l, Rplus_0_r.
  rewrite (rsum_ext _ (fun _ => 0)); [rewrite rsum_const; ring|]. intros e He. unfold mval. replace (n + i <? n)%nat with false by (symmetry; apply Nat.ltb_ge; lia). reflexivity.
Qed.
Lemma rd_box : forall x : RD, box rd_ops rd_exp x = (1, snd x).
Proof.
  intros [x dx]. unfold box, rd_ops, rd_exp, dual_ops, dual_exp, real_ops. cbn [o_det o_sub o_mul o_zero fst snd]. rewrite Rminus_diag_eq by reflexivity. rewrite exp_0. f_equal. ring.
Qed.

Definition disarm_total (u : idx -> R) : RD :=
  osum rd_ops (map (fun i => o_mul rd_ops (rd_recip (2 * n)) (o_mul rd_ops (box rd_ops rd_exp (term u i))
    (o_add rd_ops (other_val rd_ops rd_gt0 n F (noise ev u) logits i) (cval rd_ops rd_gt0 n F (noise ev u) logits i)))) (seq 0 (2 * n))).
Lemma rsum_app : forall {A} (g : A -> R) k m, rsum g (k ++ m) = rsum g k + rsum g m.
Proof. intros A g k m. unfold rsum. induction k as [|x k IH]; cbn [fold_right app]; [ring|]. rewrite IH. ring. Qed.
Lemma rsum_map : forall {A C} (h : A -> C) (g : C -> R) k, rsum g (map h k) = rsum (fun x => g (h x)) k.
Proof. intros A C h g k. unfold rsum. induction k as [|x k IH]; cbn [fold_right map]; [reflexivity|]. now rewrite IH. Qed.
Lemma seq_twice : seq 0 (2 * n) = seq 0 n ++ map (fun i => n + i)%nat (seq 0 n).
Proof.
  replace (2 * n)%nat with (n + n)%nat by lia. rewrite seq_app. f_equal. simpl. clear. 
  assert (G : forall a k, seq (n + a) k = map (fun i => n + i)%nat (seq a k)).
  { intros a k. revert a. induction k as [|k IH]; intros a; [reflexivity|]. cbn [seq map]. f_equal. rewrite <- IH. f_equal. lia. }
  rewrite <- G. f_equal. lia.
Qed.
Lemma other_low : forall u i, inner (indices (n :: ev)) u -> (i < n)%nat -> other_val rd_ops rd_gt0 n F (noise ev u) logits i = (f0 (B' i u), df (B' i u)).
Proof.
  intros u i Hu Hi. unfold other_val. replace (i <? n)%nat with true by (symmetry; now apply Nat.ltb_lt).
  apply (cval_lower n ev Hn l dl f df t0 Hf Hext); auto.
Qed.
Lemma other_high : forall u i, (i < n)%nat -> other_val rd_ops rd_gt0 n F (noise ev u) logits (n + i) = (0, 0).
Proof. intros u i Hi. unfold other_val. replace (n + i <? n)%nat with false by (symmetry; apply Nat.ltb_ge; lia). reflexivity. Qed.
Lemma disarm_total_eq : forall u, inner (indices (n :: ev)) u -> disarm_total u =
  (rsum (fun i => / INR (2 * n) * (f0 (B' i u) + f0 (B i u) + f0 (B' i u))) (seq 0 n),
   rsum (fun i => / INR (2 * n) * ((df (B' i u) + df (B i u) + df (B' i u)) +
      (rsum (fun e => / 2 * dl e * (wt (p e) (u (i :: e)) * f0 (B i u)) + / 2 * dl e * (wt (p e) (u (i :: e)) * f0 (B' i u))) (indices ev)))) (seq 0 n)).
Proof.
  intros u Hu. unfold disarm_total. rewrite rd_osum.
  assert (C1 : forall i, (i < n)%nat -> cval rd_ops rd_gt0 n F (noise ev u) logits i = (f0 (B i u), df (B i u))).
  { intros i Hi. apply (cval_upper n ev l dl f df t0 Hf Hext); auto. }
  assert (C2 : forall i, (i < n)%nat -> cval rd_ops rd_gt0 n F (noise ev u) logits (n + i) = (f0 (B' i u), df (B' i u))).
  { intros i Hi. apply (cval_lower n ev Hn l dl f df t0 Hf Hext); auto. }
  rewrite seq_twice, !rsum_app, !rsum_map, <- !rsum_plus. f_equal; apply rsum_ext; intros i Hi; apply in_seq in Hi; destruct Hi as [_ Hi]; simpl in Hi;
    rewrite !rd_box, other_low, other_high, C1, C2 by auto; rewrite ?term_high by auto; rewrite ?term_low by auto; unfold rd_ops, dual_ops, rd_recip;
    cbn [o_mul o_add o_zero real_ops fst snd]; try ring.
  assert (E : forall c d, rsum (fun e => / 2 * dl e * (wt (p e) (u (i :: e)) * c) + / 2 * dl e * (wt (p e) (u (i :: e)) * d)) (indices ev) =
    (c + d) * rsum (fun e => / 2 * (dl e * wt (p e) (u (i :: e)))) (indices ev)).
  { intros c d. rewrite <- rsum_scal. apply rsum_ext. intros e _. ring. }
  rewrite E. ring.
Qed.
Lemma recip_twice : / INR (2 * n) * INR n = / 2.
Proof. rewrite mult_INR. change (INR 2) with 2. field. apply not_0_INR. lia. Qed.
Lemma disarm_value_mean : forall u, mean (indices (n :: ev)) (fun u => fst (disarm_total u)) u (3 / 2 * bernoulli p (indices ev) f0 b0).
Proof.
  intros u. set (E := bernoulli p (indices ev) f0 b0).
  assert (M : mean (indices (n :: ev)) (fun u => rsum (fun i => / INR (2 * n) * (f0 (B' i u) + f0 (B i u) + f0 (B' i u))) (seq 0 n)) u
    (rsum (fun i => / INR (2 * n) * (E + E + E)) (seq 0 n))).
  { apply mean_rsum. intros i Hi. apply in_seq in Hi. apply mean_scal. assert (Hi' : (i < n)%nat) by lia.
    apply mean_plus; [apply mean_plus|]; try (now apply (mean_plain n ev p q_in f0 f0_on)); now apply (mean_plain_lower n ev p q_in f0 f0_on). }
  rewrite rsum_const, seq_length in M. replace (3 / 2 * E) with (INR n * (/ INR (2 * n) * (E + E + E))).
  2:{ transitivity ((/ INR (2 * n) * INR n) * (3 * E)); [ring|]. rewrite recip_twice. field. }
  eapply mean_ext; [|exact M]. intros u' Hu. cbv beta. rewrite disarm_total_eq by auto. reflexivity.
Qed.
Lemma disarm_slope : forall u, mean (indices (n :: ev)) (fun u => snd (disarm_total u)) u (3 / 2 * bernoulli p (indices ev) df b0).
Proof.
  intros u. set (E := bernoulli p (indices ev) df b0). set (T := fun j => wsum (tilt p j) (indices ev) f0 b0).
  assert (M : mean (indices (n :: ev)) (fun u => rsum (fun i => / INR (2 * n) * ((df (B' i u) + df (B i u) + df (B' i u)) +
      (rsum (fun e => / 2 * dl e * (wt (p e) (u (i :: e)) * f0 (B i u)) + / 2 * dl e * (wt (p e) (u (i :: e)) * f0 (B' i u))) (indices ev)))) (seq 0 n)) u
    (rsum (fun i => / INR (2 * n) * ((E + E + E) + rsum (fun e => / 2 * dl e * T e + / 2 * dl e * - T e) (indices ev))) (seq 0 n))).
  { apply mean_rsum. intros i Hi. apply in_seq in Hi. apply mean_scal. assert (Hi' : (i < n)%nat) by lia. apply mean_plus.
    - apply mean_plus; [apply mean_plus|]; try (now apply (mean_plain n ev p q_in df df_on)); now apply (mean_plain_lower n ev p q_in df df_on).
    - apply mean_rsum. intros e He. apply mean_plus; apply mean_scal.
      + apply (mean_upper n ev p q_in f0 f0_on); [apply upper_wt, q_in|lia|auto].
      + apply (mean_lower n ev p q_in f0 f0_on); [apply lower_wt, q_in|lia|auto]. }
  rewrite rsum_const, seq_length in M. rewrite (rsum_ext _ (fun _ => 0)) in M by (intros; ring). rewrite rsum_const in M.
  replace (3 / 2 * E) with (INR n * (/ INR (2 * n) * (E + E + E + INR (length (indices ev)) * 0))).
  2:{ transitivity ((/ INR (2 * n) * INR n) * (3 * E)); [ring|]. rewrite recip_twice. field. }
  eapply mean_ext; [|exact M]. intros u' Hu. cbv beta. rewrite disarm_total_eq by auto. reflexivity.
Qed.

Theorem disarm_gradient : forall veq anc_unwrap base u0, exists loss : (idx -> R) -> RD,
  (forall u, exists t, disarm_program veq anc_unwrap rd_ops rd_exp rd_recip d_half rd_gt0 dw name n F (noise ev u) logits base = Ok t /\
     shape t = [] /\ el t [] = loss u) /\
  mean (indices (n :: ev)) (fun u => snd (loss u)) u0 (3 / 2 * bernoulli p (indices ev) df b0) /\
  mean (indices (n :: ev)) (fun u => fst (loss u)) u0 (3 / 2 * bernoulli p (indices ev) f0 b0).
Proof.
  intros veq anc base u0. exists disarm_total. split; [|split; [apply disarm_slope|apply disarm_value_mean]].
  intros u. apply (disarm_loss veq anc rd_ops rd_ring); auto. exact (F_ext ev f df t0 Hf Hext).
Qed.

(** The gradient term with the difference of the costs. *)
Theorem disarm_term : forall veq anc_unwrap base u0 nm k lp0, exists (terms costs : (idx -> R) -> nat -> RD) gradient,
  (forall u, exists x rg g cv, method_sample veq rd_recip name n (fun k => sample_disarm rd_ops rd_gt0 (noise ev u k) logits) None None [ParT true] [] [] 0 = Ok (x, rg) /\
     me_estimator (method_of (fun _ _ => Ok false) (disarm_estimator veq anc_unwrap rd_ops d_half dw (PRaw logits))) (mkSample x name k lp0) (row_cost 1 F x) nm tt base
       = Ok (Some (PT g), Some cv, tt) /\
     forall i, (i < 2 * n)%nat -> el (st g) [i] = terms u i /\ el (st (row_cost 1 F x)) [i] = costs u i) /\
  derivable_pt_lim (fun t => bernoulli (fun e => sig (l e t)) (indices ev) (fun b => f b t) b0) t0 gradient /\
  forall i, (i < n)%nat -> mean (indices (n :: ev)) (fun u => snd (terms u i) * (fst (costs u i) - fst (costs u (n + i)%nat))) u0 (gradient - bernoulli p (indices ev) df b0).
Proof.
  intros veq anc base u0 nm k lp0. exists (fun u i => term u i), (fun u i => cval rd_ops rd_gt0 n F (noise ev u) logits i).
  exists (rsum (fun j => dl j * wsum (tilt p j) (indices ev) f0 b0) (indices ev) + wsum (fun e => chance (p e)) (indices ev) df b0).
  assert (FE := F_ext ev f df t0 Hf Hext : forall b b', (forall e, valid e ev -> b e = b' e) -> F b = F b').
  assert (N2 : (2 <= 2 * n)%nat) by lia.
  split; [|split].
  - intros u.
    destruct (disarm_x veq anc rd_ops rd_recip rd_gt0 name n ev (noise ev u) logits Hn eq_refl eq_refl) as [x [rg [X1 X2]]].
    assert (C := disarm_c rd_ops rd_recip rd_gt0 name n ev F (noise ev u) logits Hn FE x X2).
    destruct (disarm_estimate veq anc rd_ops rd_recip d_half rd_gt0 dw name n ev F (noise ev u) logits Hn Hev eq_refl eq_refl FE x (row_cost 1 F x) base X2 C nm k lp0 tt)
      as [g [cv [G1 [G2 G3]]]].
    destruct G2 as [a [-> [_ [_ [_ G2]]]]]. destruct C as [c [Ec [_ [_ [_ C]]]]]. injection Ec as <-.
    exists x, rg, a, cv. split; [exact X1|]. split; [exact G1|]. intros i Hi. split; [apply (G2 i []); [exact Hi|constructor]|apply (C i []); [exact Hi|constructor]].
  - apply bernoulli_deriv; auto; [apply NoDup_indices|]. intros e He. apply Hl. now apply in_indices.
  - intros i Hi. change (fun e => chance (p e)) with (coin p). rewrite wsum_coin. set (E := bernoulli p (indices ev) df b0). set (T := fun j => wsum (tilt p j) (indices ev) f0 b0).
    assert (M : mean (indices (n :: ev)) (fun u => rsum (fun e => / 2 * dl e * (wt (p e) (u (i :: e)) * f0 (B i u)) + - (/ 2 * dl e) * (wt (p e) (u (i :: e)) * f0 (B' i u))) (indices ev)) u0
      (rsum (fun e => / 2 * dl e * T e + - (/ 2 * dl e) * - T e) (indices ev))).
    { apply mean_rsum. intros e He. apply mean_plus; apply mean_scal.
      + apply (mean_upper n ev p q_in f0 f0_on); [apply upper_wt, q_in|lia|auto].
      + apply (mean_lower n ev p q_in f0 f0_on); [apply lower_wt, q_in|lia|auto]. }
    rewrite (rsum_ext _ (fun e => dl e * T e)) in M by (intros; field).
    match goal with |- mean _ _ _ ?v => replace v with (rsum (fun e => dl e * T e) (indices ev)) by (unfold T; ring) end.
    eapply mean_ext; [|exact M]. intros u Hu. cbv beta. rewrite term_low by auto.
    rewrite (cval_upper n ev l dl f df t0 Hf Hext) by auto. rewrite (cval_lower n ev Hn l dl f df t0 Hf Hext) by auto. cbn [fst].
    rewrite (Rmult_comm (rsum _ _)), <- rsum_scal. apply rsum_ext. intros e _. unfold B, B', f0, p. ring.
Qed.
End DisarmGradient.
