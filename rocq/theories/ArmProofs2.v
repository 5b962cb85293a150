(** The expected loss of a program with ARM, and its derivative. *)
From Coq Require Import String List Arith Bool ZArith Lia Reals Lra FunctionalExtensionality.
From Coquelicot Require Import Coquelicot.
From Verif Require Import Base Torch Plates Wrap Scalar Reduce Graph Surrogate Estimators Arm SpecTensor SpecSurrogate SpecArm ListLemmas Dual ProgramWitness BiasProofs2 BiasProofs3 ArmProofs ArmMean.
Import ListNotations.
Open Scope R_scope.

(** What torch computes on numbers with a derivative. *)
Definition rd_recip (n : nat) : RD := (/ INR n, 0).
Definition rd_gt0 (v : RD) : bool := if Rlt_dec 0 (fst v) then true else false.
Definition rd_logistic (loc z : RD) : RD := (logistic_lp (fst loc) (fst z), (2 * sig (fst z - fst loc) - 1) * (snd loc - snd z)).
(** [rd_logistic] is the logarithm of the density with its derivative. *)
Lemma rd_logistic_right : forall (l z : R -> R) dl dz t0, derivable_pt_lim l t0 dl -> derivable_pt_lim z t0 dz ->
  derivable_pt_lim (fun t => logistic_lp (l t) (z t)) t0 (snd (rd_logistic (l t0, dl) (z t0, dz))).
Proof.
  intros l z dl dz t0 Dl Dz. apply is_derive_Reals in Dl, Dz. apply is_derive_Reals. unfold rd_logistic, logistic_lp, logistic_density. cbn [fst snd].
  set (w := fun t => z t - l t). assert (Dw : is_derive w t0 (dz - dl)) by (apply (is_derive_minus z l t0 dz dl); auto).
  assert (E : is_derive (fun x => ln (exp (- x) / ((1 + exp (- x)) * (1 + exp (- x))))) (w t0) (1 - 2 * sig (w t0))).
  { assert (P := exp_pos (- w t0)). auto_derive; [|unfold sig; field; split; lra].
    repeat split; try lra; [nra|]. apply Rmult_lt_0_compat; [lra|]. apply Rinv_0_lt_compat. nra. }
  pose proof (is_derive_comp _ w t0 _ _ E Dw) as D.
  change (scal (dz - dl) (1 - 2 * sig (w t0))) with ((dz - dl) * (1 - 2 * sig (w t0))) in D.
  replace ((2 * sig (z t0 - l t0) - 1) * (dl - dz)) with ((dz - dl) * (1 - 2 * sig (w t0))) by (unfold w; ring). exact D.
Qed.
(** A cost of binary values, and the noise as a tensor. *)
Definition bits (v : idx -> RD) : idx -> bool := fun e => if Req_EM_T (fst (v e)) 1 then true else false.
Definition noise (ev : list nat) (u : idx -> R) (k : nat) : ten RD := mkten (k :: ev) (fun i => (logistic_quantile (u i), 0)).

Lemma sig_quantile : forall u, 0 < u < 1 -> sig (logistic_quantile u) = u.
Proof.
  intros u H. unfold sig, logistic_quantile. assert (P : 0 < u / (1 - u)) by (apply Rdiv_lt_0_compat; lra).
  rewrite exp_Ropp, exp_ln by exact P. field. lra.
Qed.
Lemma sig_opp : forall x, sig (- x) = 1 - sig x.
Proof. intros x. unfold sig. rewrite Ropp_involutive, exp_Ropp. assert (P := exp_pos x). field. lra. Qed.
Lemma sig_lt : forall x y, x < y -> sig x < sig y.
Proof.
  intros x y H. unfold sig. assert (P := exp_pos (- x)). assert (Q := exp_pos (- y)). assert (I : exp (- y) < exp (- x)) by (apply exp_increasing; lra).
  apply Rinv_lt_contravar; nra.
Qed.
Lemma sig_lt' : forall x y, sig x < sig y -> x < y.
Proof. intros x y H. destruct (Rtotal_order x y) as [L|[E|L]]; auto; [subst; lra|]. apply sig_lt in L. lra. Qed.
Lemma upper_gt0 : forall u l, 0 < u < 1 -> (if Rlt_dec 0 (logistic_quantile u + l) then true else false) = upper (sig l) u.
Proof.
  intros u l H. unfold upper. pose proof (sig_quantile u H) as E. destruct (Rlt_dec 0 _) as [A|A], (Rlt_dec (1 - sig l) u) as [B|B]; auto; exfalso.
  - apply B. rewrite <- E, <- sig_opp. apply sig_lt. lra.
  - apply A. rewrite <- E, <- sig_opp in B. apply sig_lt' in B. lra.
Qed.
Lemma lower_gt0 : forall u l, 0 < u < 1 -> (if Rlt_dec 0 (- logistic_quantile u + l) then true else false) = lower (sig l) u.
Proof.
  intros u l H. unfold lower. pose proof (sig_quantile u H) as E. destruct (Rlt_dec 0 _) as [A|A], (Rlt_dec u (sig l)) as [B|B]; auto; exfalso.
  - apply B. rewrite <- E at 1. apply sig_lt. lra.
  - apply A. rewrite <- E in B at 1. apply sig_lt' in B. lra.
Qed.

Lemma rd_osum : forall {A} (f : A -> RD) l, osum rd_ops (map f l) = (rsum (fun x => fst (f x)) l, rsum (fun x => snd (f x)) l).
Proof. intros A f l. induction l as [|x l IH]; [reflexivity|]. cbn [map osum fold_right rsum]. unfold osum in IH. rewrite IH. reflexivity. Qed.
Lemma rsum_ext : forall {A} (f g : A -> R) l, (forall x, In x l -> f x = g x) -> rsum f l = rsum g l.
Proof.
  intros A f g l. induction l as [|x l IH]; intros H; [reflexivity|]. cbn [rsum fold_right]. rewrite H by (now left). f_equal. apply IH. intros; apply H; now right.
Qed.
Lemma rsum_scal : forall {A} k (f : A -> R) l, rsum (fun x => k * f x) l = k * rsum f l.
Proof. intros A k f l. unfold rsum. induction l as [|x l IH]; cbn [fold_right]; [ring|]. rewrite IH. ring. Qed.
Lemma rsum_plus : forall {A} (f g : A -> R) l, rsum (fun x => f x + g x) l = rsum f l + rsum g l.
Proof. intros A f g l. unfold rsum. induction l as [|x l IH]; cbn [fold_right]; [ring|]. rewrite IH. ring. Qed.
Lemma rsum_const : forall {A} k (l : list A), rsum (fun _ => k) l = INR (length l) * k.
Proof. intros A k l. unfold rsum. induction l as [|x l IH]; cbn [fold_right length]; [simpl; ring|]. rewrite IH, S_INR. ring. Qed.
Lemma length_flat : forall {A B} (f : A -> list B) k l, (forall x, In x l -> length (f x) = k) -> length (flat_map f l) = (length l * k)%nat.
Proof.
  intros A B f k l. induction l as [|x l IH]; intros H; [reflexivity|]. cbn [flat_map length]. rewrite app_length, IH by (intros; apply H; now right).
  rewrite H by (now left). lia.
Qed.
Lemma length_indices : forall shp, length (indices shp) = lprod shp.
Proof.
  induction shp as [|n shp IH]; [reflexivity|]. cbn [indices lprod fold_right]. unfold lprod in IH.
  rewrite (length_flat _ (fold_right Nat.mul 1%nat shp)) by (intros; now rewrite map_length). now rewrite seq_length.
Qed.

(** Only the variables of one sample matter. *)
Lemma wsum_sample : forall A n ev i f b, (i < n)%nat -> (forall j e, j <> i -> A (j :: e) true + A (j :: e) false = 1) ->
  wsum A (indices (n :: ev)) (fun b => f (fun e => b (i :: e))) b = wsum (fun e => A (i :: e)) (indices ev) f (fun e => b (i :: e)).
Proof.
  intros A n ev i f b Hi HA. cbn [indices]. replace (seq 0 n) with (seq 0 i ++ i :: seq (S i) (n - S i)).
  2:{ replace n with (i + S (n - S i))%nat at 2 by lia. rewrite seq_app. reflexivity. }
  rewrite flat_map_app. cbn [flat_map]. rewrite wsum_app.
  assert (Other : forall j k s, In (j :: k) (flat_map (fun i => map (cons i) (indices ev)) s) -> In j s).
  { intros j k s H. apply in_flat_map in H. destruct H as [x [H1 H2]]. apply in_map_iff in H2. destruct H2 as [y [H2 _]]. injection H2 as -> _. exact H1. }
  assert (Shape : forall e s, In e (flat_map (fun i => map (cons i) (indices ev)) s) -> exists j k, e = j :: k /\ In j s).
  { intros e s H. pose proof H as H'. apply in_flat_map in H. destruct H as [x [H1 H2]]. apply in_map_iff in H2. destruct H2 as [y [<- _]]. eauto. }
  assert (Mid : forall b, wsum A (map (cons i) (indices ev) ++ flat_map (fun i => map (cons i) (indices ev)) (seq (S i) (n - S i))) (fun b => f (fun e => b (i :: e))) b =
    wsum (fun e => A (i :: e)) (indices ev) f (fun e => b (i :: e))).
  { intros b'. rewrite wsum_app. rewrite (wsum_fext _ _ _ (fun b => f (fun e => b (i :: e)))); [apply wsum_block|]. intros b''. apply (wsum_skip A _ (fun b => f (fun e => b (i :: e)))).
    - intros e He. apply Shape in He. destruct He as [j [k [-> Hj]]]. apply in_seq in Hj. apply HA. lia.
    - intros e c x He. apply Shape in He. destruct He as [j [k [-> Hj]]]. apply in_seq in Hj. f_equal. apply functional_extensionality. intros e'.
      apply at_other. intros E. injection E as E _. lia. }
  rewrite (wsum_fext _ _ _ _ _ Mid). apply (wsum_skip A _ (fun b => wsum (fun e => A (i :: e)) (indices ev) f (fun e => b (i :: e)))).
  - intros e He. apply Shape in He. destruct He as [j [k [-> Hj]]]. apply in_seq in Hj. apply HA. lia.
  - intros e c x He. apply Shape in He. destruct He as [j [k [-> Hj]]]. apply in_seq in Hj. f_equal. apply functional_extensionality. intros e'.
    apply at_other. intros E. injection E as E _. lia.
Qed.
Lemma prod_one : forall l u, prod (fun _ => one) l u = 1.
Proof. intros l u. induction l as [|e l IH]; cbn [prod]; [reflexivity|]. rewrite IH. unfold one. ring. Qed.
Definition at_one (g : R -> R) (j : idx) (e : idx) : R -> R := if eq_idx e j then g else one.
Lemma prod_at_one : forall g j l u, NoDup l -> In j l -> prod (at_one g j) l u = g (u j).
Proof.
  intros g j l u. induction l as [|e l IH]; intros N I; [destruct I|]. inversion N as [|? ? N1 N2]; subst. cbn [prod]. unfold at_one at 1.
  destruct (eq_idx e j) as [->|Ne].
  - assert (E : forall k, ~ In j k -> prod (at_one g j) k u = 1).
    { induction k as [|e k IHk]; intros H; cbn [prod]; [reflexivity|]. rewrite IHk by (intro; apply H; now right).
      unfold at_one. destruct (eq_idx e j) as [->|]; [exfalso; apply H; now left|]. unfold one. ring. }
    rewrite E by auto. ring.
  - destruct I as [I|I]; [congruence|]. rewrite IH by auto. unfold one. ring.
Qed.

Section Gradient.
Variables (n : nat) (ev : list nat).
Variable p : idx -> R.
Hypothesis Hp : forall e, 0 < p e < 1.
Let L := indices (n :: ev).
Let up (e : idx) : R -> bool := upper (p (tl e)).
Let lo (e : idx) : R -> bool := lower (p (tl e)).
Variable f : (idx -> bool) -> R.
Hypothesis Hf : on (indices ev) f.
Let b0 : idx -> bool := fun _ => false.

Lemma mean_plain : forall i u, (i < n)%nat -> mean L (fun u => f (fun e => upper (p e) (u (i :: e)))) u (bernoulli p (indices ev) f b0).
Proof.
  intros i u Hi.
  pose proof (mean_bits (fun _ => one) up (fun e => chance (p (tl e))) L (fun b => f (fun e => b (i :: e))) u (fun e _ => upper_one _ (Hp (tl e))) (NoDup_indices _)) as M.
  unfold L in M at 3. rewrite wsum_sample in M; [|exact Hi|intros; unfold chance; ring].
  rewrite (wsum_on _ _ _ _ b0 Hf) in M. rewrite <- wsum_coin. eapply mean_ext; [|exact M]. intros u' _. cbv beta. rewrite prod_one, Rmult_1_l. reflexivity.
Qed.
Lemma mean_upper : forall g i j u, splits g (upper (p j)) (slope (p j)) -> (i < n)%nat -> In j (indices ev) ->
  mean L (fun u => g (u (i :: j)) * f (fun e => upper (p e) (u (i :: e)))) u (wsum (tilt p j) (indices ev) f b0).
Proof.
  intros g i j u Hg Hi Hj. set (A := fun e => if eq_idx e (i :: j) then slope (p (tl e)) else chance (p (tl e))).
  assert (Ij : In (i :: j) L) by (unfold L; apply in_indices; constructor; [lia|now apply in_indices]).
  assert (HA : forall e, In e L -> splits (at_one g (i :: j) e) (up e) (A e)).
  { intros e _. unfold at_one, A, up. destruct (eq_idx e (i :: j)) as [->|]; [exact Hg|apply upper_one, Hp]. }
  pose proof (mean_bits (at_one g (i :: j)) up A L (fun b => f (fun e => b (i :: e))) u HA (NoDup_indices _)) as M.
  unfold L in M at 3. rewrite wsum_sample in M; [|exact Hi|intros j' e Hne; unfold A; destruct (eq_idx (j' :: e) (i :: j)); [congruence|unfold chance; ring]].
  rewrite (wsum_on _ _ _ _ b0 Hf) in M. rewrite (wsum_ext _ (tilt p j)) in M.
  2:{ intros e x _. unfold A, tilt. cbn [tl]. destruct (eq_idx (i :: e) (i :: j)), (eq_idx e j); congruence. }
  eapply mean_ext; [|exact M]. intros u' _. cbv beta. rewrite prod_at_one; [reflexivity|apply NoDup_indices|exact Ij].
Qed.
Lemma mean_lower : forall g i j u, splits g (lower (p j)) (fun b => -1 * slope (p j) b) -> (i < n)%nat -> In j (indices ev) ->
  mean L (fun u => g (u (i :: j)) * f (fun e => lower (p e) (u (i :: e)))) u (- wsum (tilt p j) (indices ev) f b0).
Proof.
  intros g i j u Hg Hi Hj. set (A := fun e => if eq_idx e (i :: j) then (fun b => -1 * slope (p (tl e)) b) else chance (p (tl e))).
  assert (Ij : In (i :: j) L) by (unfold L; apply in_indices; constructor; [lia|now apply in_indices]).
  assert (HA : forall e, In e L -> splits (at_one g (i :: j) e) (lo e) (A e)).
  { intros e _. unfold at_one, A, lo. destruct (eq_idx e (i :: j)) as [->|]; [exact Hg|apply lower_one, Hp]. }
  pose proof (mean_bits (at_one g (i :: j)) lo A L (fun b => f (fun e => b (i :: e))) u HA (NoDup_indices _)) as M.
  unfold L in M at 3. rewrite wsum_sample in M; [|exact Hi|intros j' e Hne; unfold A; destruct (eq_idx (j' :: e) (i :: j)); [congruence|unfold chance; ring]].
  rewrite (wsum_on _ _ _ _ b0 Hf) in M. rewrite (wsum_ext _ (scale_at j (-1) (tilt p j))) in M.
  2:{ intros e x _. unfold A, tilt, scale_at. cbn [tl]. destruct (eq_idx (i :: e) (i :: j)), (eq_idx e j); congruence. }
  rewrite wsum_scale in M by (auto; apply NoDup_indices).
  replace (- wsum (tilt p j) (indices ev) f b0) with (-1 * wsum (tilt p j) (indices ev) f b0) by ring.
  eapply mean_ext; [|exact M]. intros u' _. cbv beta. rewrite prod_at_one; [reflexivity|apply NoDup_indices|exact Ij].
Qed.
Lemma mean_plain_lower : forall i u, (i < n)%nat -> mean L (fun u => f (fun e => lower (p e) (u (i :: e)))) u (bernoulli p (indices ev) f b0).
Proof.
  intros i u Hi.
  pose proof (mean_bits (fun _ => one) lo (fun e => chance (p (tl e))) L (fun b => f (fun e => b (i :: e))) u (fun e _ => lower_one _ (Hp (tl e))) (NoDup_indices _)) as M.
  unfold L in M at 3. rewrite wsum_sample in M; [|exact Hi|intros; unfold chance; ring].
  rewrite (wsum_on _ _ _ _ b0 Hf) in M. rewrite <- wsum_coin. eapply mean_ext; [|exact M]. intros u' _. cbv beta. rewrite prod_one, Rmult_1_l. reflexivity.
Qed.
End Gradient.

Section ArmGradient.
Variables (name : string) (n : nat) (ev : list nat).
Hypothesis Hn : (1 <= n)%nat.
Variables (l : idx -> R -> R) (dl : idx -> R) (f : (idx -> bool) -> R -> R) (df : (idx -> bool) -> R) (t0 : R).
Hypothesis Hl : forall e, valid e ev -> derivable_pt_lim (l e) t0 (dl e).
Hypothesis Hf : forall b, derivable_pt_lim (f b) t0 (df b).
Hypothesis Hext : forall b b', (forall e, valid e ev -> b e = b' e) -> forall t, f b t = f b' t.
Let p (e : idx) : R := sig (l e t0).
Let F (v : idx -> RD) : RD := (f (bits v) t0, df (bits v)).
Let logits : ten RD := mkten ev (fun e => (l e t0, dl e)).

Lemma df_ext : forall b b', (forall e, valid e ev -> b e = b' e) -> df b = df b'.
Proof.
  intros b b' H. apply (uniqueness_limite (f b) t0); [apply Hf|]. replace (f b) with (f b') by (apply functional_extensionality; intros; now apply Hext, (fun e He => eq_sym (H e He))). apply Hf.
Qed.
Let f0 (b : idx -> bool) : R := f b t0.
Lemma f0_on : on (indices ev) f0.
Proof. intros b b' H. apply Hext. intros e He. apply H. now apply in_indices. Qed.
Lemma df_on : on (indices ev) df.
Proof. intros b b' H. apply df_ext. intros e He. apply H. now apply in_indices. Qed.
Lemma F_ext : forall b b', (forall e, valid e ev -> b e = b' e) -> F b = F b'.
Proof.
  intros b b' H. assert (E : forall e, valid e ev -> bits b e = bits b' e) by (intros e He; unfold bits; now rewrite H).
  unfold F. f_equal; [now apply Hext|now apply df_ext].
Qed.
Let B (i : nat) (u : idx -> R) : idx -> bool := fun e => upper (p e) (u (i :: e)).
Let B' (i : nat) (u : idx -> R) : idx -> bool := fun e => lower (p e) (u (i :: e)).
Let loss_at (u : idx -> R) (e : idx) (i : nat) : RD := sample_loss rd_ops rd_exp d_half rd_logistic rd_gt0 n F (noise ev u) logits i e.

Lemma one_neq_zero : (if Req_EM_T 0 1 then true else false) = false.
Proof. destruct (Req_EM_T 0 1); [lra|reflexivity]. Qed.
Lemma cval_upper : forall u i, inner (indices (n :: ev)) u -> (i < n)%nat -> cval rd_ops rd_gt0 n F (noise ev u) logits i = (f0 (B i u), df (B i u)).
Proof.
  intros u i Hu Hi. unfold cval, F.
  assert (E : forall e, valid e ev -> bits (bval rd_ops rd_gt0 n (noise ev u) logits i) e = B i u e).
  { intros e He. assert (I : 0 < u (i :: e) < 1) by (apply Hu, in_indices; constructor; auto). unfold B, p. rewrite <- upper_gt0 by auto.
    unfold bits, bval, zval, rd_gt0. replace (i <? n)%nat with true by (symmetry; now apply Nat.ltb_lt). cbn [el noise logits fst rd_ops dual_ops o_add o_one o_zero real_ops].
    destruct (Rlt_dec 0 (logistic_quantile (u (i :: e)) + l e t0)); cbn [fst]; [destruct (Req_EM_T 1 1); congruence|apply one_neq_zero]. }
  unfold f0. f_equal; [now apply Hext|now apply df_ext].
Qed.
Lemma cval_lower : forall u i, inner (indices (n :: ev)) u -> (i < n)%nat -> cval rd_ops rd_gt0 n F (noise ev u) logits (n + i) = (f0 (B' i u), df (B' i u)).
Proof.
  intros u i Hu Hi. unfold cval, F.
  assert (E : forall e, valid e ev -> bits (bval rd_ops rd_gt0 n (noise ev u) logits (n + i)) e = B' i u e).
  { intros e He. assert (I : 0 < u (i :: e) < 1) by (apply Hu, in_indices; constructor; auto). unfold B', p. rewrite <- lower_gt0 by auto.
    unfold bits, bval, zval, rd_gt0. replace (n + i <? n)%nat with false by (symmetry; apply Nat.ltb_ge; lia). replace (n + i - n)%nat with i by lia.
    cbn [el noise logits fst rd_ops dual_ops o_add o_opp o_one o_zero real_ops].
    destruct (Rlt_dec 0 (- logistic_quantile (u (i :: e)) + l e t0)); cbn [fst]; [destruct (Req_EM_T 1 1); congruence|apply one_neq_zero]. }
  unfold f0. f_equal; [now apply Hext|now apply df_ext].
Qed.
Lemma loss_at_eq : forall u e i, inner (indices (n :: ev)) u -> (i < n)%nat -> valid e ev ->
  loss_at u e i = (f0 (B i u), df (B i u) + dl e * / 2 * (lean (u (i :: e)) * f0 (B i u)) + - (dl e * / 2) * (lean (u (i :: e)) * f0 (B' i u))).
Proof.
  intros u e i Hu Hi He. unfold loss_at, sample_loss. rewrite cval_upper, cval_lower by auto. cbv zeta.
  assert (I : 0 < u (i :: e) < 1) by (apply Hu, in_indices; constructor; auto).
  assert (Bx : box rd_ops rd_exp (rd_logistic (el logits e) (o_det rd_ops (zval rd_ops n (noise ev u) logits i e))) = (1, lean (u (i :: e)) * dl e)).
  { unfold box, rd_exp, dual_exp, rd_logistic, zval. replace (i <? n)%nat with true by (symmetry; now apply Nat.ltb_lt).
    cbn [el noise logits fst snd rd_ops dual_ops o_add o_det o_sub o_mul o_zero real_ops].
    rewrite Rminus_diag_eq by reflexivity. rewrite exp_0. f_equal.
    replace (logistic_quantile (u (i :: e)) + l e t0 - l e t0) with (logistic_quantile (u (i :: e))) by ring. rewrite sig_quantile by auto. unfold lean. ring. }
  rewrite Bx. unfold rd_ops, dual_ops, d_half. cbn [o_add o_mul o_sub o_one o_zero real_ops fst snd]. f_equal; field.
Qed.

Definition arm_total (u : idx -> R) : RD := osum rd_ops (map (fun e => o_mul rd_ops (rd_recip n) (osum rd_ops (map (fun i => loss_at u e i) (seq 0 n)))) (indices ev)).
Lemma arm_total_eq : forall u, arm_total u =
  (rsum (fun e => / INR n * rsum (fun i => fst (loss_at u e i)) (seq 0 n)) (indices ev), rsum (fun e => / INR n * rsum (fun i => snd (loss_at u e i)) (seq 0 n)) (indices ev)).
Proof.
  intros u. unfold arm_total. rewrite rd_osum. f_equal; apply rsum_ext; intros e _; rewrite rd_osum; unfold rd_ops, dual_ops, rd_recip; cbn [o_mul o_add real_ops fst snd]; ring.
Qed.
Lemma recip_n : / INR n * INR n = 1.
Proof. apply Rinv_l. apply not_0_INR. lia. Qed.
Lemma p_in : forall e, 0 < p e < 1. Proof. intros e. apply sig_pos. Qed.
Let b0 : idx -> bool := fun _ => false.

Lemma arm_value : forall u, mean (indices (n :: ev)) (fun u => fst (arm_total u)) u (INR (lprod ev) * bernoulli p (indices ev) f0 b0).
Proof.
  intros u. set (E := bernoulli p (indices ev) f0 b0).
  assert (M : mean (indices (n :: ev)) (fun u => rsum (fun e => / INR n * rsum (fun i => f0 (B i u)) (seq 0 n)) (indices ev)) u
    (rsum (fun e => / INR n * rsum (fun i => E) (seq 0 n)) (indices ev))).
  { apply mean_rsum. intros e He. apply mean_scal. apply mean_rsum. intros i Hi. apply in_seq in Hi. apply (mean_plain n ev p p_in f0 f0_on). lia. }
  replace (INR (lprod ev) * E) with (rsum (fun e => / INR n * rsum (fun i => E) (seq 0 n)) (indices ev)).
  2:{ rewrite rsum_const, rsum_const, seq_length, length_indices. transitivity (INR (lprod ev) * (/ INR n * INR n) * E); [ring|]. rewrite recip_n. ring. }
  eapply mean_ext; [|exact M]. intros u' Hu. cbv beta. rewrite arm_total_eq. cbn [fst]. apply rsum_ext. intros e He. f_equal. apply rsum_ext. intros i Hi.
  apply in_seq in Hi. apply in_indices in He. rewrite loss_at_eq by (auto; lia). reflexivity.
Qed.
Lemma arm_slope : forall u, mean (indices (n :: ev)) (fun u => snd (arm_total u)) u
  (rsum (fun j => dl j * wsum (tilt p j) (indices ev) f0 b0) (indices ev) + INR (lprod ev) * bernoulli p (indices ev) df b0).
Proof.
  intros u. set (E := bernoulli p (indices ev) df b0). set (T := fun j => wsum (tilt p j) (indices ev) f0 b0).
  assert (M : mean (indices (n :: ev)) (fun u => rsum (fun e => / INR n * rsum (fun i =>
      df (B i u) + dl e * / 2 * (lean (u (i :: e)) * f0 (B i u)) + - (dl e * / 2) * (lean (u (i :: e)) * f0 (B' i u))) (seq 0 n)) (indices ev)) u
    (rsum (fun e => / INR n * rsum (fun i => E + dl e * / 2 * T e + - (dl e * / 2) * - T e) (seq 0 n)) (indices ev))).
  { apply mean_rsum. intros e He. apply mean_scal. apply mean_rsum. intros i Hi. apply in_seq in Hi.
    apply mean_plus; [apply mean_plus|]; try apply mean_scal.
    - apply (mean_plain n ev p p_in df df_on). lia.
    - apply (mean_upper n ev p p_in f0 f0_on); [apply upper_lean, p_in|lia|auto].
    - apply (mean_lower n ev p p_in f0 f0_on); [apply lower_lean, p_in|lia|auto]. }
  change (rsum (fun j => dl j * wsum (tilt p j) (indices ev) f0 b0) (indices ev)) with (rsum (fun j => dl j * T j) (indices ev)).
  replace (rsum (fun j => dl j * T j) (indices ev) + INR (lprod ev) * E)
    with (rsum (fun e => / INR n * rsum (fun i => E + dl e * / 2 * T e + - (dl e * / 2) * - T e) (seq 0 n)) (indices ev)).
  2:{ rewrite (rsum_ext _ (fun e => E + dl e * T e)); [rewrite rsum_plus, rsum_const, length_indices; ring|]. intros e _. rewrite rsum_const, seq_length.
      transitivity ((/ INR n * INR n) * (E + dl e * T e)); [field|rewrite recip_n; ring]. apply not_0_INR. lia. }
  eapply mean_ext; [|exact M]. intros u' Hu. cbv beta. rewrite arm_total_eq. cbn [snd]. apply rsum_ext. intros e He. f_equal. apply rsum_ext. intros i Hi.
  apply in_seq in Hi. apply in_indices in He. rewrite loss_at_eq by (auto; lia). reflexivity.
Qed.

Theorem arm_gradient : forall veq anc_unwrap base u0, exists (loss : (idx -> R) -> RD) gradient,
  (forall u, exists t, arm_program veq anc_unwrap rd_ops rd_exp rd_recip d_half rd_logistic rd_gt0 name n F (noise ev u) logits base = Ok t /\
     shape t = [] /\ el t [] = loss u) /\
  derivable_pt_lim (fun t => bernoulli (fun e => sig (l e t)) (indices ev) (fun b => f b t) b0) t0 gradient /\
  mean (indices (n :: ev)) (fun u => snd (loss u)) u0 (gradient + (INR (lprod ev) - 1) * bernoulli p (indices ev) df b0) /\
  mean (indices (n :: ev)) (fun u => fst (loss u)) u0 (INR (lprod ev) * bernoulli p (indices ev) f0 b0).
Proof.
  intros veq anc base u0. exists arm_total.
  exists (rsum (fun j => dl j * wsum (tilt p j) (indices ev) f0 b0) (indices ev) + wsum (fun e => chance (p e)) (indices ev) df b0).
  split; [|split; [|split; [|apply arm_value]]].
  - intros u. apply (arm_loss veq anc rd_ops rd_ring); auto. exact F_ext.
  - apply bernoulli_deriv; auto; [apply NoDup_indices|]. intros e He. apply Hl. now apply in_indices.
  - change (fun e => chance (p e)) with (coin p). rewrite wsum_coin.
    match goal with |- mean _ _ _ ?v => replace v with (rsum (fun j => dl j * wsum (tilt p j) (indices ev) f0 b0) (indices ev) + INR (lprod ev) * bernoulli p (indices ev) df b0) by ring end.
    apply arm_slope.
Qed.
End ArmGradient.
