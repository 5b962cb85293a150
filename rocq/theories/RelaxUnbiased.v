(** The expectation of RELAX's gradient: one sample, and the average of several. *)
From Coq Require Import List Arith Bool Lia Reals Lra Permutation.
From Coquelicot Require Import Coquelicot.
From Verif Require Import SpecArm SpecExpect SpecRelax ArmMean RelaxedLaw Expect Expect2 RelaxSubst RelaxRows RelaxDiff RelaxExpect RelaxGrad.
Import ListNotations.
Local Open Scope R_scope.

Lemma deriv_rsum : forall {A} (xs : list A) (f : A -> R -> R) (f' : A -> R) t0, (forall x, In x xs -> derivable_pt_lim (f x) t0 (f' x)) -> derivable_pt_lim (fun t => rsum (fun x => f x t) xs) t0 (rsum f' xs).
Proof.
  intros A xs f f' t0. induction xs as [|x xs IH]; intros H; [exact (derivable_pt_lim_const 0 t0)|].
  apply (derivable_pt_lim_plus (f x) (fun t => rsum (fun x => f x t) xs)); [apply H; now left|apply IH; intros; apply H; now right].
Qed.
Lemma configs_any : forall K rows b0 b, NoDup rows -> good K rows b -> exists b', In b' (configs K rows b0) /\ forall r, In r rows -> b' r = b r.
Proof.
  intros K rows. induction rows as [|r rows IH]; intros b0 b N Hb; [exists b0; split; [now left|intros r []]|]. inversion N as [|? ? N1 N2]; subst.
  destruct (IH (at_index b0 r (b r)) b N2) as [b' [B1 B2]]; [intros r' Hr'; apply Hb; now right|]. exists b'. split.
  - cbn [configs]. apply in_flat_map. exists (b r). split; [apply in_seq; specialize (Hb r (or_introl eq_refl)); lia|exact B1].
  - intros r' [<-|Hr']; [|now apply B2]. rewrite (config_out K rows _ b' r B1 N1). apply at_same.
Qed.
Lemma config_good : forall K rows b0 b, NoDup rows -> In b (configs K rows b0) -> good K rows b.
Proof.
  intros K rows. induction rows as [|r rows IH]; intros b0 b N Hb r' Hr'; [destruct Hr'|]. inversion N as [|? ? N1 N2]; subst. cbn [configs] in Hb. apply in_flat_map in Hb. destruct Hb as [j [Hj Hb]]. apply in_seq in Hj.
  destruct Hr' as [<-|Hr']; [|now apply (IH _ b N2 Hb)]. rewrite (config_out K rows _ b r Hb N1), at_same. lia.
Qed.

Section Sample.
Variable K : nat.
Variable rows : list idx.
Variable tau : R.
Variable p : idx -> nat -> R -> R.
Variable dp : idx -> nat -> R.
Variable t0 rho : R.
Hypothesis HK : (0 < K)%nat.
Hypothesis ND : NoDup rows.
Hypothesis Htau : 0 < tau.
Hypothesis Hrho : 0 < rho.
Notation pt := (fun t r j => p r j t).
Hypothesis Hp : forall t, Rabs (t - t0) < rho -> forall r, In r rows -> probs_row K (pt t) r.
Hypothesis Hdp : forall r j, In r rows -> (j < K)%nat -> derivable_pt_lim (p r j) t0 (dp r j).
Let l := noise K rows.
Let Hp0 := Hp0 K rows p t0 rho Hrho Hp.
Variable b0 : idx -> nat.

(** The derivative of the logarithm of the probability of [b]. *)
Definition dlog (b : idx -> nat) : R := rsum (fun r => dp r (b r) / p r (b r) t0) rows.
Lemma chance_deriv : forall rs b, incl rs rows -> good K rows b -> derivable_pt_lim (fun t => chance (pt t) rs b) t0 (chance (pt t0) rs b * rsum (fun r => dp r (b r) / p r (b r) t0) rs).
Proof.
  induction rs as [|r rs IH]; intros b Hi Hb; cbn [chance fold_right rsum]; [rewrite Rmult_0_r; exact (derivable_pt_lim_const 1 t0)|].
  assert (Hr : In r rows) by (apply Hi; now left). pose proof (proj1 (Hp0 r Hr) (b r) (Hb r Hr)) as P. cbv beta in P.
  pose proof (derivable_pt_lim_mult (p r (b r)) (fun t => chance (pt t) rs b) t0 _ _ (Hdp r (b r) Hr (Hb r Hr)) (IH b (fun y Hy => Hi y (or_intror Hy)) Hb)) as D.
  change (derivable_pt_lim (fun t => p r (b r) t * chance (pt t) rs b) t0 (p r (b r) t0 * chance (pt t0) rs b * (dp r (b r) / p r (b r) t0 + rsum (fun r => dp r (b r) / p r (b r) t0) rs))).
  refine (eq_ind _ (fun z => derivable_pt_lim (fun t => p r (b r) t * chance (pt t) rs b) t0 z) D _ _). field. lra.
Qed.
Theorem categorical_deriv : forall (f : (idx -> nat) -> R -> R) df, (forall b, In b (configs K rows b0) -> derivable_pt_lim (f b) t0 (df b)) ->
  derivable_pt_lim (fun t => categorical K (pt t) rows (fun b => f b t) b0) t0 (categorical K (pt t0) rows (fun b => dlog b * f b t0 + df b) b0).
Proof.
  intros f df Hf. rewrite categorical_configs by exact ND.
  assert (D : derivable_pt_lim (fun t => rsum (fun b => chance (pt t) rows b * f b t) (configs K rows b0)) t0 (rsum (fun b => chance (pt t0) rows b * (dlog b * f b t0 + df b)) (configs K rows b0))).
  { apply (deriv_rsum _ (fun b t => chance (pt t) rows b * f b t)). intros b Hb. replace (chance (pt t0) rows b * (dlog b * f b t0 + df b)) with (chance (pt t0) rows b * dlog b * f b t0 + chance (pt t0) rows b * df b) by ring.
    apply (derivable_pt_lim_mult (fun t => chance (pt t) rows b) (f b)); [|now apply Hf]. apply chance_deriv; [apply incl_refl|]. now apply (config_good K rows b0). }
  apply is_derive_Reals in D. apply is_derive_Reals. eapply is_derive_ext; [|exact D]. intros t. cbv beta. symmetry. now apply categorical_configs.
Qed.

Variable c : (idx -> R) -> R.
Variable dc : idx -> (idx -> R) -> R.
Hypothesis Hc : smooth l c dc.
Variable f : (idx -> nat) -> R -> R.
Variable df : (idx -> nat) -> R.
Hypothesis Hf : forall b, derivable_pt_lim (f b) t0 (df b).
Hypothesis Hfe : forall b b', (forall r, In r rows -> b r = b' r) -> forall t, f b t = f b' t.
Variable eta : R.
(** The option chosen in every row, which is the one with the largest value. *)
Variable pick : (idx -> R) -> idx -> nat.
Hypothesis Hpick : forall u, open_cube l u -> good K rows (pick u).
Hypothesis Hwin : forall u b, open_cube l u -> good K rows b -> wins K (pt t0) rows b u = true -> forall r, In r rows -> pick u r = b r.

Notation zc b v := (zc K tau (pt t0) b v).
Notation Dc b := (Dc K rows tau p dp t0 dc b).
Notation Dz := (Dz K rows tau p dp t0 dc).
Notation Cc b t := (Cc K rows tau p c b t).
Notation Cz t := (Cz K rows tau p c t).
(** The derivative of the loss of one sample: the noise is [u] for the sample and [v] for resampling. *)
Definition sample_grad (u v : idx -> R) : R :=
  let b := pick u in dlog b * (f b t0 - eta * c (zc b v)) + df b + eta * (Dz u - Dc b v).
Definition sample_mean (u : idx -> R) : R :=
  let b := pick u in dlog b * (f b t0 - eta * Cc b t0) + df b + eta * (Dz u - ev l (Dc b)).

Lemma t0_in : Rabs (t0 - t0) < rho. Proof. rewrite Rminus_eq_0, Rabs_R0. exact Hrho. Qed.
Lemma df_ext : forall b b', (forall r, In r rows -> b r = b' r) -> df b = df b'.
Proof. intros b b' E. apply (uniqueness_limite (f b) t0); [apply Hf|]. apply is_derive_Reals. eapply is_derive_ext; [|apply is_derive_Reals, (Hf b')]. intros t. symmetry. now apply Hfe. Qed.
Lemma dlog_ext : forall b b', (forall r, In r rows -> b r = b' r) -> dlog b = dlog b'.
Proof. intros b b' E. unfold dlog. apply rsum_ext'. intros r Hr. now rewrite (E r Hr). Qed.
Lemma b_ext : forall t b b' v e, (forall r, In r rows -> b r = b' r) -> In e l -> wc tau (pt t) b v e = wc tau (pt t) b' v e /\ share (pt t) b v e = share (pt t) b' v e.
Proof. intros t b b' v e E He. apply in_noise in He. destruct He as [r [j [Hr [-> Hj]]]]. unfold wc, share. rewrite !row_key, (E r Hr). auto. Qed.
Lemma zc_ext : forall t b b' v e, (forall r, In r rows -> b r = b' r) -> In e l -> RelaxExpect.zc K tau (pt t) b v e = RelaxExpect.zc K tau (pt t) b' v e.
Proof.
  intros t b b' v e E He. unfold RelaxExpect.zc, norm. rewrite (proj1 (b_ext t b b' v e E He)). f_equal. apply in_noise in He. destruct He as [r [j [Hr [-> Hj]]]]. rewrite row_key. apply rowsum_ext. intros i Hi. apply b_ext; [exact E|now apply in_l].
Qed.
Lemma c_ext : forall t b b' v, (forall r, In r rows -> b r = b' r) -> c (RelaxExpect.zc K tau (pt t) b v) = c (RelaxExpect.zc K tau (pt t) b' v).
Proof. intros t b b' v E. destruct Hc as [CC _]. apply (cont_out K rows); [exact CC|now apply zc_cube|]. intros e He. now apply zc_ext. Qed.
Lemma Dc_ext : forall b b' v, (forall r, In r rows -> b r = b' r) -> Dc b v = Dc b' v.
Proof.
  intros b b' v E. destruct Hc as [_ [CD _]]. unfold RelaxGrad.Dc. apply rsum_ext'. intros e He. assert (EZ : forall e, In e l -> zc b v e = zc b' v e) by (intros; now apply zc_ext).
  f_equal; [apply (cont_out K rows); [now apply CD|now apply zc_cube|exact EZ]|]. assert (ES : forall e, In e l -> dshare tau p dp t0 b v e = dshare tau p dp t0 b' v e) by (intros e' He'; unfold dshare; now rewrite (proj2 (b_ext t0 b b' v e' E He'))).
  unfold lin. rewrite EZ, ES by exact He. f_equal. f_equal. apply in_noise in He. destruct He as [r [j [Hr [-> Hj]]]]. rewrite row_key. apply rowsum_ext. intros i Hi. now rewrite EZ, ES by now apply in_l.
Qed.
Lemma ev_ext : forall F G v, (forall u, open_cube l u -> F u = G u) -> expect l F v -> ev l F = ev l G.
Proof. intros F G v E H. rewrite (expect_ev _ _ _ H). symmetry. apply expect_ev. now apply (expect_ext l F G). Qed.

Lemma Cc_ex : forall b t, good K rows b -> Rabs (t - t0) < rho -> expect l (fun v => c (RelaxExpect.zc K tau (pt t) b v)) (Cc b t).
Proof. intros b t Hb Ht. exact (Cc_expect K rows tau p t0 rho HK ND Htau Hp c dc Hc b Hb t Ht). Qed.
Lemma Dc_ex : forall b, good K rows b -> expect l (Dc b) (ev l (Dc b)).
Proof. intros b Hb. destruct (Dc_expect K rows tau p dp t0 rho HK ND Htau Hrho Hp c dc Hc b Hb) as [d Hd]. exact (eq_ind_r (fun x => expect l (Dc b) x) Hd (expect_ev l (Dc b) d Hd)). Qed.
Lemma Dz_ex : expect l Dz (ev l Dz).
Proof. destruct (Dz_expect K rows tau p dp t0 rho HK ND Htau Hrho Hp c dc Hc) as [d Hd]. exact (eq_ind_r (fun x => expect l Dz x) Hd (expect_ev l Dz d Hd)). Qed.

(** The law of total expectation for the control variate, and its derivative. *)
Lemma Cz_total : forall t, Rabs (t - t0) < rho -> Cz t = categorical K (pt t) rows (fun b => Cc b t) b0.
Proof.
  intros t Ht. apply (total_law K (pt t) rows b0 (fun u => c (zz K tau (pt t) u)) (Cz t) (fun b => Cc b t) ND (Hp t Ht)).
  - exact (Cz_expect K rows tau p t0 rho HK ND Htau Hp c dc Hc t Ht).
  - intros b Hb. apply (config_good K rows b0 b ND) in Hb. apply (expect_ext l (fun v => c (RelaxExpect.zc K tau (pt t) b v))); [|now apply Cc_ex].
    intros v Hv. destruct Hc as [CC _]. apply (cont_out K rows); [exact CC|now apply zc_cube|]. intros e He. symmetry. now apply (z_subst K rows tau ND (pt t) (Hp t Ht)).
Qed.
Lemma Dz_total : ev l Dz = categorical K (pt t0) rows (fun b => dlog b * Cc b t0 + ev l (Dc b)) b0.
Proof.
  pose proof (Cz_deriv K rows tau p dp t0 rho HK ND Htau Hrho Hp Hdp c dc Hc) as D1.
  pose proof (categorical_deriv (fun b t => Cc b t) (fun b => ev l (Dc b))) as D2.
  specialize (D2 (fun b Hb => Cc_deriv K rows tau p dp t0 rho HK ND Htau Hrho Hp Hdp c dc Hc b (config_good K rows b0 b ND Hb))).
  apply (uniqueness_limite (fun t => categorical K (pt t) rows (fun b => Cc b t) b0) t0); [|exact D2].
  apply is_derive_Reals. apply is_derive_Reals in D1. eapply is_derive_ext_loc; [|exact D1]. exists (mkposreal rho Hrho). intros t Ht. apply Cz_total. exact Ht.
Qed.

Theorem sample_unbiased :
  (forall u, open_cube l u -> expect l (sample_grad u) (sample_mean u)) /\
  expect l sample_mean (categorical K (pt t0) rows (fun b => dlog b * f b t0 + df b) b0) /\
  derivable_pt_lim (fun t => categorical K (pt t) rows (fun b => f b t) b0) t0 (categorical K (pt t0) rows (fun b => dlog b * f b t0 + df b) b0).
Proof.
  split; [|split].
  - intros u Hu. unfold sample_grad, sample_mean. set (b := pick u). assert (Hb : good K rows b) by now apply Hpick.
    pose proof (Cc_ex b t0 Hb t0_in) as E1. pose proof (Dc_ex b Hb) as E2.
    apply (expect_ext l (fun v => (dlog b * f b t0 + df b + eta * Dz u) + ((- (dlog b * eta)) * c (zc b v) + (- eta) * Dc b v))); [intros; ring|].
    replace (dlog b * (f b t0 - eta * Cc b t0) + df b + eta * (Dz u - ev l (Dc b))) with ((dlog b * f b t0 + df b + eta * Dz u) + ((- (dlog b * eta)) * Cc b t0 + (- eta) * ev l (Dc b))) by ring.
    apply expect_plus; [apply expect_const|]. apply expect_plus; apply expect_scal; assumption.
  - set (A := fun b => dlog b * (f b t0 - eta * Cc b t0) + df b - eta * ev l (Dc b)).
    assert (Aext : forall b b', good K rows b -> (forall r, In r rows -> b r = b' r) -> A b = A b').
    { intros b b' Hb E. assert (Hb' : good K rows b') by (intros r Hr; rewrite <- (E r Hr); now apply Hb). unfold A. rewrite (dlog_ext b b' E), (Hfe b b' E t0), (df_ext b b' E).
      assert (X1 : Cc b t0 = Cc b' t0) by (apply (ev_ext _ _ (Cc b t0)); [intros v _; now apply c_ext|apply Cc_ex; [exact Hb|exact t0_in]]).
      assert (X2 : ev l (Dc b) = ev l (Dc b')) by (apply (ev_ext _ _ (ev l (Dc b))); [intros v _; now apply Dc_ext|now apply Dc_ex]). now rewrite X1, X2. }
    assert (EA : expect l (fun u => A (pick u)) (categorical K (pt t0) rows A b0)).
    { apply (options_law K (pt t0) rows b0 A (fun u => A (pick u)) ND Hp0).
      - intros u Hu. destruct (configs_any K rows b0 (pick u) ND (Hpick u Hu)) as [b [B1 B2]]. exists b. split; [exact B1|]. symmetry. apply Aext; [now apply (config_good K rows b0)|exact B2].
      - intros b u Hb Hu Hw. apply Aext; [now apply Hpick|]. apply Hwin; auto. now apply (config_good K rows b0). }
    pose proof (expect_plus l _ _ _ _ EA (expect_scal l eta _ _ Dz_ex)) as E.
    replace (categorical K (pt t0) rows (fun b => dlog b * f b t0 + df b) b0) with (categorical K (pt t0) rows A b0 + eta * ev l Dz).
    + eapply expect_ext; [|exact E]. intros u _. unfold A, sample_mean. cbv zeta. ring.
    + rewrite Dz_total, !categorical_configs by exact ND. rewrite <- rsum_scal, <- rsum_plus. apply rsum_ext'. intros b _. unfold A. ring.
  - apply categorical_deriv. intros b _. apply Hf.
Qed.
End Sample.

(** ** Several samples *)
Section Rename.
Variable i : nat.
Let m (l : list idx) := map (cons i) l.
Let g (u : idx -> R) : idx -> R := fun e => u (i :: e).
Lemma cube_rename : forall l u, cube (m l) u -> cube l (g u). Proof. intros l u H e He. apply (H (i :: e)). now apply in_map. Qed.
Lemma open_rename : forall l u, open_cube (m l) u -> open_cube l (g u). Proof. intros l u H e He. apply (H (i :: e)). now apply in_map. Qed.
Lemma cont_rename : forall l F, cont_on l F -> cont_on (m l) (fun u => F (g u)).
Proof.
  intros l F [[B HB] HC]. split; [exists B; intros u Hu; apply HB, cube_rename, Hu|]. intros eps He. destruct (HC eps He) as [d [Hd H]]. exists d. split; [exact Hd|]. intros u w Hu Hw E.
  apply H; [now apply cube_rename|now apply cube_rename|]. intros e Hin. apply (E (i :: e)). now apply in_map.
Qed.
Lemma at_rename : forall u e x e', g (at_index u (i :: e) x) e' = at_index (g u) e x e'.
Proof. intros u e x e'. unfold g, at_index. destruct (list_eq_dec Nat.eq_dec (i :: e') (i :: e)) as [E|E], (list_eq_dec Nat.eq_dec e' e) as [E'|E']; congruence. Qed.
Lemma mean_rename : forall l F F' u u' v, mean l F u v ->
  (forall w w', (forall e, ~ In e l -> w e = u e) -> (forall e, ~ In e l -> w' (i :: e) = u' (i :: e)) -> (forall e, In e l -> w' (i :: e) = w e) -> inner l w -> F' w' = F w) -> mean (m l) F' u' v.
Proof.
  induction l as [|e l IH]; intros F F' u u' v Hm H; cbn [mean m map] in *.
  - rewrite <- Hm. apply H; [reflexivity|reflexivity|intros ? []|intros ? []].
  - destruct Hm as [k [K1 K2]]. exists k. split; [|exact K2]. intros x Hx. apply (IH F F' (at_index u e x) (at_index u' (i :: e) x)); [now apply K1|]. intros w w' W W' Ww Wi.
    assert (We : w' (i :: e) = w e). { destruct (in_dec eq_idx e l) as [I|I]; [now apply Ww|]. rewrite W, W' by exact I. now rewrite !at_same. }
    assert (Wi' : 0 < w e < 1). { destruct (in_dec eq_idx e l) as [I|I]; [now apply Wi|]. rewrite W by exact I. now rewrite at_same. }
    apply H.
    + intros e' Ne. rewrite W by (intro; apply Ne; now right). apply at_other. intros ->. apply Ne. now left.
    + intros e' Ne. rewrite W' by (intro; apply Ne; now right). apply at_other. intros [= ->]. apply Ne. now left.
    + intros e' [<-|He]; [exact We|now apply Ww].
    + intros e' [<-|He]; [exact Wi'|now apply Wi].
Qed.
Lemma expect_rename : forall l F v, expect l F v -> expect (m l) (fun u => F (g u)) v.
Proof.
  intros l F v H d Hd. destruct (H d Hd) as [L [U [CL [CU [HLU M]]]]]. exists (fun u => L (g u)), (fun u => U (g u)). split; [now apply cont_rename|]. split; [now apply cont_rename|]. split; [intros u Hu; now apply HLU, open_rename|].
  assert (X : forall G x, cont_on l G -> (forall u, mean l G u x) -> forall u, mean (m l) (fun u => G (g u)) u x).
  { intros G x CG MG u. apply (mean_rename l G (fun u => G (g u)) u u x (MG u)). intros w w' _ _ Ww Wi. apply (cont_same l); [exact CG| | |intros e He; now apply Ww].
    - intros e He. unfold g. rewrite Ww by exact He. specialize (Wi e He). lra.
    - intros e He. specialize (Wi e He). lra. }
  intros u0. destruct (M u0) as [a [b [Ma [Mb [Ha Hb]]]]]. exists a, b. split; [apply X; [exact CL|now apply mean_any with u0]|]. split; [apply X; [exact CU|now apply mean_any with u0]|]. auto.
Qed.
End Rename.

Definition each (n : nat) (l : list idx) : list idx := flat_map (fun i => map (cons i) l) (seq 0 n).
Lemma in_each : forall n l e, In e (each n l) <-> exists i e', e = i :: e' /\ (i < n)%nat /\ In e' l.
Proof.
  intros n l e. unfold each. rewrite in_flat_map. split.
  - intros [i [Hi H]]. apply in_map_iff in H. destruct H as [e' [<- He]]. apply in_seq in Hi. exists i, e'. split; [reflexivity|]. split; [lia|exact He].
  - intros [i [e' [-> [Hi He]]]]. exists i. split; [apply in_seq; lia|]. now apply in_map.
Qed.
Lemma each_nodup : forall n l, NoDup l -> NoDup (each n l).
Proof.
  intros n l N. unfold each. generalize 0%nat. induction n as [|n IH]; intros a; cbn [seq flat_map]; [constructor|]. apply ListLemmas.NoDup_app_intro; [|apply IH|].
  - apply FinFun.Injective_map_NoDup; [intros x y E; now injection E|exact N].
  - intros e H1 H2. apply in_map_iff in H1. destruct H1 as [e1 [<- _]]. apply in_flat_map in H2. destruct H2 as [i [Hi H2]]. apply in_map_iff in H2. destruct H2 as [e2 [E _]]. injection E as -> _. apply in_seq in Hi. lia.
Qed.
Lemma expect_each : forall n l F v i, NoDup l -> (i < n)%nat -> expect l F v -> expect (each n l) (fun u => F (fun e => u (i :: e))) v.
Proof.
  intros n l F v i N Hi H. pose proof (expect_rename i l F v H) as H1.
  assert (P : exists r, Permutation (r ++ map (cons i) l) (each n l)).
  { unfold each. destruct (in_split i (seq 0 n)) as [A [B E]]; [apply in_seq; lia|]. rewrite E, flat_map_app. cbn [flat_map]. exists (flat_map (fun i => map (cons i) l) A ++ flat_map (fun i => map (cons i) l) B).
    rewrite <- app_assoc. apply Permutation_app_head. apply Permutation_app_comm. }
  destruct P as [r P]. apply (expect_weaken (map (cons i) l) r (each n l)); [exact P|now apply each_nodup|exact H1].
Qed.

(** The average of independent samples has the expectation of one sample. *)
Theorem average_unbiased : forall n l (g : (idx -> R) -> (idx -> R) -> R) (h : (idx -> R) -> R) d, (0 < n)%nat -> NoDup l ->
  (forall u, open_cube l u -> expect l (g u) (h u)) -> expect l h d ->
  let row i (u : idx -> R) e := u (i :: e) in
  (forall u, open_cube (each n l) u -> expect (each n l) (fun v => / INR n * rsum (fun i => g (row i u) (row i v)) (seq 0 n)) (/ INR n * rsum (fun i => h (row i u)) (seq 0 n))) /\
  expect (each n l) (fun u => / INR n * rsum (fun i => h (row i u)) (seq 0 n)) d.
Proof.
  intros n l g h d Hn N Hg Hh row. split.
  - intros u Hu. apply expect_scal. apply (expect_rsum (seq 0 n) (each n l) (fun i v => g (row i u) (row i v)) (fun i => h (row i u))). intros i Hi. apply in_seq in Hi.
    apply (expect_each n l (g (row i u)) (h (row i u)) i N); [lia|]. apply Hg. intros e He. apply Hu. apply in_each. exists i, e. split; [reflexivity|]. split; [lia|exact He].
  - replace d with (/ INR n * rsum (fun _ => d) (seq 0 n)).
    + apply expect_scal. apply (expect_rsum (seq 0 n) (each n l) (fun i u => h (row i u)) (fun _ => d)). intros i Hi. apply in_seq in Hi. apply (expect_each n l h d i N); [lia|exact Hh].
    + assert (E : forall a k, rsum (fun _ : nat => d) (seq a k) = INR k * d). { intros a k. revert a. induction k as [|k IH]; intros a; [change (0 = INR 0 * d); simpl; ring|]. change (d + rsum (fun _ : nat => d) (seq (S a) k) = INR (S k) * d). rewrite IH, S_INR. ring. }
      rewrite E. field. apply not_0_INR. lia.
Qed.
