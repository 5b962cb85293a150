(** The change of variables for several rows of noise. *)
From Coq Require Import List Arith Bool Lia Reals Lra Permutation FunctionalExtensionality.
From Coquelicot Require Import Coquelicot.
From Verif Require Import SpecArm SpecExpect SpecRelax ArmMean RelaxedLaw Expect Expect2 RelaxSubst.
Import ListNotations.
Local Open Scope R_scope.

Definition key (r : idx) (j : nat) : idx := r ++ [j].
Lemma key_inj : forall r j r' j', key r j = key r' j' -> r = r' /\ j = j'.
Proof. intros. apply app_inj_tail in H. exact H. Qed.
Lemma key_last : forall r j, last (key r j) 0%nat = j. Proof. intros. apply last_last. Qed.

Section Rows.
Variable K : nat.
Definition cells (r : idx) : list idx := map (key r) (seq 0 K).
Definition noise (rows : list idx) : list idx := flat_map cells rows.
Definition rest (k : nat) : list nat := filter (fun j => negb (Nat.eqb j k)) (seq 0 K).
Definition oth (r : idx) (k : nat) : list idx := map (key r) (rest k).
Definition turn (r : idx) (k : nat) : list idx := key r k :: oth r k.
Definition turns (rows : list idx) (b : idx -> nat) : list idx := flat_map (fun r => turn r (b r)) rows.

Lemma in_rest : forall k j, In j (rest k) <-> (j < K)%nat /\ j <> k.
Proof. intros k j. unfold rest. rewrite filter_In, in_seq, negb_true_iff, Nat.eqb_neq. lia. Qed.
Lemma in_oth : forall r k e, In e (oth r k) <-> exists j, e = key r j /\ (j < K)%nat /\ j <> k.
Proof. intros r k e. unfold oth. rewrite in_map_iff. split; intros [j H]; exists j; rewrite in_rest in *; intuition congruence. Qed.
Lemma in_cells : forall r e, In e (cells r) <-> exists j, e = key r j /\ (j < K)%nat.
Proof. intros r e. unfold cells. rewrite in_map_iff. split; intros [j H]; exists j; rewrite in_seq in *; split; try symmetry; intuition lia. Qed.
Lemma in_noise : forall rows e, In e (noise rows) <-> exists r j, In r rows /\ e = key r j /\ (j < K)%nat.
Proof.
  intros rows e. unfold noise. rewrite in_flat_map. split.
  - intros [r [H1 H2]]. apply in_cells in H2. destruct H2 as [j H2]. exists r, j. tauto.
  - intros [r [j [H1 [H2 H3]]]]. exists r. split; [exact H1|]. apply in_cells. eauto.
Qed.
Lemma rest_nodup : forall k, NoDup (rest k). Proof. intros k. apply NoDup_filter, seq_NoDup. Qed.
Lemma rest_perm : forall k, (k < K)%nat -> Permutation (k :: rest k) (seq 0 K).
Proof.
  intros k Hk. apply NoDup_Permutation; [constructor; [rewrite in_rest; tauto|apply rest_nodup]|apply seq_NoDup|]. intros j. simpl. rewrite in_rest, in_seq.
  split; [intros [<-|H]; lia|]. intros H. destruct (Nat.eq_dec k j); [now left|right; lia].
Qed.
Lemma turn_perm : forall r k, (k < K)%nat -> Permutation (turn r k) (cells r).
Proof. intros r k Hk. unfold turn, oth, cells. rewrite <- (map_cons (key r) k). now apply Permutation_map, rest_perm. Qed.
Lemma turns_perm : forall rows b, (forall r, In r rows -> (b r < K)%nat) -> Permutation (turns rows b) (noise rows).
Proof.
  induction rows as [|r rows IH]; intros b Hb; [constructor|]. cbn [turns noise flat_map]. apply Permutation_app; [apply turn_perm, Hb; now left|]. apply IH. intros; apply Hb; now right.
Qed.
Lemma cells_nodup : forall r, NoDup (cells r).
Proof. intros r. unfold cells. apply FinFun.Injective_map_NoDup; [intros x y E; now apply key_inj in E|apply seq_NoDup]. Qed.
Lemma noise_nodup : forall rows, NoDup rows -> NoDup (noise rows).
Proof.
  induction rows as [|r rows IH]; intros ND; [constructor|]. inversion ND as [|? ? N1 N2]; subst. cbn [noise flat_map]. apply ListLemmas.NoDup_app_intro; [apply cells_nodup|now apply IH|].
  intros e H1 H2. apply in_cells in H1. destruct H1 as [j [-> _]]. apply in_noise in H2. destruct H2 as [r' [j' [R1 [R2 _]]]]. apply key_inj in R2. destruct R2 as [-> _]. contradiction.
Qed.

Variable p : idx -> nat -> R.
(** Noise with which option [k] of row [r] is the largest, from any noise. *)
Definition subst_row (r : idx) (k : nat) (u : idx -> R) : idx -> R := fun e =>
  if in_dec eq_idx e (oth r k) then u e * pw (p r (last e 0%nat)) (u (key r k)) else if eq_idx e (key r k) then pw (p r k) (u e) else u e.
Fixpoint subst (rows : list idx) (b : idx -> nat) (u : idx -> R) : idx -> R :=
  match rows with [] => u | r :: rows => subst rows b (subst_row r (b r) u) end.
Definition races_row (r : idx) (k : nat) : list race := map (fun j => (key r j, key r k, p r j / p r k)) (rest k).
Definition races (rows : list idx) (b : idx -> nat) : list race := flat_map (fun r => races_row r (b r)) rows.
Definition wins (rows : list idx) (b : idx -> nat) (u : idx -> R) : bool := forallb (ahead u) (races rows b).
Definition chance (rows : list idx) (b : idx -> nat) : R := fold_right (fun r x => p r (b r) * x) 1 rows.

Definition probs_row (r : idx) : Prop := (forall j, (j < K)%nat -> 0 < p r j) /\ rsum (p r) (seq 0 K) = 1.
Lemma rsum_pos : forall (f : nat -> R) l, (forall x, In x l -> 0 <= f x) -> 0 <= rsum f l.
Proof. intros f l. induction l as [|x l IH]; intros H; cbn [rsum fold_right]; [lra|]. specialize (IH (fun y Hy => H y (or_intror Hy))). specialize (H x (or_introl eq_refl)). unfold rsum in IH. lra. Qed.
Lemma rsum_perm : forall (f : nat -> R) l l', Permutation l l' -> rsum f l = rsum f l'.
Proof. intros f l l' H. unfold rsum. induction H; cbn [fold_right]; lra. Qed.
Lemma probs_split : forall r k, probs_row r -> (k < K)%nat -> p r k + rsum (p r) (rest k) = 1.
Proof. intros r k [_ H] Hk. rewrite <- H. rewrite <- (rsum_perm (p r) _ _ (rest_perm k Hk)). reflexivity. Qed.
Lemma probs_le : forall r k, probs_row r -> (k < K)%nat -> p r k <= 1.
Proof. intros r k H Hk. pose proof (probs_split r k H Hk). assert (0 <= rsum (p r) (rest k)); [|lra]. apply rsum_pos. intros j Hj. apply in_rest in Hj. left. now apply H. Qed.

Lemma sub_key : forall r k u, subst_row r k u (key r k) = pw (p r k) (u (key r k)).
Proof.
  intros r k u. unfold subst_row. destruct in_dec as [H|_]; [apply in_oth in H; destruct H as [j [E [_ H]]]; apply key_inj in E; exfalso; destruct E; congruence|]. destruct eq_idx; [reflexivity|congruence].
Qed.
Lemma sub_oth : forall r k j u, (j < K)%nat -> j <> k -> subst_row r k u (key r j) = u (key r j) * pw (p r j) (u (key r k)).
Proof. intros r k j u Hj Hne. unfold subst_row. destruct in_dec as [_|H]; [now rewrite key_last|]. exfalso. apply H, in_oth. eauto. Qed.
Lemma sub_out : forall r k u e, ~ In e (turn r k) -> subst_row r k u e = u e.
Proof. intros r k u e H. unfold subst_row. destruct in_dec as [I|_]; [exfalso; apply H; now right|]. destruct eq_idx as [->|_]; [exfalso; apply H; now left|reflexivity]. Qed.
Lemma sub_cube : forall r k l u, probs_row r -> (k < K)%nat -> In (key r k) l -> cube l u -> cube l (subst_row r k u).
Proof.
  intros r k l u Hp Hk Hl Hu e He. destruct (in_dec eq_idx e (turn r k)) as [I|I]; [|rewrite sub_out by exact I; now apply Hu].
  destruct I as [<-|I]; [rewrite sub_key; apply pw_range; [now apply Hp|now apply Hu]|].
  apply in_oth in I. destruct I as [j [-> [Hj Hne]]]. rewrite sub_oth by auto. pose proof (pw_range (p r j) (u (key r k)) (proj1 Hp j Hj) (Hu _ Hl)). specialize (Hu _ He). nra.
Qed.
Lemma pw_open : forall a x, 0 < a -> 0 < x < 1 -> 0 < pw a x < 1.
Proof. intros a x Ha Hx. rewrite pw_pos by lra. split; [apply exp_pos|]. rewrite <- exp_0. apply exp_increasing. assert (ln x < 0) by (rewrite <- ln_1; apply ln_increasing; lra). nra. Qed.
Lemma sub_open : forall r k l u, probs_row r -> (k < K)%nat -> In (key r k) l -> open_cube l u -> open_cube l (subst_row r k u).
Proof.
  intros r k l u Hp Hk Hl Hu e He. destruct (in_dec eq_idx e (turn r k)) as [I|I]; [|rewrite sub_out by exact I; now apply Hu].
  destruct I as [<-|I]; [rewrite sub_key; apply pw_open; [now apply Hp|now apply Hu]|].
  apply in_oth in I. destruct I as [j [-> [Hj Hne]]]. rewrite sub_oth by auto. pose proof (pw_open (p r j) (u (key r k)) (proj1 Hp j Hj) (Hu _ Hl)). specialize (Hu _ He). nra.
Qed.

(** Continuous functions of several continuous functions. *)
Lemma cont_vec : forall l m (c : (idx -> R) -> R) (Z : idx -> (idx -> R) -> R), cont_on m c -> (forall e, In e m -> cont_on l (Z e)) -> (forall e u, In e m -> cube l u -> 0 <= Z e u <= 1) ->
  cont_on l (fun u => c (fun e => Z e u)).
Proof.
  intros l m c Z [[B HB] Uc] CZ RZ. split; [exists B; intros u Hu; apply HB; intros e He; now apply RZ|].
  intros eps He. destruct (Uc eps He) as [d [Hd Ud]].
  assert (Q : forall ys, incl ys m -> exists q, 0 < q /\ forall u w, cube l u -> cube l w -> (forall e, In e l -> Rabs (u e - w e) < q) -> forall e, In e ys -> Rabs (Z e u - Z e w) < d).
  { induction ys as [|y ys IH]; intros Hi; [exists 1; split; [lra|intros u w _ _ _ e []]|]. destruct (IH (fun z Hz => Hi z (or_intror Hz))) as [q [Hq Q]].
    destruct (CZ y (Hi y (or_introl eq_refl))) as [_ Uy]. destruct (Uy d Hd) as [q' [Hq' Q']]. exists (Rmin q q'). split; [now apply Rmin_glb_lt|].
    intros u w Hu Hw Hd' e [<-|Hin]; [apply Q'; auto; intros e' He'; specialize (Hd' e' He'); pose proof (Rmin_r q q'); lra|].
    apply Q; auto. intros e' He'. specialize (Hd' e' He'). pose proof (Rmin_l q q'). lra. }
  destruct (Q m (incl_refl m)) as [q [Hq Q']]. exists q. split; [exact Hq|]. intros u w Hu Hw Hc. apply Ud; [intros e Hin; now apply RZ|intros e Hin; now apply RZ|]. intros e Hin. now apply Q'.
Qed.
Lemma sub_cont : forall r k l H, probs_row r -> (k < K)%nat -> In (key r k) l -> cont_on l H -> cont_on l (fun u => H (subst_row r k u)).
Proof.
  intros r k l H Hp Hk Hl CH. apply (cont_vec l l H (fun e u => subst_row r k u e) CH); [|intros e u He Hu; now apply (sub_cube r k l u)].
  assert (PC : forall j, (j < K)%nat -> cont_on l (fun u => pw (p r j) (u (key r k)))).
  { intros j Hj. apply (cont_comp l (fun u => u (key r k)) (pw (p r j)) 0 1); [intros u Hu; now apply Hu| |now apply cont_coord]. intros x Hx. apply pw_cont_pt; [now apply Hp|lra]. }
  intros e He. destruct (in_dec eq_idx e (turn r k)) as [I|I].
  - destruct I as [<-|I]; [apply (cont_ext l (fun u => pw (p r k) (u (key r k)))); [intros; symmetry; apply sub_key|now apply PC]|].
    apply in_oth in I. destruct I as [j [-> [Hj Hne]]]. apply (cont_ext l (fun u => u (key r j) * pw (p r j) (u (key r k)))); [intros; symmetry; now apply sub_oth|].
    apply cont_mult; [now apply cont_coord|now apply PC].
  - apply (cont_ext l (fun u => u e)); [intros; symmetry; now apply sub_out|now apply cont_coord].
Qed.

(** ** One row *)
Lemma unif_clip : forall g, unif g -> forall x, continuous (fun y => g (clip y)) x.
Proof.
  intros g Hg x. apply continuity_pt_filterlim. intros e He. destruct (Hg e He) as [d [Hd Hu]]. exists d. split; [exact Hd|]. intros y [_ Hy]. unfold dist in *. simpl in *. unfold R_dist in *.
  apply Hu; [apply clip_in|apply clip_in|]. pose proof (clip_lip y x). lra.
Qed.
Lemma key_not_oth : forall r k, ~ In (key r k) (oth r k).
Proof. intros r k C. apply in_oth in C. destruct C as [j [E [_ Hne]]]. apply key_inj in E. destruct E. congruence. Qed.
Lemma oth_nodup : forall r k, NoDup (oth r k).
Proof. intros r k. unfold oth. apply FinFun.Injective_map_NoDup; [intros x y E; now apply key_inj in E|apply rest_nodup]. Qed.
Lemma prod_oth : forall r k (q : R), probs_row r -> (k < K)%nat -> prod_over (fun e => exp (p r (last e 0%nat) * q)) (oth r k) = exp ((1 - p r k) * q).
Proof.
  intros r k q Hp Hk. rewrite <- (probs_split r k Hp Hk). replace (p r k + rsum (p r) (rest k) - p r k) with (rsum (p r) (rest k)) by ring. unfold oth. clear.
  induction (rest k) as [|j l IH]; [cbn; now rewrite Rmult_0_l, exp_0|]. cbn [map prod_over fold_right rsum]. fold (prod_over (fun e => exp (p r (last e 0%nat) * q)) (map (key r) l)). rewrite IH, key_last, <- exp_plus. f_equal. unfold rsum. ring.
Qed.

Theorem row_law : forall r k m H J u, probs_row r -> (k < K)%nat -> cont_on (turn r k ++ m) H -> cube m u -> mean (turn r k) (fun w => H (subst_row r k w)) u J ->
  mean (turn r k) (fun w => if forallb (ahead w) (races_row r k) then H w else 0) u (p r k * J).
Proof.
  intros r k m H J u Hp Hk CH Cu Hm. unfold turn in *. set (kk := key r k) in *.
  assert (CS : cont_on ((kk :: oth r k) ++ m) (fun w => H (subst_row r k w))) by (apply sub_cont; auto; now left).
  destruct (mean_cont (oth r k) (kk :: m) (fun w => H (subst_row r k w))) as [G [G1 G2]].
  { apply (cont_incl ((kk :: oth r k) ++ m)); [|exact CS]. intros e. simpl. rewrite !in_app_iff. simpl. tauto. }
  pose proof (slice_unif m kk G u G1 Cu) as UG. set (g := fun x => G (at_index u kk x)) in *.
  assert (Ig : is_RInt (fun x => g (clip x)) 0 1 J).
  { destruct Hm as [g0 [M1 M2]]. apply (is_RInt_ext (V := R_NormedModule) g0); [|exact M2]. intros x Hx. rewrite Rmin_left, Rmax_right in Hx by lra. rewrite clip_id by lra.
    apply (mean_unique (oth r k) (fun w => H (subst_row r k w)) (at_index u kk x)); [now apply M1|]. apply G2. apply cube_at; [exact Cu|lra]. }
  pose proof (proj1 Hp k Hk) as Pk. pose proof (probs_le r k Hp Hk) as Lk.
  pose proof (power_subst (p r k) J (fun x => g (clip x)) (conj Pk Lk) (fun x _ => unif_clip g UG x) Ig) as PS. cbn [mean]. eexists. split; [|exact PS].
  intros x Hx. cbv beta. set (q := ln x / p r k). set (y := exp q). assert (Lx : ln x < 0) by (rewrite <- ln_1; apply ln_increasing; lra).
  assert (Q0 : q < 0) by (unfold q; apply Ropp_lt_cancel; rewrite Ropp_0; unfold Rdiv; rewrite Ropp_mult_distr_l; apply Rdiv_lt_0_compat; lra).
  assert (Y : 0 < y < 1) by (unfold y; split; [apply exp_pos|rewrite <- exp_0; now apply exp_increasing]). rewrite clip_id by lra.
  rewrite <- (prod_oth r k q Hp Hk). set (a := fun e : idx => exp (p r (last e 0%nat) * q)).
  assert (Aj : forall j, (j < K)%nat -> 0 < exp (p r j * q) < 1) by (intros j Hj; split; [apply exp_pos|]; rewrite <- exp_0; apply exp_increasing; pose proof (proj1 Hp j Hj); nra).
  assert (PWx : forall j, pw (p r j / p r k) x = exp (p r j * q)) by (intros j; rewrite pw_pos by lra; f_equal; unfold q; field; lra).
  assert (PWy : forall j, pw (p r j) y = exp (p r j * q)) by (intros j; rewrite pw_pos by lra; f_equal; unfold y; now rewrite ln_exp).
  assert (PWk : pw (p r k) y = x) by (rewrite PWy; unfold q; replace (p r k * (ln x / p r k)) with (ln x) by (field; lra); rewrite exp_ln; lra).
  apply (scale_mean a (oth r k) (fun w => H (subst_row r k w)) _ (at_index u kk y)); [apply oth_nodup| | | |].
  - intros e He. apply in_oth in He. destruct He as [j [-> [Hj _]]]. unfold a. rewrite key_last. specialize (Aj j Hj). lra.
  - intros w w2 A A2 B C. assert (Wk : w kk = y) by (rewrite A by apply key_not_oth; apply at_same). assert (Wk2 : w2 kk = x) by (rewrite A2 by apply key_not_oth; apply at_same).
    assert (C' : forall j, (j < K)%nat -> j <> k -> w2 (key r j) < exp (p r j * q) /\ w (key r j) = w2 (key r j) / exp (p r j * q)).
    { intros j Hj Hne. specialize (C (key r j)). unfold a in C. rewrite key_last in C. apply C, in_oth. eauto. }
    assert (Win : forallb (ahead w2) (races_row r k) = true).
    { apply forallb_forall. intros t Ht. apply in_map_iff in Ht. destruct Ht as [j [<- Hj]]. apply in_rest in Hj. unfold ahead. fold kk. rewrite Wk2, PWx. destruct Rlt_dec as [|D]; [reflexivity|]. exfalso. apply D. now apply C'. }
    rewrite Win. f_equal. apply functional_extensionality. intros e. destruct (in_dec eq_idx e (turn r k)) as [I|I].
    + destruct I as [<-|I]; [rewrite sub_key; fold kk; now rewrite Wk, PWk|]. apply in_oth in I. destruct I as [j [-> [Hj Hne]]]. rewrite sub_oth by auto. fold kk. rewrite Wk, PWy.
      destruct (C' j Hj Hne) as [_ ->]. specialize (Aj j Hj). field. lra.
    + rewrite sub_out by exact I. assert (I1 : ~ In e (oth r k)) by (intro; apply I; now right). rewrite A, A2 by exact I1.
      rewrite !at_other by (intros ->; apply I; now left). reflexivity.
  - intros w2 A2 B [e [He Ce]]. apply in_oth in He. destruct He as [j [-> [Hj Hne]]]. assert (Wk2 : w2 kk = x) by (rewrite A2 by apply key_not_oth; apply at_same).
    destruct (forallb (ahead w2) (races_row r k)) eqn:Win; [|reflexivity]. exfalso. rewrite forallb_forall in Win.
    specialize (Win (key r j, key r k, p r j / p r k)). cbn [ahead] in Win. fold kk in Win. rewrite Wk2, PWx in Win. unfold a in Ce. rewrite key_last in Ce.
    destruct Rlt_dec as [D|D]; [lra|]. discriminate Win. apply in_map_iff. exists j. split; [reflexivity|]. now apply in_rest.
  - apply G2. apply cube_at; [exact Cu|lra].
Qed.

(** ** Several rows *)
Definition fits (rows : list idx) (b : idx -> nat) : Prop := forall r, In r rows -> probs_row r /\ (b r < K)%nat.
Lemma fits_tl : forall r rows b, fits (r :: rows) b -> fits rows b. Proof. intros r rows b H r' Hr. apply H. now right. Qed.
Lemma turn_in_noise : forall rows b r e, fits rows b -> In r rows -> In e (turn r (b r)) -> In e (noise rows).
Proof.
  intros rows b r e H Hr He. destruct (H r Hr) as [_ Hk]. apply in_noise. destruct He as [<-|He]; [exists r, (b r); auto|]. apply in_oth in He. destruct He as [j [-> [Hj _]]]. exists r, j. auto.
Qed.
Lemma subst_cont : forall rows b l H, fits rows b -> incl (noise rows) l -> cont_on l H -> cont_on l (fun u => H (subst rows b u)).
Proof.
  induction rows as [|r rows IH]; intros b l H Hf Hi CH; [exact CH|]. cbn [subst]. destruct (Hf r (or_introl eq_refl)) as [Hp Hk].
  apply (sub_cont r (b r) l (fun u => H (subst rows b u))); auto.
  - apply Hi. apply (turn_in_noise (r :: rows) b r); auto; now left.
  - apply IH; [now apply fits_tl in Hf| |exact CH]. intros e He. apply Hi. cbn [noise flat_map]. apply in_or_app. now right.
Qed.
Lemma subst_open : forall rows b l u, fits rows b -> incl (noise rows) l -> open_cube l u -> open_cube l (subst rows b u).
Proof.
  induction rows as [|r rows IH]; intros b l u Hf Hi Hu; [exact Hu|]. cbn [subst]. destruct (Hf r (or_introl eq_refl)) as [Hp Hk].
  apply IH; [now apply fits_tl in Hf|intros e He; apply Hi; cbn [noise flat_map]; apply in_or_app; now right|]. apply sub_open; auto.
  apply Hi. apply (turn_in_noise (r :: rows) b r); auto; now left.
Qed.
Lemma subst_out : forall rows b u e, fits rows b -> ~ In e (noise rows) -> subst rows b u e = u e.
Proof.
  induction rows as [|r rows IH]; intros b u e Hf Hn; [reflexivity|]. cbn [subst]. rewrite IH; [|now apply fits_tl in Hf|intros C; apply Hn; cbn [noise flat_map]; apply in_or_app; now right].
  apply sub_out. intros C. apply Hn. apply (turn_in_noise (r :: rows) b r); auto. now left.
Qed.
Lemma ahead_same : forall xs u w, (forall x, In x xs -> u (fst (fst x)) = w (fst (fst x)) /\ u (snd (fst x)) = w (snd (fst x))) -> forallb (ahead u) xs = forallb (ahead w) xs.
Proof.
  induction xs as [|[[e e'] q] xs IH]; intros u w H; [reflexivity|]. cbn [forallb]. destruct (H _ (or_introl eq_refl)) as [H1 H2]. cbn [fst snd] in H1, H2. unfold ahead at 1 3. rewrite H1, H2. f_equal.
  apply IH. intros; apply H; now right.
Qed.

Theorem rows_law : forall rows b m H, NoDup rows -> fits rows b -> cont_on (turns rows b ++ m) H -> (forall e, In e m -> ~ In e (noise rows)) -> forall u J, cube m u ->
  mean (turns rows b) (fun w => H (subst rows b w)) u J ->
  mean (turns rows b) (fun w => if wins rows b w then H w else 0) u (chance rows b * J).
Proof.
  induction rows as [|r rows IH]; intros b m H ND Hf CH Dm u J Cu Hm.
  - cbn in *. rewrite Rmult_1_l. exact Hm.
  - inversion ND as [|? ? N1 N2]; subst. destruct (Hf r (or_introl eq_refl)) as [Hp Hk]. pose proof (fits_tl _ _ _ Hf) as Hf'. cbn [turns flat_map] in *. fold (turns rows b) in *.
    assert (Inr : forall e, In e (turns rows b) <-> In e (noise rows)).
    { intros e. split; apply Permutation_in; [|apply Permutation_sym]; apply turns_perm; intros r' Hr'; now apply Hf'. }
    assert (Dis : forall e, In e (turn r (b r)) -> ~ In e (turns rows b)).
    { intros e He C. apply Inr, in_noise in C. destruct C as [r' [j' [R1 [R2 _]]]]. assert (Q : exists j, e = key r j) by (destruct He as [<-|He]; [eauto|apply in_oth in He; destruct He as [j [-> _]]; eauto]).
      destruct Q as [j ->]. apply key_inj in R2. destruct R2 as [-> _]. contradiction. }
    assert (CS : cont_on (turns rows b ++ (turn r (b r) ++ m)) (fun w => H (subst rows b w))).
    { apply subst_cont; [exact Hf'|intros e He; apply in_or_app; left; now apply Inr|]. apply (cont_incl ((turn r (b r) ++ turns rows b) ++ m)); [|exact CH].
      intros e. rewrite !in_app_iff. tauto. }
    destruct (mean_cont (turns rows b) (turn r (b r) ++ m) _ CS) as [J1 [CJ MJ]].
    assert (Cw : forall w, (forall e, ~ In e (turn r (b r)) -> w e = u e) -> inner (turn r (b r)) w -> cube (turn r (b r) ++ m) w).
    { intros w W1 W2 e He. destruct (in_dec eq_idx e (turn r (b r))) as [I|I]; [specialize (W2 e I); lra|]. rewrite W1 by exact I. apply in_app_or in He. destruct He as [He|He]; [contradiction|now apply Cu]. }
    (* the row first *)
    assert (M1 : mean (turn r (b r)) (fun w => J1 (subst_row r (b r) w)) u J).
    { destruct (mean_cont (turn r (b r)) m (fun w => J1 (subst_row r (b r) w))) as [J2 [_ MJ2]]; [apply sub_cont; auto; now left|]. specialize (MJ2 u Cu).
      assert (A : mean (turn r (b r) ++ turns rows b) (fun w => H (subst (r :: rows) b w)) u (J2 u)).
      { apply (mean_app _ _ _ (fun w => J1 (subst_row r (b r) w))); [|exact MJ2]. intros w W1 W2.
        apply (mean_env _ (fun w => H (subst rows b w)) _ (subst_row r (b r) w)).
        - apply MJ. apply sub_cube; [exact Hp|exact Hk|now left|now apply Cw].
        - intros x x' X X' XX _. cbn [subst]. f_equal. f_equal. apply functional_extensionality. intros e.
          destruct (in_dec eq_idx e (turns rows b)) as [I|I].
          + rewrite XX by exact I. apply sub_out. intros C. exact (Dis e C I).
          + rewrite X by exact I. unfold subst_row. rewrite (X' e I), (X' (key r (b r))) by (apply Dis; now left). reflexivity. }
      rewrite (mean_unique _ _ _ _ _ Hm A). exact MJ2. }
    assert (M2 : mean (turn r (b r)) (fun w => if forallb (ahead w) (races_row r (b r)) then chance rows b * J1 w else 0) u (p r (b r) * (chance rows b * J))).
    { apply (row_law r (b r) m (fun w => chance rows b * J1 w)); auto; [now apply cont_scal|]. now apply (mean_scal _ (chance rows b)). }
    cbn [chance fold_right]. fold (chance rows b). rewrite Rmult_assoc. refine (mean_app _ _ _ _ _ _ _ M2). intros w W1 W2.
    assert (WH : forall x, (forall e, ~ In e (turns rows b) -> x e = w e) -> wins (r :: rows) b x = (forallb (ahead w) (races_row r (b r)) && wins rows b x)%bool).
    { intros x Hx. unfold wins. cbn [races flat_map]. rewrite forallb_app. f_equal. apply ahead_same. intros t Ht. apply in_map_iff in Ht. destruct Ht as [j [<- Hj]]. apply in_rest in Hj. cbn [fst snd].
      split; [apply Hx, Dis; right; apply in_oth; exists j; tauto|apply Hx, Dis; now left]. }
    destruct (forallb (ahead w) (races_row r (b r))) eqn:Ew.
    + apply (mean_ext' _ (fun x => if wins rows b x then H x else 0)); [intros x Hx _; now rewrite WH|].
      apply (IH b (turn r (b r) ++ m) H N2 Hf'); [apply (cont_incl ((turn r (b r) ++ turns rows b) ++ m)); [intros e; rewrite !in_app_iff; tauto|exact CH]| |now apply Cw|].
      * intros e He C. apply in_app_or in He. destruct He as [He|He]; [apply (Dis e He); now apply Inr|]. apply (Dm e He). cbn [noise flat_map]. apply in_or_app. now right.
      * apply MJ. now apply Cw.
    + apply (mean_ext' _ (fun _ => 0)); [intros x Hx _; now rewrite WH|apply mean_zero].
Qed.

Lemma races_ok : forall rows b x, fits rows b -> In x (races rows b) -> race_ok (noise rows) x.
Proof.
  intros rows b x Hf Hx. unfold races in Hx. apply in_flat_map in Hx. destruct Hx as [r [Hr Hx]]. apply in_map_iff in Hx. destruct Hx as [j [<- Hj]]. apply in_rest in Hj. destruct Hj as [Hj Hne].
  destruct (Hf r Hr) as [Hp Hk]. split; [apply in_noise; exists r, j; auto|]. split; [apply in_noise; exists r, (b r); auto|]. split; [intros C; apply key_inj in C; destruct C; congruence|].
  apply Rdiv_lt_0_compat; now apply Hp.
Qed.
(** The expectation of a continuous function, where the options [b] are the largest. *)
Theorem wins_expect : forall rows b H w, NoDup rows -> fits rows b -> cont_on (noise rows) H -> expect (noise rows) (fun u => H (subst rows b u)) w ->
  expect (noise rows) (fun u => if wins rows b u then H u else 0) (chance rows b * w).
Proof.
  intros rows b H w ND Hf CH Hw. pose proof (noise_nodup rows ND) as NDn.
  assert (Hk : forall r, In r rows -> (b r < K)%nat) by (intros r Hr; now apply Hf).
  destruct (race_expect (noise rows) (races rows b) H NDn (fun x Hx => races_ok rows b x Hf Hx) CH) as [v Hv].
  pose proof (turns_perm rows b Hk) as PT. pose proof (subst_cont rows b (noise rows) H Hf (incl_refl _) CH) as CS.
  assert (CS' : cont_on (turns rows b) (fun u => H (subst rows b u))) by (apply (cont_incl (noise rows)); [|exact CS]; intros e; apply Permutation_in; now apply Permutation_sym).
  destruct (mean_ex (turns rows b) _ CS') as [J HJ]. 
  assert (EJ : w = J) by (apply (expect_mean (noise rows) (turns rows b) (fun u => H (subst rows b u)) (fun _ => 0) w J); auto; now apply Permutation_sym). subst J.
  pose proof (rows_law rows b [] H ND Hf) as RL. rewrite app_nil_r in RL. specialize (RL (cont_incl _ _ _ (fun e => Permutation_in e (Permutation_sym PT)) CH) (fun e F => match F with end) (fun _ => 0) w (cube_nil _) (HJ _)).
  rewrite <- (expect_mean (noise rows) (turns rows b) (fun u => if wins rows b u then H u else 0) (fun _ => 0) v (chance rows b * w) (Permutation_sym PT) NDn Hv RL). exact Hv.
Qed.
Lemma subst_expect : forall rows b H, NoDup rows -> fits rows b -> cont_on (noise rows) H -> exists w, expect (noise rows) (fun u => H (subst rows b u)) w.
Proof.
  intros rows b H ND Hf CH. pose proof (subst_cont rows b (noise rows) H Hf (incl_refl _) CH) as CS. destruct (mean_ex _ _ CS) as [w Hw]. exists w. now apply (expect_cont _ _ (fun _ => 0)).
Qed.

(** ** All options *)
Fixpoint configs (rows : list idx) (b0 : idx -> nat) : list (idx -> nat) :=
  match rows with [] => [b0] | r :: rows => flat_map (fun j => configs rows (at_index b0 r j)) (seq 0 K) end.
Lemma config_out : forall rows b0 b e, In b (configs rows b0) -> ~ In e rows -> b e = b0 e.
Proof.
  induction rows as [|r rows IH]; intros b0 b e Hb He; [destruct Hb as [<-|[]]; reflexivity|]. cbn [configs] in Hb. apply in_flat_map in Hb. destruct Hb as [j [_ Hb]].
  rewrite (IH _ _ e Hb) by (intro; apply He; now right). apply at_other. intros ->. apply He. now left.
Qed.
Lemma config_fits : forall rows b0 b, NoDup rows -> (forall r, In r rows -> probs_row r) -> In b (configs rows b0) -> fits rows b.
Proof.
  induction rows as [|r rows IH]; intros b0 b ND Hp Hb; [intros r []|]. inversion ND as [|? ? N1 N2]; subst. cbn [configs] in Hb. apply in_flat_map in Hb. destruct Hb as [j [Hj Hb]]. apply in_seq in Hj.
  intros r' [<-|Hr']; [|apply (IH _ _ N2 (fun x Hx => Hp x (or_intror Hx)) Hb _ Hr')]. split; [apply Hp; now left|]. rewrite (config_out _ _ _ r Hb N1), at_same. lia.
Qed.
Lemma rsum_ext' : forall {A} (f g : A -> R) l, (forall x, In x l -> f x = g x) -> rsum f l = rsum g l.
Proof. intros A f g l. induction l as [|x l IH]; intros H; [reflexivity|]. change (f x + rsum f l = g x + rsum g l). rewrite (H x (or_introl eq_refl)), IH; [reflexivity|]. intros; apply H; now right. Qed.
Lemma rsum_app : forall {A} (f : A -> R) l m, rsum f (l ++ m) = rsum f l + rsum f m.
Proof. intros A f l m. induction l as [|x l IH]; [change (rsum f m = 0 + rsum f m); ring|]. change (f x + rsum f (l ++ m) = f x + rsum f l + rsum f m). rewrite IH. ring. Qed.
Lemma rsum_flat : forall {A B} (f : B -> R) (g : A -> list B) l, rsum f (flat_map g l) = rsum (fun x => rsum f (g x)) l.
Proof. intros A B f g l. induction l as [|x l IH]; [reflexivity|]. cbn [flat_map]. rewrite rsum_app, IH. reflexivity. Qed.
Lemma rsum_scal : forall {A} k (f : A -> R) l, rsum (fun x => k * f x) l = k * rsum f l.
Proof. intros A k f l. induction l as [|x l IH]; [cbn; ring|]. change (k * f x + rsum (fun x => k * f x) l = k * (f x + rsum f l)). rewrite IH. ring. Qed.
Lemma rsum_plus : forall {A} (f g : A -> R) l, rsum (fun x => f x + g x) l = rsum f l + rsum g l.
Proof. intros A f g l. induction l as [|x l IH]; [cbn; ring|]. change (f x + g x + rsum (fun x => f x + g x) l = f x + rsum f l + (g x + rsum g l)). rewrite IH. ring. Qed.
Lemma rsum_mono : forall {A} (f g : A -> R) l, (forall x, In x l -> f x <= g x) -> rsum f l <= rsum g l.
Proof. intros A f g l. induction l as [|x l IH]; intros H; [cbn; lra|]. change (f x + rsum f l <= g x + rsum g l). specialize (IH (fun y Hy => H y (or_intror Hy))). specialize (H x (or_introl eq_refl)). lra. Qed.
Lemma categorical_configs : forall rows f b0, NoDup rows -> categorical K p rows f b0 = rsum (fun b => chance rows b * f b) (configs rows b0).
Proof.
  induction rows as [|r rows IH]; intros f b0 ND; [cbn; ring|]. inversion ND as [|? ? N1 N2]; subst. cbn [categorical configs]. rewrite rsum_flat.
  change (rsum (fun j => p r j * categorical K p rows f (at_index b0 r j)) (seq 0 K) = rsum (fun j => rsum (fun b => chance (r :: rows) b * f b) (configs rows (at_index b0 r j))) (seq 0 K)).
  apply rsum_ext'. intros j _. rewrite IH by exact N2. rewrite <- rsum_scal. apply rsum_ext'. intros b Hb. cbn [chance fold_right]. fold (chance rows b). rewrite (config_out _ _ _ r Hb N1), at_same. ring.
Qed.
Lemma categorical_one : forall rows b0, (forall r, In r rows -> probs_row r) -> categorical K p rows (fun _ => 1) b0 = 1.
Proof.
  induction rows as [|r rows IH]; intros b0 H; [reflexivity|]. cbn [categorical].
  change (rsum (fun j => p r j * categorical K p rows (fun _ => 1) (at_index b0 r j)) (seq 0 K) = 1). transitivity (rsum (p r) (seq 0 K)); [|apply (H r (or_introl eq_refl))].
  apply rsum_ext'. intros j _. rewrite IH; [ring|]. intros; apply H; now right.
Qed.
Lemma chance_pos : forall rows b, fits rows b -> 0 <= chance rows b.
Proof.
  induction rows as [|r rows IH]; intros b H; [cbn; lra|]. cbn [chance fold_right]. fold (chance rows b). destruct (H r (or_introl eq_refl)) as [Hp Hk]. apply Rmult_le_pos; [left; now apply Hp|]. apply IH. now apply fits_tl in H.
Qed.
(** At most one option of a row is ahead of all others. *)
Lemma one_winner : forall r u i k, probs_row r -> (i < K)%nat -> (k < K)%nat -> (forall j, (j < K)%nat -> 0 < u (key r j) < 1) ->
  forallb (ahead u) (races_row r i) = true -> forallb (ahead u) (races_row r k) = true -> i = k.
Proof.
  intros r u i k Hp Hi Hk Hu Wi Wk. destruct (Nat.eq_dec i k) as [|Hne]; [assumption|exfalso]. rewrite forallb_forall in Wi, Wk.
  assert (Q : forall a b, (a < K)%nat -> (b < K)%nat -> a <> b -> (forall x, In x (races_row r a) -> ahead u x = true) -> ln (u (key r b)) * p r a < p r b * ln (u (key r a))).
  { intros a b Ha Hb Hab W. specialize (W (key r b, key r a, p r b / p r a) ltac:(apply in_map_iff; exists b; split; [reflexivity|apply in_rest; auto])). cbn [ahead] in W. destruct Rlt_dec as [D|]; [|discriminate].
    rewrite pw_pos in D by now apply Hu. apply ln_increasing in D; [|now apply Hu]. rewrite ln_exp in D. pose proof (proj1 Hp a Ha) as Pa. apply (Rmult_lt_compat_r (p r a)) in D; [|exact Pa].
    replace (p r b / p r a * ln (u (key r a)) * p r a) with (p r b * ln (u (key r a))) in D by (field; lra). exact D. }
  pose proof (Q i k Hi Hk Hne Wi). pose proof (Q k i Hk Hi (not_eq_sym Hne) Wk). lra.
Qed.
Lemma winners_le : forall rows b0 u X, NoDup rows -> (forall r, In r rows -> probs_row r) -> open_cube (noise rows) u -> 0 <= X -> rsum (fun b => if wins rows b u then X else 0) (configs rows b0) <= X.
Proof.
  induction rows as [|r rows IH]; intros b0 u X ND Hp Hu HX; [cbn; lra|]. inversion ND as [|? ? N1 N2]; subst. cbn [configs]. rewrite rsum_flat.
  assert (Hu' : open_cube (noise rows) u) by (intros e He; apply Hu; cbn [noise flat_map]; apply in_or_app; now right).
  assert (Hr : forall j, (j < K)%nat -> 0 < u (key r j) < 1) by (intros j Hj; apply Hu; apply in_noise; exists r, j; repeat split; auto; now left).
  apply Rle_trans with (rsum (fun j => if forallb (ahead u) (races_row r j) then X else 0) (seq 0 K)).
  - apply rsum_mono. intros j _. assert (W : forall b, In b (configs rows (at_index b0 r j)) -> wins (r :: rows) b u = (forallb (ahead u) (races_row r j) && wins rows b u)%bool).
    { intros b Hb. unfold wins. cbn [races flat_map]. rewrite forallb_app. now rewrite (config_out _ _ _ r Hb N1), at_same. }
    rewrite (rsum_ext' _ (fun b => if (forallb (ahead u) (races_row r j) && wins rows b u)%bool then X else 0)) by (intros b Hb; now rewrite W).
    destruct (forallb (ahead u) (races_row r j)); cbn [andb].
    + apply IH; auto. intros; apply Hp; now right.
    + right. clear. induction (configs rows (at_index b0 r j)) as [|x l IH]; [reflexivity|]. change (0 + rsum (fun _ : idx -> nat => 0) l = 0). rewrite IH. ring.
  - assert (Q : forall l, NoDup l -> (forall j, In j l -> (j < K)%nat) -> rsum (fun j => if forallb (ahead u) (races_row r j) then X else 0) l <= X /\
        (forall k, (k < K)%nat -> ~ In k l -> forallb (ahead u) (races_row r k) = true -> rsum (fun j => if forallb (ahead u) (races_row r j) then X else 0) l = 0)).
    { induction l as [|j l IHl]; intros NDl Hl; [split; [cbn; lra|reflexivity]|]. inversion NDl as [|? ? L1 L2]; subst. destruct (IHl L2 (fun i Hi => Hl i (or_intror Hi))) as [Q1 Q2].
      change (rsum (fun j => if forallb (ahead u) (races_row r j) then X else 0) (j :: l)) with ((if forallb (ahead u) (races_row r j) then X else 0) + rsum (fun j => if forallb (ahead u) (races_row r j) then X else 0) l).
      split.
      - destruct (forallb (ahead u) (races_row r j)) eqn:E; [|lra]. rewrite (Q2 j (Hl j (or_introl eq_refl)) L1 E). lra.
      - intros k Hk Hn Ek. rewrite (Q2 k Hk (fun C => Hn (or_intror C)) Ek). destruct (forallb (ahead u) (races_row r j)) eqn:E; [|ring].
        exfalso. apply Hn. left. apply (one_winner r u j k); auto; [apply Hp; now left|apply Hl; now left]. }
    apply Q; [apply seq_NoDup|]. intros j Hj. apply in_seq in Hj. lia.
Qed.

Lemma law_half : forall rows b0 F v (C : (idx -> nat) -> R), NoDup rows -> (forall r, In r rows -> probs_row r) -> expect (noise rows) F v ->
  (forall b, In b (configs rows b0) -> expect (noise rows) (fun u => F (subst rows b u)) (C b)) -> categorical K p rows C b0 <= v.
Proof.
  intros rows b0 F v C ND Hp HF HC. apply small_le. intros d Hd. destruct (HF d Hd) as [L [U [CL [CU [HLU HM]]]]]. destruct (HM (fun _ => 0)) as [x [y [_ [My [_ Hy]]]]].
  pose proof CU as [[B0 HB0] _]. set (B := Rabs B0 + 1). assert (HB : forall u, cube (noise rows) u -> 0 <= U u + B).
  { intros u Hu. specialize (HB0 u Hu). apply Rabs_le_between in HB0. unfold B. pose proof (Rle_abs B0). lra. }
  assert (CUB : cont_on (noise rows) (fun u => U u + B)) by (apply cont_plus; [exact CU|apply cont_const]).
  assert (W : forall b, In b (configs rows b0) -> exists e, expect (noise rows) (fun u => if wins rows b u then U u + B else 0) e /\ chance rows b * (C b + B) <= e).
  { intros b Hb. pose proof (config_fits rows b0 b ND Hp Hb) as Hf. destruct (subst_expect rows b _ ND Hf CUB) as [w Hw]. exists (chance rows b * w). split; [now apply (wins_expect rows b (fun u => U u + B))|].
    apply Rmult_le_compat_l; [now apply chance_pos|]. apply (expect_le (noise rows) (fun u => F (subst rows b u) + B) (fun u => U (subst rows b u) + B)); [|apply expect_plus; [now apply HC|apply expect_const]|exact Hw].
    intros u Hu. assert (F (subst rows b u) <= U (subst rows b u)); [|lra]. apply HLU. apply subst_open; auto using incl_refl. }
  assert (S : exists e, expect (noise rows) (fun u => rsum (fun b => if wins rows b u then U u + B else 0) (configs rows b0)) e /\ rsum (fun b => chance rows b * (C b + B)) (configs rows b0) <= e).
  { revert W. generalize (configs rows b0). induction l as [|b l IH]; intros W; [exists 0; split; [exact (expect_const (noise rows) 0)|cbn; lra]|].
    destruct (IH (fun x Hx => W x (or_intror Hx))) as [e [E1 E2]]. destruct (W b (or_introl eq_refl)) as [e' [E1' E2']]. exists (e' + e).
    split; [exact (expect_plus _ (fun u => if wins rows b u then U u + B else 0) (fun u => rsum (fun b => if wins rows b u then U u + B else 0) l) _ _ E1' E1)|].
    change (chance rows b * (C b + B) + rsum (fun b => chance rows b * (C b + B)) l <= e' + e). lra. }
  destruct S as [e [E1 E2]].
  assert (E3 : e <= y + B).
  { apply (expect_le (noise rows) (fun u => rsum (fun b => if wins rows b u then U u + B else 0) (configs rows b0)) (fun u => U u + B)); [|exact E1|apply expect_plus; [now apply (expect_cont _ _ (fun _ => 0))|apply expect_const]].
    intros u Hu. apply winners_le; auto. apply HB. intros x0 Hx0. specialize (Hu x0 Hx0). lra. }
  rewrite (rsum_ext' _ (fun b => chance rows b * C b + B * (chance rows b * 1))) in E2 by (intros; ring). rewrite rsum_plus, rsum_scal, <- !categorical_configs in E2 by exact ND.
  rewrite categorical_one in E2 by exact Hp. lra.
Qed.
Lemma categorical_opp : forall rows C b0, NoDup rows -> categorical K p rows (fun b => -1 * C b) b0 = - categorical K p rows C b0.
Proof.
  intros rows C b0 ND. rewrite !categorical_configs by exact ND. rewrite (rsum_ext' _ (fun b => -1 * (chance rows b * C b))) by (intros; ring). rewrite rsum_scal. ring.
Qed.
(** The expectation of a function of the noise is the expectation over the options of the expectation over noise with which they are the largest. *)
Theorem total_law : forall rows b0 F v (C : (idx -> nat) -> R), NoDup rows -> (forall r, In r rows -> probs_row r) -> expect (noise rows) F v ->
  (forall b, In b (configs rows b0) -> expect (noise rows) (fun u => F (subst rows b u)) (C b)) -> v = categorical K p rows C b0.
Proof.
  intros rows b0 F v C ND Hp HF HC. apply Rle_antisym; [|now apply (law_half rows b0 F v C)].
  assert (H : categorical K p rows (fun b => -1 * C b) b0 <= -1 * v).
  { apply (law_half rows b0 (fun u => -1 * F u)); auto; [now apply expect_scal|]. intros b Hb. now apply (expect_scal _ (-1) (fun u => F (subst rows b u))), HC. }
  rewrite categorical_opp in H by exact ND. lra.
Qed.

Lemma expect_between : forall l L F U v, (forall u, open_cube l u -> L u <= F u <= U u) -> expect l L v -> expect l U v -> expect l F v.
Proof.
  intros l L F U v H HL HU d Hd. destruct (HL d Hd) as [L' [L2 [CL [_ [B1 M1]]]]]. destruct (HU d Hd) as [U2 [U' [_ [CU [B2 M2]]]]]. exists L', U'. split; [exact CL|]. split; [exact CU|].
  split; [intros u Hu; specialize (H u Hu); specialize (B1 u Hu); specialize (B2 u Hu); lra|]. intros u0. destruct (M1 u0) as [a [a2 [A1 [_ [A2 _]]]]]. destruct (M2 u0) as [b2 [b [_ [B3 [_ B4]]]]]. exists a, b. auto.
Qed.
(** The expectation of a function of the largest options. *)
Theorem options_law : forall rows b0 (G : (idx -> nat) -> R) (F : (idx -> R) -> R), NoDup rows -> (forall r, In r rows -> probs_row r) ->
  (forall u, open_cube (noise rows) u -> exists b, In b (configs rows b0) /\ F u = G b) ->
  (forall b u, In b (configs rows b0) -> open_cube (noise rows) u -> wins rows b u = true -> F u = G b) -> expect (noise rows) F (categorical K p rows G b0).
Proof.
  intros rows b0 G F ND Hp H1 H2.
  assert (HB : exists B, forall b, In b (configs rows b0) -> Rabs (G b) <= B).
  { generalize (configs rows b0). induction l as [|b l [B IH]]; [exists 0; intros b []|]. exists (Rmax (Rabs (G b)) B). intros b' [<-|Hb']; [apply Rmax_l|]. eapply Rle_trans; [now apply IH|apply Rmax_r]. }
  destruct HB as [B HB].
  assert (E : forall c, expect (noise rows) (fun u => rsum (fun b => if wins rows b u then G b + c else 0) (configs rows b0) - c) (categorical K p rows G b0)).
  { intros c. replace (categorical K p rows G b0) with (rsum (fun b => chance rows b * (G b + c)) (configs rows b0) - c).
    2:{ rewrite (rsum_ext' _ (fun b => chance rows b * G b + c * (chance rows b * 1))) by (intros; ring). rewrite rsum_plus, rsum_scal, <- !categorical_configs by exact ND. rewrite categorical_one by exact Hp. ring. }
    apply expect_minus; [|apply expect_const]. apply (expect_rsum (configs rows b0) _ (fun b u => if wins rows b u then G b + c else 0)). intros b Hb.
    apply (wins_expect rows b (fun _ => G b + c)); auto; [now apply (config_fits rows b0)|apply cont_const|apply expect_const]. }
  apply (expect_between _ _ F _ _) with (2 := E B) (3 := E (- B)). intros u Hu. destruct (H1 u Hu) as [a [Ha Ea]]. pose proof (HB a Ha) as Ba. apply Rabs_le_between in Ba.
  assert (Eq : forall c, rsum (fun b => if wins rows b u then G b + c else 0) (configs rows b0) = rsum (fun b => if wins rows b u then F u + c else 0) (configs rows b0)).
  { intros c. apply rsum_ext'. intros b Hb. destruct (wins rows b u) eqn:W; [|reflexivity]. now rewrite (H2 b u Hb Hu W). }
  rewrite !Eq. split.
  - assert (rsum (fun b => if wins rows b u then F u + B else 0) (configs rows b0) <= F u + B); [|lra]. apply winners_le; auto. lra.
  - assert (X : rsum (fun b => if wins rows b u then B - F u else 0) (configs rows b0) <= B - F u) by (apply winners_le; auto; lra).
    rewrite (rsum_ext' (fun b => if wins rows b u then F u + - B else 0) (fun b => -1 * (if wins rows b u then B - F u else 0))) by (intros b _; destruct (wins rows b u); ring). rewrite rsum_scal. lra.
Qed.
End Rows.
