(** Facts about the expectations of SpecArm.v. *)
From Coq Require Import List Arith Bool Lia Reals Lra FunctionalExtensionality.
From Coquelicot Require Import Coquelicot.
From Verif Require Import Torch SpecArm ListLemmas ProgramWitness BiasProofs3.
Import ListNotations.
Open Scope R_scope.
Notation idx := (list nat).
Notation eq_idx := (list_eq_dec Nat.eq_dec).

Lemma at_same : forall {A} (f : idx -> A) e x, at_index f e x e = x.
Proof. intros. unfold at_index. destruct (eq_idx e e); congruence. Qed.
Lemma at_other : forall {A} (f : idx -> A) e x e', e' <> e -> at_index f e x e' = f e'.
Proof. intros. unfold at_index. destruct (eq_idx e' e); congruence. Qed.

(** The integral is determined by the function. *)
Lemma mean_unique : forall l F u v v', mean l F u v -> mean l F u v' -> v = v'.
Proof.
  induction l as [|e l IH]; intros F u v v' H H'; cbn [mean] in *; [congruence|].
  destruct H as [g [G1 G2]], H' as [g' [G1' G2']].
  assert (E : is_RInt g 0 1 v').
  { apply is_RInt_ext with g'; [|exact G2']. intros x Hx. rewrite Rmin_left, Rmax_right in Hx by lra. apply (IH F (at_index u e x)); auto. }
  rewrite <- (is_RInt_unique _ _ _ _ G2), <- (is_RInt_unique _ _ _ _ E). reflexivity.
Qed.
Definition inner (l : list idx) (u : idx -> R) : Prop := forall e, In e l -> 0 < u e < 1.
Lemma mean_ext' : forall l F G u v, (forall u', (forall e, ~ In e l -> u' e = u e) -> inner l u' -> F u' = G u') -> mean l F u v -> mean l G u v.
Proof.
  induction l as [|e l IH]; intros F G u v E H; cbn [mean] in *.
  - rewrite <- E; auto. intros e [].
  - destruct H as [g [G1 G2]]. exists g. split; [|exact G2]. intros x Hx. apply (IH F); [|auto]. intros u' A B. 
    destruct (in_dec eq_idx e l) as [Hl|Hl].
    + apply E.
      * intros e' Ne. rewrite A by (intro; apply Ne; now right). apply at_other. intros ->. apply Ne. now left.
      * intros e' [<-|He]; auto.
    + assert (X : u' e = x) by (rewrite A by auto; apply at_same). apply E.
      * intros e' Ne. rewrite A by (intro; apply Ne; now right). apply at_other. intros ->. apply Ne. now left.
      * intros e' [<-|He]; [rewrite X|]; auto.
Qed.
Lemma mean_ext : forall l F G u v, (forall u', inner l u' -> F u' = G u') -> mean l F u v -> mean l G u v.
Proof. intros l F G u v E. apply mean_ext'. auto. Qed.
Lemma mean_scal : forall l k F u v, mean l F u v -> mean l (fun u => k * F u) u (k * v).
Proof.
  induction l as [|e l IH]; intros k F u v H; cbn [mean] in *; [now rewrite H|].
  destruct H as [g [G1 G2]]. exists (fun x => k * g x). split; [intros; now apply IH, G1|]. exact (is_RInt_scal g 0 1 k v G2).
Qed.
Lemma mean_plus : forall l F G u v w, mean l F u v -> mean l G u w -> mean l (fun u => F u + G u) u (v + w).
Proof.
  induction l as [|e l IH]; intros F G u v w H H'; cbn [mean] in *; [now rewrite H, H'|].
  destruct H as [g [G1 G2]], H' as [h [H1 H2]]. exists (fun x => g x + h x). split; [intros; apply IH; auto|]. exact (is_RInt_plus g h 0 1 v w G2 H2).
Qed.
Lemma mean_zero : forall l u, mean l (fun _ => 0) u 0.
Proof.
  induction l as [|e l IH]; intros u; cbn [mean]; auto. exists (fun _ => 0). split; [auto|].
  pose proof (is_RInt_const 0 1 0) as H. change (scal (1 - 0) 0) with ((1 - 0) * 0) in H. now rewrite Rmult_0_r in H.
Qed.
Definition rsum {A : Type} (f : A -> R) (l : list A) : R := fold_right (fun x s => f x + s) 0 l.
Lemma mean_rsum : forall {A} (xs : list A) l F u v, (forall x, In x xs -> mean l (F x) u (v x)) -> mean l (fun u => rsum (fun x => F x u) xs) u (rsum v xs).
Proof.
  intros A xs. induction xs as [|x xs IH]; intros l F u v H; cbn [rsum fold_right]; [apply mean_zero|].
  apply mean_plus; [apply H; now left|]. apply IH. intros; apply H; now right.
Qed.

(** ** Weighted sums over the values of binary variables *)
Fixpoint wsum (A : idx -> bool -> R) (l : list idx) (f : (idx -> bool) -> R) (b : idx -> bool) : R :=
  match l with
  | [] => f b
  | e :: r => A e true * wsum A r f (at_index b e true) + A e false * wsum A r f (at_index b e false)
  end.
Definition coin (q : idx -> R) (e : idx) (b : bool) : R := if b then q e else 1 - q e.
Lemma wsum_coin : forall q l f b, wsum (coin q) l f b = bernoulli q l f b.
Proof. intros q l. induction l as [|e l IH]; intros f b; cbn [wsum bernoulli coin]; [reflexivity|]. now rewrite !IH. Qed.
Lemma wsum_ext : forall A A' l f b, (forall e x, In e l -> A e x = A' e x) -> wsum A l f b = wsum A' l f b.
Proof.
  intros A A' l. induction l as [|e l IH]; intros f b H; cbn [wsum]; [reflexivity|].
  rewrite !H by (now left). rewrite !IH by (intros; apply H; now right). reflexivity.
Qed.
Lemma wsum_fext : forall A l f g b, (forall b, f b = g b) -> wsum A l f b = wsum A l g b.
Proof. intros A l. induction l as [|e l IH]; intros f g b H; cbn [wsum]; [auto|]. now rewrite !(IH f g). Qed.
Lemma wsum_app : forall A l m f b, wsum A (l ++ m) f b = wsum A l (wsum A m f) b.
Proof. intros A l. induction l as [|e l IH]; intros m f b; cbn [wsum app]; [reflexivity|]. now rewrite !IH. Qed.
Lemma wsum_skip : forall A l f b, (forall e, In e l -> A e true + A e false = 1) -> (forall e b x, In e l -> f (at_index b e x) = f b) ->
  wsum A l f b = f b.
Proof.
  intros A l. induction l as [|e l IH]; intros f b H1 H2; cbn [wsum]; [reflexivity|].
  rewrite !IH by (intros; try apply H1; try apply H2; now right). rewrite !H2 by (now left).
  transitivity ((A e true + A e false) * f b); [ring|]. rewrite H1 by (now left). ring.
Qed.
Lemma wsum_block : forall A i l f b, wsum A (map (cons i) l) (fun b => f (fun e => b (i :: e))) b = wsum (fun e => A (i :: e)) l f (fun e => b (i :: e)).
Proof.
  intros A i l. induction l as [|e l IH]; intros f b; cbn [wsum map]; [reflexivity|]. rewrite !IH.
  assert (E : forall x, (fun e' => at_index b (i :: e) x (i :: e')) = at_index (fun e => b (i :: e)) e x).
  { intros x. apply functional_extensionality. intros e'. unfold at_index. destruct (eq_idx (i :: e') (i :: e)), (eq_idx e' e); congruence. }
  now rewrite !E.
Qed.
Lemma wsum_base : forall A l f b b', (forall e, ~ In e l -> b e = b' e) -> wsum A l f b = wsum A l f b'.
Proof.
  intros A l. induction l as [|e l IH]; intros f b b' H; cbn [wsum].
  - f_equal. apply functional_extensionality. intros e. apply H. auto.
  - rewrite (IH f (at_index b e true) (at_index b' e true)), (IH f (at_index b e false) (at_index b' e false)); [reflexivity| |];
      intros e' He; unfold at_index; destruct (eq_idx e' e); auto; apply H; intros [->|]; auto.
Qed.
(** [f] does not look outside of [l]. *)
Definition on (l : list idx) (f : (idx -> bool) -> R) : Prop := forall b b', (forall e, In e l -> b e = b' e) -> f b = f b'.
Lemma wsum_on : forall A l f b b', on l f -> wsum A l f b = wsum A l f b'.
Proof.
  intros A l f b b' H. set (c := fun e => if in_dec eq_idx e l then false else b e).
  rewrite (wsum_base A l f b c) by (intros e He; unfold c; destruct (in_dec eq_idx e l); tauto).
  set (c' := fun e => if in_dec eq_idx e l then false else b' e).
  rewrite (wsum_base A l f b' c') by (intros e He; unfold c'; destruct (in_dec eq_idx e l); tauto).
  set (mask := fun b : idx -> bool => fun e => if in_dec eq_idx e l then b e else false).
  assert (E : forall b, f b = f (mask b)) by (intros x; apply H; intros e He; unfold mask; destruct (in_dec eq_idx e l); tauto).
  assert (G : forall k x y, incl k l -> mask x = mask y -> wsum A k f x = wsum A k f y).
  { induction k as [|e k IH]; intros x y Hk M; cbn [wsum]; [rewrite (E x), (E y), M; reflexivity|].
    assert (Mv : forall v, mask (at_index x e v) = mask (at_index y e v)).
    { intros v. apply functional_extensionality. intros e'. apply (f_equal (fun z => z e')) in M. unfold mask, at_index in *.
      destruct (in_dec eq_idx e' l); auto. destruct (eq_idx e' e); auto. }
    assert (Hk' : incl k l) by (intros z Hz; apply Hk; now right).
    rewrite (IH _ _ Hk' (Mv true)), (IH _ _ Hk' (Mv false)). reflexivity. }
  apply G; [apply incl_refl|]. apply functional_extensionality. intros e. unfold mask, c, c'. destruct (in_dec eq_idx e l); reflexivity.
Qed.
(** Scaling the weights of one variable. *)
Definition scale_at (j : idx) (s : R) (A : idx -> bool -> R) (e : idx) (b : bool) : R := if eq_idx e j then s * A e b else A e b.
Lemma wsum_scale : forall A j s l f b, NoDup l -> In j l -> wsum (scale_at j s A) l f b = s * wsum A l f b.
Proof.
  intros A j s l. induction l as [|e l IH]; intros f b N I; [destruct I|]. inversion N as [|? ? N1 N2]; subst. cbn [wsum].
  destruct (eq_idx e j) as [->|Ne].
  - rewrite !(wsum_ext (scale_at j s A) A l) by (intros e' x He; unfold scale_at; destruct (eq_idx e' j); congruence).
    unfold scale_at. destruct (eq_idx j j); [ring|congruence].
  - destruct I as [I|I]; [congruence|]. rewrite !IH by auto. unfold scale_at. destruct (eq_idx e j); [congruence|ring].
Qed.
Lemma wsum_scal : forall A l k f b, wsum A l (fun b => k * f b) b = k * wsum A l f b.
Proof. intros A l. induction l as [|e l IH]; intros k f b; cbn [wsum]; [reflexivity|]. rewrite !IH. ring. Qed.

(** ** Bits made from the noise *)
Fixpoint prod (h : idx -> R -> R) (l : list idx) (u : idx -> R) : R := match l with [] => 1 | e :: r => h e (u e) * prod h r u end.
Lemma prod_app : forall h l m u, prod h (l ++ m) u = prod h l u * prod h m u.
Proof. intros h l. induction l as [|e l IH]; intros m u; cbn [prod app]; [ring|]. rewrite IH. ring. Qed.
Lemma prod_at : forall h l u e x, ~ In e l -> prod h l (at_index u e x) = prod h l u.
Proof.
  intros h l. induction l as [|e' l IH]; intros u e x H; cbn [prod]; [reflexivity|]. rewrite IH by (intro; apply H; now right).
  rewrite at_other; [reflexivity|]. intros ->. apply H. now left.
Qed.
Definition splits (h : R -> R) (bit : R -> bool) (a : bool -> R) : Prop :=
  forall p q, is_RInt (fun x => h x * (if bit x then p else q)) 0 1 (a true * p + a false * q).
Lemma mean_bits : forall (h : idx -> R -> R) (bit : idx -> R -> bool) A L f u, (forall e, In e L -> splits (h e) (bit e) (A e)) -> NoDup L ->
  mean L (fun u => prod h L u * f (fun e => bit e (u e))) u (wsum A L f (fun e => bit e (u e))).
Proof.
  intros h bit A L f u HA N.
  assert (G : forall l done u, done ++ l = L -> mean l (fun u => prod h L u * f (fun e => bit e (u e))) u (prod h done u * wsum A l f (fun e => bit e (u e)))).
  { induction l as [|e l IH]; intros done u' E; cbn [mean wsum].
    - rewrite app_nil_r in E. now subst.
    - assert (E' : (done ++ [e]) ++ l = L) by (rewrite <- app_assoc; exact E).
      exists (fun x => prod h done u' * (h e x * wsum A l f (at_index (fun e => bit e (u' e)) e (bit e x)))). split.
      + intros x Hx. specialize (IH (done ++ [e]) (at_index u' e x) E').
        assert (Hd : ~ In e done).
        { rewrite <- E in N. apply NoDup_remove_2 in N. intro. apply N, in_or_app. now left. }
        rewrite prod_app, prod_at in IH by exact Hd. cbn [prod] in IH. rewrite at_same in IH.
        assert (Eb : (fun e' => bit e' (at_index u' e x e')) = at_index (fun e => bit e (u' e)) e (bit e x)).
        { apply functional_extensionality. intros e'. unfold at_index. destruct (eq_idx e' e) as [->|]; reflexivity. }
        rewrite Eb in IH. replace (prod h done u' * (h e x * 1) * wsum A l f (at_index (fun e0 => bit e0 (u' e0)) e (bit e x)))
          with (prod h done u' * (h e x * wsum A l f (at_index (fun e0 => bit e0 (u' e0)) e (bit e x)))) in IH by ring. exact IH.
      + assert (He : In e L) by (rewrite <- E; apply in_or_app; right; now left).
        pose proof (HA e He (wsum A l f (at_index (fun e => bit e (u' e)) e true)) (wsum A l f (at_index (fun e => bit e (u' e)) e false))) as I.
        apply (is_RInt_scal _ 0 1 (prod h done u')) in I.
        eapply is_RInt_ext; [|exact I]. intros x _. cbv beta. change (scal ?a ?b) with (a * b). destruct (bit e x); reflexivity. }
  specialize (G L [] u eq_refl). cbn [prod] in G. now rewrite Rmult_1_l in G.
Qed.

(** ** The two ways to make a bit, with and without the derivative of the logarithm of the density *)
Definition upper (p x : R) : bool := if Rlt_dec (1 - p) x then true else false.
Definition lower (p x : R) : bool := if Rlt_dec x p then true else false.
Definition one (x : R) : R := 1.
Definition lean (x : R) : R := 2 * x - 1.
Definition chance (p : R) (b : bool) : R := if b then p else 1 - p.
Definition slope (p : R) (b : bool) : R := if b then p * (1 - p) else - (p * (1 - p)).

Lemma int_one : forall a b, is_RInt one a b (b - a).
Proof. intros a b. pose proof (is_RInt_const a b 1) as H. change (scal (b - a) 1) with ((b - a) * 1) in H. rewrite Rmult_1_r in H. exact H. Qed.
Lemma int_lean : forall a b, is_RInt lean a b (b * (b - 1) - a * (a - 1)).
Proof.
  intros a b. apply (is_RInt_derive (fun x => x * (x - 1)) lean a b).
  - intros x _. unfold lean. auto_derive; [auto|ring].
  - intros x _. unfold lean. apply (continuous_minus (fun x => 2 * x) (fun _ => 1)); [|apply continuous_const].
    apply (continuous_mult (fun _ => 2) (fun x => x)); [apply continuous_const|apply continuous_id].
Qed.
Lemma split_int : forall (h : R -> R) (c p q v w : R), 0 < c < 1 -> is_RInt h 0 c v -> is_RInt h c 1 w ->
  is_RInt (fun x => h x * (if Rlt_dec c x then p else q)) 0 1 (w * p + v * q).
Proof.
  intros h c p q v w Hc I1 I2. replace (w * p + v * q) with (q * v + p * w) by ring.
  apply (@is_RInt_Chasles R_NormedModule _ 0 c 1 (q * v) (p * w)).
  - apply (is_RInt_scal _ 0 c q) in I1. eapply is_RInt_ext; [|exact I1]. intros x Hx. rewrite Rmin_left, Rmax_right in Hx by lra.
    destruct (Rlt_dec c x); [lra|apply Rmult_comm].
  - apply (is_RInt_scal _ c 1 p) in I2. eapply is_RInt_ext; [|exact I2]. intros x Hx. rewrite Rmin_left, Rmax_right in Hx by lra.
    destruct (Rlt_dec c x); [apply Rmult_comm|lra].
Qed.
Lemma split_int' : forall (h : R -> R) (c p q v w : R), 0 < c < 1 -> is_RInt h 0 c v -> is_RInt h c 1 w ->
  is_RInt (fun x => h x * (if Rlt_dec x c then p else q)) 0 1 (v * p + w * q).
Proof.
  intros h c p q v w Hc I1 I2. replace (v * p + w * q) with (p * v + q * w) by ring.
  apply (@is_RInt_Chasles R_NormedModule _ 0 c 1 (p * v) (q * w)).
  - apply (is_RInt_scal _ 0 c p) in I1. eapply is_RInt_ext; [|exact I1]. intros x Hx. rewrite Rmin_left, Rmax_right in Hx by lra.
    destruct (Rlt_dec x c); [apply Rmult_comm|lra].
  - apply (is_RInt_scal _ c 1 q) in I2. eapply is_RInt_ext; [|exact I2]. intros x Hx. rewrite Rmin_left, Rmax_right in Hx by lra.
    destruct (Rlt_dec x c); [lra|apply Rmult_comm].
Qed.
Ltac shape_up := match goal with H : is_RInt ?f 0 1 ?a |- is_RInt ?g 0 1 ?b => replace b with a; [eapply is_RInt_ext; [|exact H]; intros x _; cbv beta|] end.
Lemma upper_one : forall c, 0 < c < 1 -> splits one (upper c) (chance c).
Proof.
  intros c Hc p q. pose proof (split_int one (1 - c) p q _ _ ltac:(lra) (int_one 0 (1 - c)) (int_one (1 - c) 1)) as H.
  shape_up; [unfold upper; destruct (Rlt_dec (1 - c) x); reflexivity|unfold chance; ring].
Qed.
Lemma lower_one : forall c, 0 < c < 1 -> splits one (lower c) (chance c).
Proof.
  intros c Hc p q. pose proof (split_int' one c p q _ _ ltac:(lra) (int_one 0 c) (int_one c 1)) as H.
  shape_up; [unfold lower; destruct (Rlt_dec x c); reflexivity|unfold chance; ring].
Qed.
Lemma upper_lean : forall c, 0 < c < 1 -> splits lean (upper c) (slope c).
Proof.
  intros c Hc p q. pose proof (split_int lean (1 - c) p q _ _ ltac:(lra) (int_lean 0 (1 - c)) (int_lean (1 - c) 1)) as H.
  shape_up; [unfold upper; destruct (Rlt_dec (1 - c) x); reflexivity|unfold slope; ring].
Qed.
Lemma lower_lean : forall c, 0 < c < 1 -> splits lean (lower c) (fun b => -1 * slope c b).
Proof.
  intros c Hc p q. pose proof (split_int' lean c p q _ _ ltac:(lra) (int_lean 0 c) (int_lean c 1)) as H.
  shape_up; [unfold lower; destruct (Rlt_dec x c); reflexivity|unfold slope; ring].
Qed.

(** ** The derivative of an expectation *)
Definition tilt (p : idx -> R) (j : idx) (e : idx) (b : bool) : R := if eq_idx e j then slope (p e) b else chance (p e) b.
Lemma bernoulli_deriv : forall (l : idx -> R -> R) dl (f : (idx -> bool) -> R -> R) df t0 es b, NoDup es ->
  (forall e, In e es -> derivable_pt_lim (l e) t0 (dl e)) -> (forall b, derivable_pt_lim (f b) t0 (df b)) ->
  let p e := sig (l e t0) in
  derivable_pt_lim (fun t => bernoulli (fun e => sig (l e t)) es (fun b => f b t) b) t0
    (rsum (fun j => dl j * wsum (tilt p j) es (fun b => f b t0) b) es + wsum (fun e => chance (p e)) es df b).
Proof.
  intros l dl f df t0 es. induction es as [|e es IH]; intros b N Hl Hf p; cbn [bernoulli wsum rsum fold_right].
  - rewrite Rplus_0_l. apply Hf.
  - inversion N as [|? ? N1 N2]; subst.
    assert (Hl' : forall e, In e es -> derivable_pt_lim (l e) t0 (dl e)) by (intros; apply Hl; now right).
    pose proof (IH (at_index b e true) N2 Hl' Hf) as Dt. pose proof (IH (at_index b e false) N2 Hl' Hf) as Df. cbv zeta in Dt, Df.
    assert (Dq : derivable_pt_lim (fun t => sig (l e t)) t0 (p e * (1 - p e) * dl e)).
    { apply (derivable_pt_lim_comp (l e) sig); [apply Hl; now left|apply sig_deriv]. }
    assert (Dq' : derivable_pt_lim (fun t => 1 - sig (l e t)) t0 (0 - p e * (1 - p e) * dl e)).
    { apply (derivable_pt_lim_minus (fct_cte 1) (fun t => sig (l e t))); [apply derivable_pt_lim_const|exact Dq]. }
    pose proof (derivable_pt_lim_mult _ _ _ _ _ Dq Dt) as M1. pose proof (derivable_pt_lim_mult _ _ _ _ _ Dq' Df) as M2.
    pose proof (derivable_pt_lim_plus _ _ _ _ _ M1 M2) as M. unfold plus_fct, mult_fct in M.
    match type of M with derivable_pt_lim _ _ ?a => match goal with |- derivable_pt_lim _ _ ?b => replace b with a; [exact M|] end end.
    clear M M1 M2 Dt Df Dq Dq'.
    rewrite <- !wsum_coin.
    change (wsum (coin (fun e => sig (l e t0)))) with (wsum (fun e => chance (p e))).
    set (bt := at_index b e true). set (bf := at_index b e false).
    assert (T : forall b, wsum (tilt p e) es (fun b => f b t0) b = wsum (fun e => chance (p e)) es (fun b => f b t0) b).
    { intros b'. apply wsum_ext. intros e' x He. unfold tilt. destruct (eq_idx e' e); [congruence|reflexivity]. }
    rewrite !T. unfold tilt at 3 4. destruct (eq_idx e e) as [_|]; [|congruence].
    assert (Inc : forall j, In j es -> tilt p j e = chance (p e)).
    { intros j Hj. apply functional_extensionality. intros x. unfold tilt. destruct (eq_idx e j); [congruence|reflexivity]. }
    assert (S : forall js, (forall j, In j js -> tilt p j e = chance (p e)) ->
      rsum (fun j => dl j * (tilt p j e true * wsum (tilt p j) es (fun b => f b t0) bt + tilt p j e false * wsum (tilt p j) es (fun b => f b t0) bf)) js =
      chance (p e) true * rsum (fun j => dl j * wsum (tilt p j) es (fun b => f b t0) bt) js + chance (p e) false * rsum (fun j => dl j * wsum (tilt p j) es (fun b => f b t0) bf) js).
    { clear Inc. intros js Inc. induction js as [|j js IHj]; cbn [rsum fold_right]; [ring|].
      unfold rsum in IHj. rewrite (Inc j) by (now left). rewrite IHj by (intros; apply Inc; now right). ring. }
    specialize (S es Inc). unfold rsum in S |- *. rewrite S. fold p. unfold slope, chance. change (fun (e : idx) (b : bool) => if b then sig (l e t0) else 1 - sig (l e t0)) with (fun (e : idx) (b : bool) => if b then p e else 1 - p e).
    change (sig (l e t0)) with (p e). ring.
Qed.
