(** The distribution of a variable sampled without replacement. *)
From Coq Require Import Reals List Arith Bool Lia Lra.
From Coquelicot Require Import Coquelicot.
From Verif Require Import Base Torch Gumbel GumbelProofs Swor SpecSwor SworProofs SpecArm ArmMean RelaxedLaw.
Import ListNotations.
Local Open Scope R_scope.

Definition single (j : nat) : idx := [j].
Definition sumf (p : nat -> R) (l : list nat) : R := fold_right Rplus 0 (map p l).

(** ** The exponential race *)
Section Race.
Variable th : nat -> R.
Definition rlt (x y : R) : bool := if Rlt_dec x y then true else false.
Lemma rlt_true : forall x y, rlt x y = true <-> x < y. Proof. intros. unfold rlt. destruct Rlt_dec; split; auto; discriminate. Qed.
Fixpoint ordered (t : R) (s rest : list nat) (w : idx -> R) : bool :=
  match s with
  | [] => forallb (fun j => rlt (w [j]) (exp (- (th j * t)))) rest
  | i :: r => andb (rlt (w [i]) (exp (- (th i * t)))) (ordered (- ln (w [i]) / th i) r rest w)
  end.
Lemma ordered_ext : forall s rest t w w', (forall j, In j (s ++ rest) -> w [j] = w' [j]) -> ordered t s rest w = ordered t s rest w'.
Proof.
  induction s as [|i s IH]; intros rest t w w' H; cbn [ordered].
  - assert (E : forall l, (forall j, In j l -> w [j] = w' [j]) -> forallb (fun j => rlt (w [j]) (exp (- (th j * t)))) l = forallb (fun j => rlt (w' [j]) (exp (- (th j * t)))) l).
    { induction l as [|j l IHl]; intros Hl; cbn [forallb]; [reflexivity|]. rewrite Hl by now left. rewrite IHl; [reflexivity|]. intros; apply Hl; now right. }
    apply E. exact H.
  - rewrite (H i) by now left. rewrite (IH rest _ w w'); [reflexivity|]. intros j Hj. apply H. now right.
Qed.

Lemma power_integral : forall r a c, 0 <= r -> 0 < a <= 1 ->
  is_RInt (fun x => if Rlt_dec x a then c * exp (r * ln x) else 0) 0 1 (c * (exp ((r + 1) * ln a) / (r + 1))).
Proof.
  intros r a c Hr Ha.
  assert (G : is_RInt (fun x => if Rlt_dec x a then c * exp (r * ln a) * pw r (x / a) else 0) 0 1 (a * (c * exp (r * ln a) * (/ (r + 1))))).
  { apply (step_integral (pw r)); [exact Ha|]. destruct Hr as [Hr|<-].
    - evar_last. apply (ftc_open (fun x => / (r + 1) * pw (r + 1) x)).
      + intros x Hx. apply (continuous_scal_r (K := R_AbsRing) (V := R_NormedModule) (/ (r + 1)) (pw (r + 1))). apply pw_cont; lra.
      + intros x Hx. evar_last. apply (is_derive_scal (pw (r + 1))). apply pw_derive. lra. rewrite pw_pos by lra. replace (r + 1 - 1) with r by ring. field. lra.
      + intros x Hx. apply pw_cont; lra.
      + rewrite (pw_pos _ 1) by lra. rewrite ln_1, Rmult_0_r, exp_0. unfold pw. destruct (Rle_dec 0 0); [field; lra|lra].
    - apply (is_RInt_ext (V := R_NormedModule) (fun _ => 1)).
      + intros x Hx. rewrite Rmin_left, Rmax_right in Hx by lra. rewrite pw_pos by lra. rewrite Rmult_0_l, exp_0. reflexivity.
      + evar_last. apply (is_RInt_const (V := R_NormedModule)). unfold scal. simpl. unfold mult. simpl. field. }
  replace (c * (exp ((r + 1) * ln a) / (r + 1))) with (a * (c * exp (r * ln a) * / (r + 1))).
  2:{ replace ((r + 1) * ln a) with (r * ln a + ln a) by ring. rewrite exp_plus, exp_ln by lra. field. lra. }
  apply (is_RInt_ext (V := R_NormedModule) (fun x => if Rlt_dec x a then c * exp (r * ln a) * pw r (x / a) else 0)); [|exact G].
  intros x Hx. rewrite Rmin_left, Rmax_right in Hx by lra. destruct Rlt_dec as [L|L]; [|reflexivity]. rewrite pw_pos by (apply Rdiv_lt_0_compat; lra).
  rewrite Rmult_assoc, <- exp_plus. f_equal. f_equal. unfold Rdiv. rewrite ln_mult, ln_Rinv by (try lra; apply Rinv_0_lt_compat; lra). ring.
Qed.

Lemma race : forall s rest t env, NoDup (s ++ rest) -> (forall j, In j (s ++ rest) -> 0 < th j) -> 0 <= t ->
  mean (map single (s ++ rest)) (fun w => if ordered t s rest w then 1 else 0) env (exp (- (t * sumf th (s ++ rest))) * successive th (sumf th (s ++ rest)) s).
Proof.
  induction s as [|i s IH]; intros rest t env ND Hp Ht.
  - cbn [app ordered successive] in *. rewrite Rmult_1_r.
    assert (P : exp (- (t * sumf th rest)) = prod_over (fun e => exp (- (th (hd 0%nat e) * t))) (map single rest)).
    { clear. induction rest as [|j l IHl]; cbn [map prod_over fold_right sumf]; [now rewrite Rmult_0_r, Ropp_0, exp_0|]. unfold sumf, prod_over in *. rewrite <- IHl. unfold single. cbn [hd map fold_right]. rewrite <- exp_plus. f_equal. ring. }
    rewrite P.
    assert (Hb : forall e, In e (map single rest) -> 0 < exp (- (th (hd 0%nat e) * t)) <= 1).
    { intros e He. apply in_map_iff in He. destruct He as [j [<- Hj]]. unfold single. cbn [hd]. split; [apply exp_pos|]. rewrite <- exp_0.
      specialize (Hp j Hj). destruct (Req_dec (- (th j * t)) 0) as [->|Hne]; [lra|]. left. apply exp_increasing. nra. }
    apply (mean_ext (map single rest) (fun w => if forallb (fun e => (fun e x => rlt x (exp (- (th (hd 0%nat e) * t)))) e (w e)) (map single rest) then 1 else 0)).
    + intros w _. assert (E : forall l, forallb (fun e => rlt (w e) (exp (- (th (hd 0%nat e) * t)))) (map single l) = forallb (fun j => rlt (w [j]) (exp (- (th j * t)))) l).
      { induction l as [|j l IHl]; [reflexivity|]. cbn [map forallb]. rewrite IHl. reflexivity. }
      cbv beta. now rewrite E.
    + apply (race_mean (fun e => exp (- (th (hd 0%nat e) * t))) (fun e x => rlt x (exp (- (th (hd 0%nat e) * t))))); [apply FinFun.Injective_map_NoDup; [intros x y E; unfold single in E; congruence|exact ND]|exact Hb| |].
      * intros e x _ Hx. now apply rlt_true.
      * intros e x _ Hx. unfold rlt. destruct Rlt_dec; [lra|reflexivity].
  - cbn [app map mean ordered successive] in *. inversion ND as [|? ? N1 N2]; subst. assert (Ti : 0 < th i) by (apply Hp; now left).
    set (L' := sumf th (s ++ rest)). assert (HL : 0 <= L').
    { unfold L'. assert (Z : forall l, (forall j, In j l -> 0 < th j) -> 0 <= sumf th l).
      { induction l as [|j l IHl]; intros H; unfold sumf; simpl; [lra|]. pose proof (H j (or_introl eq_refl)). unfold sumf in IHl. pose proof (IHl (fun z Hz => H z (or_intror Hz))). lra. }
      apply Z. intros; apply Hp; now right. }
    assert (ES : sumf th (i :: s ++ rest) = th i + L') by reflexivity. rewrite ES. replace (th i + L' - th i) with L' by ring.
    set (a := exp (- (th i * t))). assert (Ha : 0 < a <= 1).
    { unfold a. split; [apply exp_pos|]. rewrite <- exp_0. destruct (Req_dec (- (th i * t)) 0) as [->|Hne]; [lra|]. left. apply exp_increasing. nra. }
    exists (fun x => if Rlt_dec x a then successive th L' s * exp (L' / th i * ln x) else 0). split.
    + intros x Hx. destruct (Rlt_dec x a) as [L|L].
      * assert (Lx : ln x < 0) by (rewrite <- ln_1; apply ln_increasing; lra). assert (Ht' : 0 <= - ln x / th i) by (apply Rdiv_le_0_compat; lra).
        pose proof (IH rest (- ln x / th i) (at_index env (single i) x) N2 (fun j Hj => Hp j (or_intror Hj)) Ht') as M. fold L' in M.
        replace (successive th L' s * exp (L' / th i * ln x)) with (exp (- (- ln x / th i * L')) * successive th L' s) by (rewrite Rmult_comm; f_equal; f_equal; field; lra).
        revert M. apply mean_ext'. intros w A _. assert (W : w [i] = x).
        { rewrite A; [apply at_same|]. intros C. apply in_map_iff in C. destruct C as [j [E Hj]]. unfold single in E. injection E as ->. contradiction. }
        rewrite W. fold a. rewrite (proj2 (rlt_true x a) L). reflexivity.
      * apply (mean_ext' (map single (s ++ rest)) (fun _ => 0)); [|apply mean_zero]. intros w A _. assert (W : w [i] = x).
        { rewrite A; [apply at_same|]. intros C. apply in_map_iff in C. destruct C as [j [E Hj]]. unfold single in E. injection E as ->. contradiction. }
        rewrite W. fold a. unfold rlt. destruct Rlt_dec; [contradiction|reflexivity].
    + replace (exp (- (t * (th i + L'))) * (th i / (th i + L') * successive th L' s)) with (successive th L' s * (exp ((L' / th i + 1) * ln a) / (L' / th i + 1))).
      * apply power_integral; [apply Rdiv_le_0_compat; lra|exact Ha].
      * unfold a. rewrite ln_exp. replace ((L' / th i + 1) * - (th i * t)) with (- (t * (th i + L'))) by (field; lra). field. split; lra.
Qed.
End Race.

Lemma in_leftover : forall d s j, In j (leftover d s) <-> (j < d)%nat /\ ~ In j s.
Proof.
  intros d s j. unfold leftover. rewrite filter_In, in_seq, negb_true_iff. split.
  - intros [H1 H2]. split; [lia|]. intros C. assert (existsb (Nat.eqb j) s = true) by (apply existsb_exists; exists j; split; [exact C|apply Nat.eqb_refl]). congruence.
  - intros [H1 H2]. split; [lia|]. apply not_true_iff_false. intros C. apply existsb_exists in C. destruct C as [x [C1 C2]]. apply Nat.eqb_eq in C2. subst. contradiction.
Qed.

(** ** The order of the perturbed log-probabilities *)
Section Order.
Variables (lp : list R) (d : nat) (u : idx -> R).
Hypothesis Hd : length lp = d.
Hypothesis Hu : forall j, (j < d)%nat -> 0 < u [j] < 1.
Notation th := (fun j => exp (nth j lp 0)).
Notation G j := (gumbel_rsample (nth j lp 0) (u [j])).
Definition time (j : nat) : R := - ln (u [j]) / exp (nth j lp 0).

Lemma time_pos : forall j, (j < d)%nat -> 0 < time j.
Proof. intros j Hj. unfold time. pose proof (ln_neg1 _ (Hu j Hj)). apply Rdiv_lt_0_compat; [lra|apply exp_pos]. Qed.
Lemma gumbel_time : forall j, (j < d)%nat -> G j = - ln (time j).
Proof.
  intros j Hj. unfold gumbel_rsample, time, Rdiv. pose proof (ln_neg1 _ (Hu j Hj)). pose proof (exp_pos (nth j lp 0)).
  rewrite ln_mult, ln_Rinv, ln_exp; try lra. apply Rinv_0_lt_compat; lra.
Qed.
Lemma gumbel_lt : forall i j, (i < d)%nat -> (j < d)%nat -> (G i < G j <-> time j < time i).
Proof.
  intros i j Hi Hj. rewrite !gumbel_time by assumption. pose proof (time_pos i Hi). pose proof (time_pos j Hj). split; intros H'.
  - apply ln_lt_inv; lra.
  - assert (ln (time j) < ln (time i)) by (apply ln_increasing; lra). lra.
Qed.
Lemma bound_time : forall j t, (j < d)%nat -> (rlt (u [j]) (exp (- (exp (nth j lp 0) * t))) = true <-> t < time j).
Proof.
  intros j t Hj. rewrite rlt_true. pose proof (Hu j Hj) as U. pose proof (exp_pos (nth j lp 0)) as P. rewrite <- (exp_ln (u [j])) at 1 by lra.
  assert (E : ln (u [j]) = - (exp (nth j lp 0) * time j)) by (unfold time; field; lra). split; intros H.
  - apply exp_lt_inv in H. rewrite E in H. apply (Rmult_lt_reg_l (exp (nth j lp 0))); lra.
  - apply exp_increasing. rewrite E. nra.
Qed.
Lemma ordered_iff : forall s rest t, (forall j, In j (s ++ rest) -> (j < d)%nat) ->
  (ordered th t s rest u = true <->
   (forall j, In j (s ++ rest) -> t < time j) /\ (forall x y i j, (x < y)%nat -> nth_error s x = Some i -> nth_error s y = Some j -> time i < time j) /\
   (forall i j, In i s -> In j rest -> time i < time j)).
Proof.
  induction s as [|i s IH]; intros rest t Hin; cbn [ordered app] in *.
  - rewrite forallb_forall. split.
    + intros H. split; [intros j Hj; apply bound_time; auto|]. split; [intros x y i j _ E; destruct x; discriminate|intros i j []].
    + intros [H _] j Hj. apply bound_time; auto.
  - rewrite andb_true_iff, (bound_time i t) by (apply Hin; now left). fold (time i). rewrite (IH rest (time i)) by (intros; apply Hin; now right). split.
    + intros [H1 [H2 [H3 H4]]]. split; [intros j [<-|Hj]; [exact H1|]; pose proof (H2 j Hj); lra|]. split.
      * intros x y a b L Ea Eb. destruct y as [|y]; [lia|]. destruct x as [|x]; simpl in *; [|apply (H3 x y); auto; lia].
        injection Ea as <-. apply H2. apply in_or_app. left. eapply nth_error_In; eauto.
      * intros a b [<-|Ha] Hb; [apply H2, in_or_app; now right|auto].
    + intros [H1 [H2 H3]]. split; [apply H1; now left|]. split; [|split].
      * intros j Hj. apply in_app_or in Hj. destruct Hj as [Hj|Hj]; [|apply H3; [now left|exact Hj]]. destruct (In_nth_error _ _ Hj) as [y Ey]. apply (H2 0%nat (S y)); auto. lia.
      * intros x y a b L Ea Eb. apply (H2 (S x) (S y)); auto. lia.
      * intros a b Ha Hb. apply H3; auto. now right.
Qed.

(** Two selections of the largest elements agree when there are no ties. *)
Lemma topk_unique : forall (val : nat -> R) n k a b, (forall i j, (i < n)%nat -> (j < n)%nat -> i <> j -> val i <> val j) ->
  is_topk ple (map (fun j => Some (val j)) (seq 0 n)) k a -> is_topk ple (map (fun j => Some (val j)) (seq 0 n)) k b -> a = b.
Proof.
  intros val n k a b D [A1 [A2 [A3 [A4 A5]]]] [B1 [B2 [B3 [B4 B5]]]]. rewrite map_length, seq_length in A3, B3.
  assert (At : forall j, (j < n)%nat -> nth_error (map (fun j => Some (val j)) (seq 0 n)) j = Some (Some (val j))).
  { intros j Hj. rewrite nth_error_map. rewrite (nth_error_nth' _ 0%nat) by now rewrite seq_length. rewrite seq_nth by exact Hj. reflexivity. }
  assert (Sub : forall a b, NoDup a -> length a = k -> length b = k -> (forall i, In i a -> (i < n)%nat) -> (forall i, In i b -> (i < n)%nat) -> NoDup b ->
     (forall i j, In i a -> ~ In j a -> (j < n)%nat -> val j <= val i) -> (forall i j, In i b -> ~ In j b -> (j < n)%nat -> val j <= val i) -> incl a b).
  { clear - D. intros a b Na La Lb Ra Rb Nb Ta Tb x Hx. destruct (in_dec Nat.eq_dec x b) as [H|H]; [exact H|]. exfalso.
    assert (E : exists y, In y b /\ ~ In y a).
    { destruct (Forall_Exists_dec (fun y => In y a) (fun y => in_dec Nat.eq_dec y a) b) as [F|E].
      - exfalso. rewrite Forall_forall in F. assert (incl a b); [|now apply H, H0]. apply NoDup_length_incl; [exact Nb|lia|exact F].
      - apply Exists_exists in E. exact E. }
    destruct E as [y [Y1 Y2]]. pose proof (Ta x y Hx Y2 (Rb y Y1)). pose proof (Tb y x Y1 H (Ra x Hx)). apply (D x y); auto; [intros ->; auto|lra]. }
  assert (TA : forall i j, In i a -> ~ In j a -> (j < n)%nat -> val j <= val i) by (intros i j Hi Hj L; exact (A4 i j _ _ Hi Hj (At i (A3 i Hi)) (At j L))).
  assert (TB : forall i j, In i b -> ~ In j b -> (j < n)%nat -> val j <= val i) by (intros i j Hi Hj L; exact (B4 i j _ _ Hi Hj (At i (B3 i Hi)) (At j L))).
  assert (SA : forall x y i j, (x < y)%nat -> nth_error a x = Some i -> nth_error a y = Some j -> val j <= val i).
  { intros x y i j L Ex Ey. exact (A5 x y i j _ _ L Ex Ey (At i (A3 i (nth_error_In _ _ Ex))) (At j (A3 j (nth_error_In _ _ Ey)))). }
  assert (SB : forall x y i j, (x < y)%nat -> nth_error b x = Some i -> nth_error b y = Some j -> val j <= val i).
  { intros x y i j L Ex Ey. exact (B5 x y i j _ _ L Ex Ey (At i (B3 i (nth_error_In _ _ Ex))) (At j (B3 j (nth_error_In _ _ Ey)))). }
  assert (I1 : incl a b) by (apply Sub; auto). assert (I2 : incl b a) by (apply Sub; auto).
  clear A4 A5 B4 B5 At Sub TA TB A2 B2. revert b A1 A3 B1 B3 SA SB I1 I2. induction a as [|x a IH]; intros b A1 A3 B1 B3 SA SB I1 I2.
  - destruct b as [|y b]; [reflexivity|]. destruct (I2 y (or_introl eq_refl)).
  - destruct b as [|y b]; [destruct (I1 x (or_introl eq_refl))|]. inversion A1 as [|? ? P1 P2]; subst. inversion B1 as [|? ? Q1 Q2]; subst.
    assert (E : x = y).
    { destruct (Nat.eq_dec x y) as [E|E]; [exact E|]. exfalso.
      assert (X : In x b) by (destruct (I1 x (or_introl eq_refl)); [congruence|assumption]). assert (Y : In y a) by (destruct (I2 y (or_introl eq_refl)); [congruence|assumption]).
      destruct (In_nth_error _ _ X) as [m Em]. destruct (In_nth_error _ _ Y) as [m' Em']. pose proof (SB 0%nat (S m) y x ltac:(lia) eq_refl Em). pose proof (SA 0%nat (S m') x y ltac:(lia) eq_refl Em').
      apply (D x y); [apply A3; now left|apply B3; now left|exact E|lra]. }
    subst y. f_equal. apply IH; auto.
    + intros i Hi. apply A3. now right.
    + intros i Hi. apply B3. now right.
    + intros p q i j L. apply (SA (S p) (S q)). lia.
    + intros p q i j L. apply (SB (S p) (S q)). lia.
    + intros i Hi. destruct (I1 i (or_intror Hi)) as [<-|H]; [contradiction|exact H].
    + intros i Hi. destruct (I2 i (or_intror Hi)) as [<-|H]; [contradiction|exact H].
Qed.

(** What the program selects. *)
Definition gs : list R := map (fun j => G j) (seq 0 d).
Lemma gs_nth : forall j, (j < d)%nat -> nth j gs 0 = G j. Proof. intros j Hj. unfold gs. now rewrite map_seq_nth. Qed.
Lemma gs_length : length gs = d. Proof. unfold gs. now rewrite map_length, seq_length. Qed.
Notation val j := (nth j (cond_gumbel 0 gs) 0).
Lemma val_lt : forall i j, (i < d)%nat -> (j < d)%nat -> (val i < val j <-> time j < time i).
Proof. intros i j Hi Hj. rewrite cond_order by (rewrite gs_length; assumption). rewrite !gs_nth by assumption. now apply gumbel_lt. Qed.
Lemma vals_seq : map Some (cond_gumbel 0 gs) = map (fun j => Some (val j)) (seq 0 d).
Proof.
  rewrite (list_nth (cond_gumbel 0 gs)) at 1. rewrite cond_length, gs_length, map_map. reflexivity.
Qed.
Variables (topk : list (option R) -> nat -> list nat) (s : list nat).
Hypothesis Htop : topk_fn ple topk.
Hypothesis ND : NoDup s.
Hypothesis Rs : forall i, In i s -> (i < d)%nat.
Hypothesis Tie : forall i j, (i < d)%nat -> (j < d)%nat -> i <> j -> G i <> G j.

Lemma all_in : forall j, In j (s ++ leftover d s) -> (j < d)%nat.
Proof. intros j Hj. apply in_app_or in Hj. destruct Hj as [Hj|Hj]; [auto|]. apply in_leftover in Hj. tauto. Qed.
Lemma val_distinct : forall i j, (i < d)%nat -> (j < d)%nat -> i <> j -> val i <> val j.
Proof.
  intros i j Hi Hj Hne E. apply (Tie i j Hi Hj Hne). destruct (Rtotal_order (G i) (G j)) as [L|[L|L]]; [|exact L|].
  - apply gumbel_lt in L; auto. apply val_lt in L; auto. lra.
  - apply gumbel_lt in L; auto. apply val_lt in L; auto. lra.
Qed.
Lemma selected : topk (map Some (cond_gumbel 0 gs)) (length s) = s <-> ordered th 0 s (leftover d s) u = true.
Proof.
  rewrite (ordered_iff s (leftover d s) 0 all_in). rewrite vals_seq.
  assert (Len : (length s <= length (map (fun j => Some (val j)) (seq 0 d)))%nat).
  { rewrite map_length, seq_length. rewrite <- (seq_length d 0). apply NoDup_incl_length; [exact ND|]. intros i Hi. apply in_seq. pose proof (Rs i Hi). lia. }
  pose proof (Htop _ _ Len) as T.
  assert (At : forall j, (j < d)%nat -> nth_error (map (fun j => Some (val j)) (seq 0 d)) j = Some (Some (val j))).
  { intros j Hj. rewrite nth_error_map. rewrite (nth_error_nth' _ 0%nat) by now rewrite seq_length. rewrite seq_nth by exact Hj. reflexivity. }
  split.
  - intros E. rewrite E in T. destruct T as [_ [_ [_ [T4 T5]]]]. split; [intros j Hj; apply time_pos, all_in, Hj|]. split.
    + intros x y i j L Ei Ej. pose proof (Rs i (nth_error_In _ _ Ei)) as Ri. pose proof (Rs j (nth_error_In _ _ Ej)) as Rj.
      pose proof (T5 x y i j _ _ L Ei Ej (At i Ri) (At j Rj)) as V. simpl in V. apply val_lt; auto.
      assert (i <> j). { intros <-. assert (x = y); [|lia]. apply (NoDup_nth_error s); auto; [apply nth_error_Some; congruence|congruence]. }
      pose proof (val_distinct i j Ri Rj H). lra.
    + intros i j Hi Hj. apply in_leftover in Hj. destruct Hj as [Rj Nj]. pose proof (Rs i Hi) as Ri. pose proof (T4 i j _ _ Hi Nj (At i Ri) (At j Rj)) as V. simpl in V. apply val_lt; auto.
      assert (i <> j) by (intros ->; contradiction). pose proof (val_distinct i j Ri Rj H). lra.
  - intros [_ [H2 H3]]. apply (topk_unique (fun j => val j) d (length s)); [exact val_distinct|exact T|]. split; [exact ND|]. split; [reflexivity|]. split; [rewrite map_length, seq_length; exact Rs|].
    assert (Back : forall i v, nth_error (map (fun j => Some (val j)) (seq 0 d)) i = Some v -> (i < d)%nat -> v = Some (val i)) by (intros i v E Hi; rewrite (At i Hi) in E; congruence).
    split.
    + intros i j a b Hi Hj Ea Eb. assert (Rj : (j < d)%nat) by (rewrite <- (seq_length d 0), <- (map_length (fun j => Some (val j))); apply nth_error_Some; congruence).
      rewrite (Back i a Ea (Rs i Hi)), (Back j b Eb Rj). simpl. left. apply val_lt; auto. apply H3; [exact Hi|]. apply in_leftover. auto.
    + intros x y i j a b L Ei Ej Ea Eb. pose proof (Rs i (nth_error_In _ _ Ei)) as Ri. pose proof (Rs j (nth_error_In _ _ Ej)) as Rj.
      rewrite (Back i a Ea Ri), (Back j b Eb Rj). simpl. left. apply val_lt; auto. apply (H2 x y); auto.
Qed.
End Order.

(** ** The program *)
Definition swor_var (lp : list R) (u : idx -> R) : var :=
  mkVar [] false (fun _ _ => lp) (fun _ _ => map (fun j => gumbel_rsample (nth j lp 0) (u [j])) (seq 0 (length lp))).

Lemma write_first : forall arg k, (length arg <= k)%nat -> write_col 0 arg (repeat [0%nat] k) = map (fun i => [i]) arg ++ repeat [0%nat] (k - length arg).
Proof.
  induction arg as [|a arg IH]; intros k H; cbn [write_col map app length]; [now rewrite Nat.sub_0_r; destruct k|].
  destruct k as [|k]; simpl in H; [lia|]. cbn [repeat write_col]. rewrite IH by lia. reflexivity.
Qed.
Lemma sampled_rows : forall topk, topk_fn ple topk -> forall lp k u, (1 <= k)%nat -> exists p st,
  sample_var (select_swor topk k) k None (swor_var lp u) sstart =
  Ok (map (fun i => [i]) (topk (map Some (cond_gumbel 0 (gs lp (length lp) u))) (Nat.min k (length lp))), p, st).
Proof.
  intros topk Hk lp k u H1. unfold sample_var, decode, sstart, swor_var. cbn [ss_fin ss_joint ss_pert bind option_map v_events v_lp v_noise v_cond].
  unfold decode_events. cbn [v_events lprod fold_right seq fold_left v_cond v_lp v_noise]. unfold decode_step. cbn [b_joint b_rows b_parent b_amt b_pert]. unfold select_swor.
  fold (gs lp (length lp) u). set (g := map Some (cond_gumbel 0 (gs lp (length lp) u))).
  assert (Lg : length g = length lp) by (unfold g; rewrite map_length, cond_length; apply gs_length). rewrite Lg.
  set (arg := topk g (Nat.min k (length lp))). assert (La : length arg = Nat.min k (length lp)) by (apply Hk; rewrite Lg; lia).
  cbn [repeat]. change (repeat 0%nat (fold_right Nat.mul 1%nat [])) with [0%nat].
  replace (repeat (repeat 0%nat 1) k) with (repeat [0%nat] k) by reflexivity.
  rewrite write_first by lia. unfold last_slice. cbn [rev].
  destruct (Nat.ltb_spec (length arg) k) as [L|L].
  - rewrite firstn_app, firstn_all2 by (rewrite map_length; lia). rewrite map_length, Nat.sub_diag. cbn [firstn]. rewrite app_nil_r. cbn [b_rows b_joint b_parent b_pert].
    rewrite map_length, pick_length, Nat.eqb_refl, andb_false_r. eexists _, _. reflexivity.
  - replace (k - length arg)%nat with 0%nat by lia. cbn [repeat]. rewrite app_nil_r. cbn [b_rows b_joint b_parent b_pert].
    rewrite map_length, pick_length, Nat.eqb_refl, andb_false_r. eexists _, _. reflexivity.
Qed.

Theorem swor_law : forall topk, topk_fn ple topk -> forall lp k s u0, fold_right Rplus 0 (map exp lp) = 1 -> (1 <= k)%nat ->
  NoDup s -> (forall i, In i s -> (i < length lp)%nat) -> length s = Nat.min k (length lp) ->
  exists F,
    (forall u, (forall j, (j < length lp)%nat -> 0 < u [j] < 1) ->
       (forall i j, (i < length lp)%nat -> (j < length lp)%nat -> i <> j -> gumbel_rsample (nth i lp 0) (u [i]) <> gumbel_rsample (nth j lp 0) (u [j])) ->
       exists rows p st, sample_var (select_swor topk k) k None (swor_var lp u) sstart = Ok (rows, p, st) /\
         F u = if list_eq_dec (list_eq_dec Nat.eq_dec) rows (map (fun i => [i]) s) then 1 else 0) /\
    mean (map (fun j => [j]) (s ++ leftover (length lp) s)) F u0 (successive (fun j => exp (nth j lp 0)) 1 s).
Proof.
  intros topk Hk lp k s u0 Hsum H1 ND Rs Ls. set (d := length lp) in *. set (th := fun j => exp (nth j lp 0)).
  exists (fun w => if ordered th 0 s (leftover d s) w then 1 else 0). split.
  - intros u Hu Tie. destruct (sampled_rows topk Hk lp k u H1) as [p [st E]]. fold d in E. eexists _, p, st. split; [exact E|].
    pose proof (selected lp d u eq_refl Hu topk s Hk ND Rs Tie) as S. rewrite Ls in S. fold th in S.
    destruct (list_eq_dec (list_eq_dec Nat.eq_dec) _ _) as [Q|Q].
    + assert (X : topk (map Some (cond_gumbel 0 (gs lp d u))) (Nat.min k d) = s).
      { revert Q. clear. generalize (topk (map Some (cond_gumbel 0 (gs lp d u))) (Nat.min k d)). intros l. revert s. induction l as [|a l IH]; intros [|b s] Q; try discriminate; [reflexivity|]. injection Q as -> Q. f_equal. auto. }
      rewrite (proj1 S X). reflexivity.
    + destruct (ordered th 0 s (leftover d s) u) eqn:O; [|reflexivity]. exfalso. apply Q. f_equal. now apply S.
  - assert (NA : NoDup (s ++ leftover d s)).
    { revert ND. unfold leftover. assert (B : forall j, In j (leftover d s) -> ~ In j s) by (intros j Hj; apply in_leftover in Hj; tauto).
      intros ND. clear - ND B. unfold leftover in B. assert (N2 : NoDup (filter (fun j => negb (existsb (Nat.eqb j) s)) (seq 0 d))) by apply NoDup_filter, seq_NoDup.
      revert B N2. generalize (filter (fun j => negb (existsb (Nat.eqb j) s)) (seq 0 d)). intros l B N2. induction s as [|a s IH]; [exact N2|]. inversion ND as [|? ? P1 P2]; subst. cbn [app]. constructor.
      - intros C. apply in_app_or in C. destruct C as [C|C]; [contradiction|]. apply (B a C). now left.
      - apply IH; auto. intros j Hj C. apply (B j Hj). now right. }
    assert (M : sumf th (s ++ leftover d s) = 1).
    { rewrite <- Hsum. unfold sumf. assert (P : Permutation.Permutation (s ++ leftover d s) (seq 0 d)).
      { apply Permutation.NoDup_Permutation; [exact NA|apply seq_NoDup|]. intros j. rewrite in_app_iff, in_leftover, in_seq. split.
        - intros [Hj|Hj]; [pose proof (Rs j Hj)|]; lia.
        - intros Hj. destruct (in_dec Nat.eq_dec j s); [now left|right; split; [lia|assumption]]. }
      assert (Q : forall l l', Permutation.Permutation l l' -> fold_right Rplus 0 (map th l) = fold_right Rplus 0 (map th l')).
      { clear. intros l l' H. induction H; simpl; lra. }
      rewrite (Q _ _ P). f_equal. transitivity (map exp (map (fun j => nth j lp 0) (seq 0 d))); [now rewrite map_map|]. unfold d. now rewrite <- list_nth. }
    pose proof (race th s (leftover d s) 0 u0 NA (fun j _ => exp_pos _) ltac:(lra)) as R. rewrite M in R. rewrite Rmult_0_l, Ropp_0, exp_0, Rmult_1_l in R. exact R.
Qed.
