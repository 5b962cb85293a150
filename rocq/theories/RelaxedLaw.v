(** The distribution of relaxed samples and of the resampled values, as expectations over the uniform noise. *)
From Coq Require Import Reals List Arith Bool Lia Lra.
From Coquelicot Require Import Coquelicot.
From Verif Require Import SworWeights Relaxed SpecRelaxed RelaxedProofs SpecArm ArmMean.
Import ListNotations.
Local Open Scope R_scope.

(** ** A change of variable *)
Lemma ftc_open : forall F f : R -> R, (forall x, 0 <= x <= 1 -> continuous F x) -> (forall x, 0 < x < 1 -> is_derive F x (f x)) ->
  (forall x, 0 <= x <= 1 -> continuous f x) -> is_RInt f 0 1 (F 1 - F 0).
Proof.
  intros F f CF DF Cf. set (f' := extension_C0 f 0 1).
  assert (C' : forall x, continuous f' x).
  { intros x. apply (extension_C0_continuous (V := R_NormedModule) f 0 1); [simpl; lra|]. intros y H1 H2. simpl in H1, H2. apply Cf. lra. }
  assert (E' : forall x, 0 <= x <= 1 -> f' x = f x) by (intros x Hx; apply (extension_C0_ext (V := R_NormedModule) f 0 1); simpl; lra).
  assert (I : forall x, is_RInt f' 0 x (RInt f' 0 x)) by (intros x; apply (RInt_correct (V := R_CompleteNormedModule)), (ex_RInt_continuous (V := R_CompleteNormedModule)); intros; apply C').
  assert (D' : forall x, is_derive (fun y => RInt f' 0 y) x (f' x)).
  { intros x. apply (is_derive_RInt (V := R_NormedModule) f' (fun y => RInt f' 0 y) 0 x); [|apply C']. exists (mkposreal 1 Rlt_0_1). intros y _. apply I. }
  destruct (MVT_gen (fun x => F x - RInt f' 0 x) 0 1 (fun _ => 0)) as [c [_ E]].
  - intros x Hx. rewrite Rmin_left, Rmax_right in Hx by lra. evar_last. apply @is_derive_minus; [apply DF; lra|apply D'].
    unfold minus, plus, opp. simpl. rewrite E' by lra. lra.
  - intros x Hx. rewrite Rmin_left, Rmax_right in Hx by lra. apply continuity_pt_filterlim. apply @continuous_minus; [apply CF; lra|].
    apply (ex_derive_continuous (V := R_NormedModule)). exists (f' x). apply D'.
  - assert (Z : RInt f' 0 0 = 0) by apply (RInt_point (V := R_CompleteNormedModule)). rewrite Z in E. 
    replace (F 1 - F 0) with (RInt f' 0 1) by lra. apply (is_RInt_ext (V := R_NormedModule) f'); [|apply I]. intros x Hx. rewrite Rmin_left, Rmax_right in Hx by lra. apply E'. lra.
Qed.

(** Positive powers, extended by 0. *)
Definition pw (a u : R) : R := if Rle_dec u 0 then 0 else exp (a * ln u).
Lemma pw_pos : forall a u, 0 < u -> pw a u = exp (a * ln u). Proof. intros. unfold pw. destruct Rle_dec; [lra|reflexivity]. Qed.
Lemma pw_range : forall a u, 0 < a -> 0 <= u <= 1 -> 0 <= pw a u <= 1.
Proof.
  intros a u Ha Hu. unfold pw. destruct (Rle_dec u 0) as [H|H]; [lra|]. pose proof (exp_pos (a * ln u)). split; [lra|]. rewrite <- exp_0.
  assert (L : ln u <= 0) by (apply ln_le_0; lra). destruct (Req_dec (a * ln u) 0) as [->|Hne]; [lra|]. left. apply exp_increasing. nra.
Qed.
Lemma pw_cont : forall a x, 0 < a -> 0 <= x -> continuous (pw a) x.
Proof.
  intros a x Ha [Hx|<-].
  - apply continuous_ext_loc with (fun u => exp (a * ln u)).
    + exists (mkposreal x Hx). intros y Hy. unfold ball in Hy. simpl in Hy. unfold AbsRing_ball, abs, minus, plus, opp in Hy. simpl in Hy. apply Rabs_lt_between in Hy. symmetry. apply pw_pos. lra.
    + apply (ex_derive_continuous (V := R_NormedModule)). auto_derive. exact Hx.
  - apply continuity_pt_filterlim. intros e He. exists (exp (ln e / a)). split; [apply exp_pos|]. intros y [_ Hy]. unfold dist in *. simpl in *. unfold R_dist in *.
    unfold pw at 2. destruct (Rle_dec 0 0); [|lra]. rewrite Rminus_0_r in *. unfold pw. destruct (Rle_dec y 0) as [H|H]; [rewrite Rabs_R0; lra|].
    rewrite Rabs_pos_eq in * by (try lra; left; apply exp_pos). apply Rlt_le_trans with (exp (a * ln (exp (ln e / a)))).
    + apply exp_increasing. apply Rmult_lt_compat_l; [lra|]. apply ln_increasing; lra.
    + rewrite ln_exp. replace (a * (ln e / a)) with (ln e) by (field; lra). rewrite exp_ln by lra. lra.
Qed.
Lemma pw_derive : forall a x, 0 < x -> is_derive (pw a) x (a * exp ((a - 1) * ln x)).
Proof.
  intros a x Hx. apply (is_derive_ext_loc (fun u => exp (a * ln u))).
  - exists (mkposreal x Hx). intros y Hy. unfold ball in Hy. simpl in Hy. unfold AbsRing_ball, abs, minus, plus, opp in Hy. simpl in Hy. apply Rabs_lt_between in Hy. symmetry. apply pw_pos. lra.
  - auto_derive; [exact Hx|]. replace ((a - 1) * ln x) with (a * ln x + - ln x) by ring. rewrite exp_plus, exp_Ropp, exp_ln by exact Hx. ring.
Qed.

(** Replacing the uniform number u by u ^ (1 / th). *)
Lemma power_subst : forall (th m : R) (g : R -> R), 0 < th <= 1 -> (forall x, 0 <= x <= 1 -> continuous g x) -> is_RInt g 0 1 m ->
  is_RInt (fun u => exp ((1 - th) * (ln u / th)) * g (exp (ln u / th))) 0 1 (th * m).
Proof.
  intros th m g Hth Cg Ig. destruct (Req_dec th 1) as [->|Hne].
  - rewrite Rmult_1_l. apply (is_RInt_ext (V := R_NormedModule) g); [|exact Ig]. intros u Hu. rewrite Rmin_left, Rmax_right in Hu by lra.
    replace ((1 - 1) * (ln u / 1)) with 0 by lra. rewrite exp_0. replace (ln u / 1) with (ln u) by lra. rewrite exp_ln by lra. lra.
  - assert (Ha : 0 < (1 - th) / th) by (apply Rdiv_lt_0_compat; lra). assert (Hi : 0 < 1 / th) by (apply Rdiv_lt_0_compat; lra).
    set (g' := extension_C0 g 0 1).
    assert (C' : forall x, continuous g' x).
    { intros x. apply (extension_C0_continuous (V := R_NormedModule) g 0 1); [simpl; lra|]. intros y H1 H2. simpl in H1, H2. apply Cg. lra. }
    assert (E' : forall x, 0 <= x <= 1 -> g' x = g x) by (intros x Hx; apply (extension_C0_ext (V := R_NormedModule) g 0 1); simpl; lra).
    assert (I : forall x, is_RInt g' 0 x (RInt g' 0 x)) by (intros x; apply (RInt_correct (V := R_CompleteNormedModule)), (ex_RInt_continuous (V := R_CompleteNormedModule)); intros; apply C').
    assert (D' : forall x, is_derive (fun y => RInt g' 0 y) x (g' x)).
    { intros x. apply (is_derive_RInt (V := R_NormedModule) g' (fun y => RInt g' 0 y) 0 x); [|apply C']. exists (mkposreal 1 Rlt_0_1). intros y _. apply I. }
    assert (M : RInt g' 0 1 = m).
    { transitivity (RInt g 0 1); [|apply (is_RInt_unique (V := R_CompleteNormedModule)); exact Ig]. apply (RInt_ext (V := R_CompleteNormedModule)). intros x Hx. rewrite Rmin_left, Rmax_right in Hx by lra. apply E'. lra. }
    apply (is_RInt_ext (V := R_NormedModule) (fun u => pw ((1 - th) / th) u * g' (pw (1 / th) u))).
    + intros u Hu. rewrite Rmin_left, Rmax_right in Hu by lra. rewrite E' by (apply pw_range; lra). rewrite !pw_pos by lra. f_equal; [|f_equal]; f_equal; field; lra.
    + replace (th * m) with (th * RInt g' 0 (pw (1 / th) 1) - th * RInt g' 0 (pw (1 / th) 0)).
      2:{ rewrite (pw_pos _ 1) by lra. rewrite ln_1, Rmult_0_r, exp_0, M. unfold pw. destruct (Rle_dec 0 0); [|lra]. 
          assert (Z : RInt g' 0 0 = 0) by apply (RInt_point (V := R_CompleteNormedModule)). rewrite Z. lra. }
      apply (ftc_open (fun u => th * RInt g' 0 (pw (1 / th) u))).
      * intros x Hx. apply (continuous_comp (pw (1 / th)) (fun y => th * RInt g' 0 y)); [apply pw_cont; lra|].
        apply (ex_derive_continuous (V := R_NormedModule)). eexists. apply (is_derive_scal (fun y => RInt g' 0 y)). apply D'.
      * intros x Hx. evar_last. apply (is_derive_scal (fun u => RInt g' 0 (pw (1 / th) u))). apply (is_derive_comp (V := R_NormedModule) (fun y => RInt g' 0 y) (pw (1 / th))); [apply D'|apply pw_derive; lra].
        unfold scal. simpl. unfold mult. simpl. rewrite (pw_pos ((1 - th) / th)) by lra. replace (1 / th - 1) with ((1 - th) / th) by (field; lra). field. lra.
      * intros x Hx. apply (continuous_mult (K := R_AbsRing) (pw ((1 - th) / th))); [apply pw_cont; lra|]. apply (continuous_comp (pw (1 / th)) g'); [apply pw_cont; lra|apply C'].
Qed.

(** ** Scaling uniform numbers *)
Definition prod_over (a : idx -> R) (l : list idx) : R := fold_right (fun e r => a e * r) 1 l.
Lemma step_integral : forall (g : R -> R) a c m, 0 < a <= 1 -> is_RInt g 0 1 m ->
  is_RInt (fun x => if Rlt_dec x a then c * g (x / a) else 0) 0 1 (a * (c * m)).
Proof.
  intros g a c m Ha Hg. replace (a * (c * m)) with (plus (a * (c * m)) (scal (1 - a) 0)) by (unfold plus, scal; simpl; unfold mult; simpl; ring).
  apply (is_RInt_Chasles (V := R_NormedModule) _ 0 a 1).
  - apply (is_RInt_ext (V := R_NormedModule) (fun x => scal (a * c) (scal (/ a) (g (/ a * x + 0))))).
    + intros x Hx. rewrite Rmin_left, Rmax_right in Hx by lra. destruct Rlt_dec; [|lra]. unfold scal. simpl. unfold mult. simpl. replace (/ a * x + 0) with (x / a) by (unfold Rdiv; ring). field. lra.
    + replace (a * (c * m)) with (scal (a * c) m) by (unfold scal; simpl; unfold mult; simpl; ring). apply (is_RInt_scal (V := R_NormedModule)).
      apply (is_RInt_comp_lin (V := R_NormedModule) g (/ a) 0 0 a). replace (/ a * 0 + 0) with 0 by ring. replace (/ a * a + 0) with 1 by (field; lra). exact Hg.
  - apply (is_RInt_ext (V := R_NormedModule) (fun _ => 0)); [|apply (is_RInt_const (V := R_NormedModule))]. intros x Hx. rewrite Rmin_left, Rmax_right in Hx by lra. destruct Rlt_dec; [lra|reflexivity].
Qed.

Lemma scale_mean : forall (a : idx -> R) js F F2 env env2 m, NoDup js -> (forall e, In e js -> 0 < a e <= 1) ->
  (forall w w2, (forall e, ~ In e js -> w e = env e) -> (forall e, ~ In e js -> w2 e = env2 e) -> inner js w2 -> (forall e, In e js -> w2 e < a e /\ w e = w2 e / a e) -> F2 w2 = F w) ->
  (forall w2, (forall e, ~ In e js -> w2 e = env2 e) -> inner js w2 -> (exists e, In e js /\ a e <= w2 e) -> F2 w2 = 0) ->
  mean js F env m -> mean js F2 env2 (prod_over a js * m).
Proof.
  intros a js. induction js as [|e js IH]; intros F F2 env env2 m ND Ha H1 H2 Hm; cbn [mean prod_over fold_right] in *.
  - rewrite Rmult_1_l. rewrite <- Hm. apply H1; auto; intros e [].
  - destruct Hm as [g [G1 G2]]. inversion ND as [|? ? N1 N2]; subst. fold (prod_over a js). assert (Hae : 0 < a e <= 1) by (apply Ha; now left).
    exists (fun x => if Rlt_dec x (a e) then prod_over a js * g (x / a e) else 0). split; [|rewrite Rmult_assoc; now apply step_integral].
    assert (At : forall w2 x, (forall e', ~ In e' js -> w2 e' = at_index env2 e x e') -> w2 e = x /\ forall e', ~ In e' (e :: js) -> w2 e' = env2 e').
    { intros w2 x A. split; [rewrite A by exact N1; apply at_same|]. intros e' Ne. rewrite A by (intro; apply Ne; now right). apply at_other. intros ->. apply Ne. now left. }
    intros x Hx. destruct (Rlt_dec x (a e)) as [Hlt|Hge].
    + apply (IH F F2 (at_index env e (x / a e))); auto.
      * intros; apply Ha; now right.
      * intros w w2 A A2 B C. destruct (At w2 x A2) as [W1 W2]. apply H1; auto.
        -- intros e' Ne. rewrite A by (intro; apply Ne; now right). apply at_other. intros ->. apply Ne. now left.
        -- intros e' [<-|He]; [rewrite W1; exact Hx|now apply B].
        -- intros e' [<-|He]; [|now apply C]. rewrite W1. split; [exact Hlt|]. rewrite A by exact N1. apply at_same.
      * intros w2 A2 B [e' [C1 C2]]. destruct (At w2 x A2) as [W1 W2]. apply H2; auto.
        -- intros e2 [<-|He]; [rewrite W1; exact Hx|now apply B].
        -- exists e'. split; [now right|exact C2].
      * apply G1. split; [apply Rdiv_lt_0_compat; lra|]. apply (Rmult_lt_reg_r (a e)); [lra|]. unfold Rdiv. rewrite Rmult_assoc, Rinv_l; lra.
    + apply (mean_ext' js (fun _ => 0)); [|apply mean_zero]. intros w2 A2 B. destruct (At w2 x A2) as [W1 W2]. symmetry. apply H2; auto.
      * intros e2 [<-|He]; [rewrite W1; exact Hx|now apply B].
      * exists e. split; [now left|]. rewrite W1. lra.
Qed.

(** ** The probability that an option wins *)
Lemma race_mean : forall (a : idx -> R) (ok : idx -> R -> bool) js env, NoDup js -> (forall e, In e js -> 0 < a e <= 1) ->
  (forall e x, In e js -> x < a e -> ok e x = true) -> (forall e x, In e js -> a e < x -> ok e x = false) ->
  mean js (fun w => if forallb (fun e => ok e (w e)) js then 1 else 0) env (prod_over a js).
Proof.
  intros a ok js. induction js as [|e js IH]; intros env ND Ha H1 H2; cbn [mean prod_over fold_right forallb]; [reflexivity|].
  inversion ND as [|? ? N1 N2]; subst. fold (prod_over a js). assert (Hae : 0 < a e <= 1) by (apply Ha; now left).
  exists (fun x => if ok e x then prod_over a js else 0). split.
  - intros x Hx. destruct (ok e x) eqn:E.
    + apply (mean_ext' js (fun w => if forallb (fun e => ok e (w e)) js then 1 else 0)); [|apply IH; auto; intros; [apply Ha|apply H1|apply H2]; auto; now right].
      intros w A B. rewrite A by exact N1. rewrite at_same, E. reflexivity.
    + apply (mean_ext' js (fun _ => 0)); [|apply mean_zero]. intros w A B. rewrite A by exact N1. rewrite at_same, E. reflexivity.
  - replace (a e * prod_over a js) with (plus (scal (a e - 0) (prod_over a js)) (scal (1 - a e) 0)) by (unfold plus, scal; simpl; unfold mult; simpl; ring).
    apply (is_RInt_Chasles (V := R_NormedModule) _ 0 (a e) 1).
    + apply (is_RInt_ext (V := R_NormedModule) (fun _ => prod_over a js)); [|apply (is_RInt_const (V := R_NormedModule))]. intros x Hx. rewrite Rmin_left, Rmax_right in Hx by lra. rewrite H1; [reflexivity|now left|lra].
    + apply (is_RInt_ext (V := R_NormedModule) (fun _ => 0)); [|apply (is_RInt_const (V := R_NormedModule))]. intros x Hx. rewrite Rmin_left, Rmax_right in Hx by lra. rewrite H2; [reflexivity|now left|lra].
Qed.

(** ** The samples as functions of the noise *)
Lemma clamp_zero : forall x, 0 <= x <= 1 -> clamp_probs 0 x = x.
Proof. intros x H. apply clamp_id. lra. Qed.
Lemma combine_map2 : forall {A B C} (f : A -> B) (g : A -> C) l, combine (map f l) (map g l) = map (fun x => (f x, g x)) l.
Proof. induction l; simpl; f_equal; auto. Qed.
Lemma map_seq_nth : forall (f : nat -> R) n i, (i < n)%nat -> nth i (map f (seq 0 n)) 0 = f i.
Proof.
  intros f n i Hi. rewrite (nth_indep _ 0 (f 0%nat)) by (now rewrite map_length, seq_length). rewrite map_nth, seq_nth by exact Hi. reflexivity.
Qed.
Lemma list_nth : forall (l : list R), l = map (fun j => nth j l 0) (seq 0 (length l)).
Proof.
  intros l. apply (nth_ext _ _ 0 0); [now rewrite map_length, seq_length|]. intros i Hi. now rewrite (map_seq_nth (fun j => nth j l 0)).
Qed.

Section Row.
Variables (n b : nat) (probs : list R) (tau : R).
Hypothesis Hn : length probs = n.
Hypothesis Hb : (b < n)%nat.
Hypothesis Htau : 0 < tau.
Hypothesis Hp : inside_simplex probs.
Notation th j := (nth j probs 0).

Lemma th_pos : forall j, (j < n)%nat -> 0 < th j. Proof. intros j Hj. apply Hp. apply nth_In. lia. Qed.
Lemma sum_ge : forall (l : list R) x, (forall y, In y l -> 0 < y) -> In x l -> x <= fold_right Rplus 0 l.
Proof.
  assert (Z : forall l : list R, (forall y, In y l -> 0 < y) -> 0 <= fold_right Rplus 0 l).
  { induction l as [|y l IH]; intros H; simpl; [lra|]. pose proof (H y (or_introl eq_refl)). pose proof (IH (fun z Hz => H z (or_intror Hz))). lra. }
  induction l as [|y l IH]; intros x H Hin; [destruct Hin|]. destruct Hin as [->|Hx]; simpl; [pose proof (Z l (fun z Hz => H z (or_intror Hz))); lra|].
  pose proof (IH x (fun z Hz => H z (or_intror Hz)) Hx). pose proof (H y (or_introl eq_refl)). lra.
Qed.
Lemma th_le : forall j, (j < n)%nat -> th j <= 1.
Proof. intros j Hj. rewrite <- (proj2 Hp). apply sum_ge; [apply Hp|apply nth_In; lia]. Qed.

Definition score (u : idx -> R) (j : nat) : R := ln (th j) - ln (- ln (u [j])).
Lemma relaxed_row : forall u, (forall j, (j < n)%nat -> 0 < u [j] < 1) ->
  relaxed_categorical 0 tau probs (noise_row n u) = softmax (map (fun j => score u j / tau) (seq 0 n)).
Proof.
  intros u Hu. unfold relaxed_categorical. f_equal. rewrite (list_nth probs) at 1. rewrite Hn. unfold noise_row. rewrite combine_map2, map_map. apply map_ext_in. intros j Hj. apply in_seq in Hj.
  cbn [fst snd]. specialize (Hu j ltac:(lia)). pose proof (th_pos j ltac:(lia)). pose proof (th_le j ltac:(lia)). rewrite !clamp_zero by lra. reflexivity.
Qed.
Lemma cond_row : forall v, (forall j, (j < n)%nat -> 0 < v [j] < 1) ->
  cond_categorical 0 tau (one_hot n b) probs (noise_row n v) =
  softmax (map (fun j => (if Nat.eqb j b then - ln (- ln (v [b])) else - ln (- (ln (v [j]) / th j) - ln (v [b]))) / tau) (seq 0 n)).
Proof.
  intros v Hv. unfold cond_categorical, cond_gumbels. f_equal. rewrite map_map. rewrite argmax_one_hot by exact Hb.
  assert (E1 : map (clamp_probs 0) probs = map (fun j => th j) (seq 0 n)).
  { rewrite (list_nth probs) at 1. rewrite Hn, map_map. apply map_ext_in. intros j Hj. apply in_seq in Hj. pose proof (th_pos j ltac:(lia)). pose proof (th_le j ltac:(lia)). apply clamp_zero. lra. }
  assert (E2 : map ln (map (clamp_probs 0) (noise_row n v)) = map (fun j => ln (v [j])) (seq 0 n)).
  { unfold noise_row. rewrite !map_map. apply map_ext_in. intros j Hj. apply in_seq in Hj. specialize (Hv j ltac:(lia)). rewrite clamp_zero by lra. reflexivity. }
  rewrite E1, E2. unfold one_hot. rewrite !combine_map2, map_map. apply map_ext_in. intros j Hj. rewrite map_seq_nth by exact Hb.
  destruct (Nat.eqb_spec j b) as [->|Hne].
  - destruct (Req_EM_T 1 0); [lra|]. reflexivity.
  - destruct (Req_EM_T 0 0); [reflexivity|lra].
Qed.

(** The largest number that lets option [b] win. *)
Definition vb (u : R) : R := exp (ln u / th b).
Definition bound (u : R) (e : idx) : R := exp (th (hd 0%nat e) * (ln u / th b)).
Lemma ln_neg1 : forall u, 0 < u < 1 -> ln u < 0. Proof. intros u H. rewrite <- ln_1. apply ln_increasing; lra. Qed.
Lemma ratio_neg : forall u, 0 < u < 1 -> ln u / th b < 0.
Proof. intros u Hu. pose proof (ln_neg1 u Hu). pose proof (th_pos b Hb). unfold Rdiv. assert (0 < / th b) by (apply Rinv_0_lt_compat; lra). nra. Qed.
Lemma vb_range : forall u, 0 < u < 1 -> 0 < vb u < 1.
Proof. intros u Hu. unfold vb. split; [apply exp_pos|]. rewrite <- exp_0. apply exp_increasing. now apply ratio_neg. Qed.
Lemma bound_range : forall u j, 0 < u < 1 -> (j < n)%nat -> 0 < bound u [j] < 1.
Proof.
  intros u j Hu Hj. unfold bound. cbn [hd]. split; [apply exp_pos|]. rewrite <- exp_0. apply exp_increasing. pose proof (ratio_neg u Hu). pose proof (th_pos j Hj). nra.
Qed.
Lemma score_lt : forall u j, 0 < u [b] < 1 -> 0 < u [j] < 1 -> (j < n)%nat -> (score u j < score u b <-> u [j] < bound (u [b]) [j]) /\ (score u j <= score u b <-> u [j] <= bound (u [b]) [j]).
Proof.
  intros u j Hub Huj Hj. pose proof (th_pos b Hb) as Tb. pose proof (th_pos j Hj) as Tj. pose proof (ln_neg1 _ Hub) as Lb. pose proof (ln_neg1 _ Huj) as Lj.
  assert (S : forall i, 0 < th i -> ln (u [i]) < 0 -> score u i = - ln (- ln (u [i]) / th i)).
  { intros i Ti Li. unfold score, Rdiv. rewrite ln_mult, ln_Rinv; try lra. apply Rinv_0_lt_compat; lra. }
  rewrite (S j Tj Lj), (S b Tb Lb). clear S. assert (Pj : 0 < - ln (u [j]) / th j) by (apply Rdiv_lt_0_compat; lra). assert (Pb : 0 < - ln (u [b]) / th b) by (apply Rdiv_lt_0_compat; lra).
  assert (Ej : ln (u [j]) = - (th j * (- ln (u [j]) / th j))) by (field; lra). unfold bound. cbn [hd].
  set (x := - ln (u [j]) / th j) in *. assert (Eb : ln (u [b]) / th b = - (- ln (u [b]) / th b)) by (field; lra). rewrite Eb. set (y := - ln (u [b]) / th b) in *.
  rewrite <- (exp_ln (u [j])) by lra. rewrite Ej.
  assert (A : - ln x < - ln y <-> y < x) by (split; intros H; [apply ln_lt_inv; lra|assert (ln y < ln x) by (apply ln_increasing; lra); lra]).
  assert (B : exp (- (th j * x)) < exp (th j * - y) <-> y < x).
  { split; intros H; [apply exp_lt_inv in H; apply (Rmult_lt_reg_l (th j)); lra|apply exp_increasing; nra]. }
  assert (A' : - ln y < - ln x <-> x < y) by (split; intros H; [apply ln_lt_inv; lra|assert (ln x < ln y) by (apply ln_increasing; lra); lra]).
  assert (B' : exp (th j * - y) < exp (- (th j * x)) <-> x < y).
  { split; intros H; [apply exp_lt_inv in H; apply (Rmult_lt_reg_l (th j)); lra|apply exp_increasing; nra]. }
  split; [tauto|]. split; intros H; apply Rnot_lt_le; intros C; [apply B', A' in C|apply A', B' in C]; lra.
Qed.
Lemma softmax_lt : forall u i j, (i < n)%nat -> (j < n)%nat -> let z := softmax (map (fun j => score u j / tau) (seq 0 n)) in
  (nth i z 0 < nth j z 0 <-> score u i < score u j) /\ (nth i z 0 <= nth j z 0 <-> score u i <= score u j).
Proof.
  intros u i j Hi Hj z. assert (L : length (map (fun j => score u j / tau) (seq 0 n)) = n) by now rewrite map_length, seq_length.
  unfold z. rewrite !softmax_nth by (rewrite L; assumption). rewrite !map_seq_nth by assumption. set (c := ln _). clearbody c. clear z L.
  assert (T : forall x y, exp (x / tau - c) < exp (y / tau - c) <-> x < y).
  { intros x y. split; intros H.
    - apply exp_lt_inv in H. apply (Rmult_lt_reg_r (/ tau)); [now apply Rinv_0_lt_compat|]. unfold Rdiv in H. lra.
    - apply exp_increasing. assert (x * / tau < y * / tau) by (apply Rmult_lt_compat_r; [now apply Rinv_0_lt_compat|exact H]). unfold Rdiv. lra. }
  split; [apply T|]. split; intros H; apply Rnot_lt_le; intros C; [apply (proj2 (T _ _)) in C|apply (proj1 (T _ _)) in C]; lra.
Qed.

Lemma in_others : forall e, In e (others n b) <-> exists j, e = [j] /\ (j < n)%nat /\ j <> b.
Proof.
  intros e. unfold others. rewrite in_map_iff. split.
  - intros [j [<- H]]. apply filter_In in H. destruct H as [H1 H2]. apply in_seq in H1. apply negb_true_iff, Nat.eqb_neq in H2. exists j. repeat split; auto; lia.
  - intros [j [-> [H1 H2]]]. exists j. split; [reflexivity|]. apply filter_In. rewrite in_seq, negb_true_iff, Nat.eqb_neq. split; [lia|exact H2].
Qed.
Lemma others_nodup : NoDup (others n b).
Proof. unfold others. apply FinFun.Injective_map_NoDup; [intros x y E; congruence|]. apply NoDup_filter, seq_NoDup. Qed.
Lemma b_not_other : ~ In [b] (others n b). Proof. intros C. apply in_others in C. destruct C as [j [E [_ H]]]. congruence. Qed.
Lemma row_inner : forall u, 0 < u [b] < 1 -> inner (others n b) u -> forall j, (j < n)%nat -> 0 < u [j] < 1.
Proof. intros u H1 H2 j Hj. destruct (Nat.eq_dec j b) as [->|Hne]; [exact H1|]. apply H2. apply in_others. exists j. auto. Qed.

(** The product of the bounds. *)
Lemma prod_bound : forall u, prod_over (bound u) (others n b) = exp ((1 - th b) * (ln u / th b)).
Proof.
  intros u. unfold others. set (r := ln u / th b).
  assert (P : forall l, prod_over (bound u) (map (fun j => [j]) l) = exp (fold_right Rplus 0 (map (fun j => th j) l) * r)).
  { induction l as [|j l IH]; cbn [map prod_over fold_right]; [now rewrite Rmult_0_l, exp_0|]. fold (prod_over (bound u) (map (fun j => [j]) l)). rewrite IH. unfold bound. cbn [hd]. fold r. rewrite <- exp_plus. f_equal. ring. }
  rewrite P. f_equal. f_equal.
  assert (S : forall l, NoDup l -> fold_right Rplus 0 (map (fun j => th j) (filter (fun j => negb (Nat.eqb j b)) l)) = fold_right Rplus 0 (map (fun j => th j) l) - if in_dec Nat.eq_dec b l then th b else 0).
  { induction l as [|j l IH]; intros ND; [destruct in_dec as [[]|]; simpl; lra|]. inversion ND as [|? ? N1 N2]; subst. specialize (IH N2). cbn [filter].
    destruct (Nat.eqb_spec j b) as [->|Hne]; cbn [negb map fold_right].
    - rewrite IH. destruct (in_dec Nat.eq_dec b l); [contradiction|]. destruct (in_dec Nat.eq_dec b (b :: l)) as [_|C]; [lra|exfalso; apply C; now left].
    - rewrite IH. destruct (in_dec Nat.eq_dec b l) as [H|H]; destruct (in_dec Nat.eq_dec b (j :: l)) as [H'|H']; try lra; exfalso; [apply H'; now right|destruct H' as [E|H']; auto]. }
  rewrite S by apply seq_NoDup. destruct (in_dec Nat.eq_dec b (seq 0 n)) as [_|C]; [|exfalso; apply C, in_seq; lia].
  rewrite <- Hn, <- (list_nth probs), (proj2 Hp). reflexivity.
Qed.

Theorem resample_law : forall (h : list R -> R) (g : R -> R) m v0, (forall x, 0 <= x <= 1 -> continuous g x) -> is_RInt g 0 1 m ->
  (forall x, 0 < x < 1 -> mean (others n b) (fun v => h (cond_categorical 0 tau (one_hot n b) probs (noise_row n v))) (at_index v0 [b] x) (g x)) ->
  mean ([b] :: others n b) (fun u => let z := relaxed_categorical 0 tau probs (noise_row n u) in if largest_at z b then h z else 0) v0 (th b * m).
Proof.
  intros h g m v0 Cg Ig Hg. cbn [mean]. exists (fun u => exp ((1 - th b) * (ln u / th b)) * g (exp (ln u / th b))). pose proof (th_pos b Hb). pose proof (th_le b Hb).
  split; [|apply power_subst; auto; lra]. intros x Hx. rewrite <- prod_bound. fold (vb x). pose proof (vb_range x Hx) as Vx.
  assert (NB : forall w : idx -> R, forall env y, (forall e, ~ In e (others n b) -> w e = at_index env [b] y e) -> w [b] = y) by (intros w env y A; rewrite A by apply b_not_other; apply at_same).
  assert (Sz : forall u, length (softmax (map (fun j => score u j / tau) (seq 0 n))) = n) by (intros u; rewrite softmax_length, map_length, seq_length; reflexivity).
  apply (scale_mean (bound x) (others n b) (fun v => h (cond_categorical 0 tau (one_hot n b) probs (noise_row n v))) _ (at_index v0 [b] (vb x))); [apply others_nodup| | | |now apply Hg].
  - intros e He. apply in_others in He. destruct He as [j [-> [Hj _]]]. pose proof (bound_range x j Hx Hj). lra.
  - intros w w2 A A2 B C. pose proof (NB w _ _ A) as Wb. pose proof (NB w2 _ _ A2) as Wb2. cbv zeta.
    assert (R2 : forall j, (j < n)%nat -> 0 < w2 [j] < 1) by (apply row_inner; [rewrite Wb2; exact Hx|exact B]).
    assert (C' : forall j, (j < n)%nat -> j <> b -> w2 [j] < bound x [j] /\ w [j] = w2 [j] / bound x [j]) by (intros j Hj Hne; apply C, in_others; exists j; auto).
    assert (R1 : forall j, (j < n)%nat -> 0 < w [j] < 1).
    { intros j Hj. destruct (Nat.eq_dec j b) as [->|Hne]; [rewrite Wb; exact Vx|]. destruct (C' j Hj Hne) as [C1 C2]. rewrite C2. specialize (R2 j Hj). pose proof (bound_range x j Hx Hj).
      split; [apply Rdiv_lt_0_compat; lra|]. apply (Rmult_lt_reg_r (bound x [j])); [lra|]. unfold Rdiv. rewrite Rmult_assoc, Rinv_l; lra. }
    rewrite relaxed_row by exact R2. rewrite cond_row by exact R1.
    assert (Lg : largest_at (softmax (map (fun j => score w2 j / tau) (seq 0 n))) b = true).
    { unfold largest_at. rewrite Sz. apply forallb_forall. intros i Hi. apply in_seq in Hi. destruct (Nat.eqb_spec i b) as [->|Hne]; [reflexivity|]. cbn [orb].
      destruct Rlt_dec as [_|C2]; [reflexivity|]. exfalso. apply C2. apply softmax_lt; [lia|exact Hb|]. apply score_lt; [apply R2; exact Hb|apply R2; lia|lia|]. rewrite Wb2. apply C'; [lia|exact Hne]. }
    rewrite Lg. f_equal. f_equal. apply map_ext_in. intros j Hj. apply in_seq in Hj. f_equal. unfold score.
    pose proof (th_pos j ltac:(lia)) as Tj. pose proof (ln_neg1 _ (R2 j ltac:(lia))) as Lj.
    assert (E : ln (th j) - ln (- ln (w2 [j])) = - ln (- ln (w2 [j]) / th j)) by (unfold Rdiv; rewrite ln_mult, ln_Rinv; try lra; apply Rinv_0_lt_compat; lra).
    rewrite E. rewrite Wb. assert (Lv : ln (vb x) = ln x / th b) by (unfold vb; apply ln_exp). rewrite Lv.
    destruct (Nat.eqb_spec j b) as [->|Hne].
    + rewrite Wb2. f_equal. f_equal. field. lra.
    + destruct (C' j ltac:(lia) Hne) as [C1 C2]. rewrite C2. f_equal. f_equal. unfold Rdiv at 3. pose proof (bound_range x j Hx ltac:(lia)). specialize (R2 j ltac:(lia)).
      rewrite ln_mult, ln_Rinv by (try lra; apply Rinv_0_lt_compat; lra). assert (Lb : ln (bound x [j]) = th j * (ln x / th b)) by (unfold bound; cbn [hd]; apply ln_exp). rewrite Lb. field. lra.
  - intros w2 A2 B [e [He Ce]]. apply in_others in He. destruct He as [j [-> [Hj Hne]]]. pose proof (NB w2 _ _ A2) as Wb2. cbv zeta.
    assert (R2 : forall j, (j < n)%nat -> 0 < w2 [j] < 1) by (apply row_inner; [rewrite Wb2; exact Hx|exact B]).
    rewrite relaxed_row by exact R2. destruct (largest_at _ b) eqn:Lg; [|reflexivity]. exfalso. unfold largest_at in Lg. rewrite Sz in Lg. rewrite forallb_forall in Lg.
    specialize (Lg j ltac:(apply in_seq; lia)). rewrite (proj2 (Nat.eqb_neq j b) Hne) in Lg. cbn [orb] in Lg. destruct Rlt_dec as [D|D]; [|discriminate].
    apply softmax_lt in D; [|exact Hj|exact Hb]. apply score_lt in D; [|apply R2; exact Hb|apply R2; exact Hj|exact Hj]. rewrite Wb2 in D. lra.
Qed.
Theorem hard_law : forall v0, mean ([b] :: others n b) (fun u => nth b (discretize_categorical (relaxed_categorical 0 tau probs (noise_row n u))) 0) v0 (nth b probs 0).
Proof.
  intros v0. set (t := th b). cbn [mean]. exists (fun u => exp ((1 - t) * (ln u / t)) * 1).
  pose proof (th_pos b Hb). pose proof (th_le b Hb). fold t in H, H0. split.
  - intros x Hx. rewrite Rmult_1_r. unfold t. rewrite <- prod_bound. set (a := bound x).
    set (ok := fun (e : idx) y => orb (if Rlt_dec y (a e) then true else false) (andb (Nat.ltb b (hd 0%nat e)) (if Rle_dec y (a e) then true else false))).
    apply (mean_ext' (others n b) (fun w => if forallb (fun e => ok e (w e)) (others n b) then 1 else 0)).
    + intros w A B. assert (Wb : w [b] = x) by (rewrite A by apply b_not_other; apply at_same).
      assert (Rw : forall j, (j < n)%nat -> 0 < w [j] < 1) by (apply row_inner; [rewrite Wb; exact Hx|exact B]).
      rewrite relaxed_row by exact Rw. set (z := softmax _).
      assert (Lz : length z = n) by (unfold z; rewrite softmax_length, map_length, seq_length; reflexivity).
      assert (Nz : z <> []) by (intros C; rewrite C in Lz; simpl in Lz; lia).
      unfold discretize_categorical. rewrite map_seq_nth by (rewrite Lz; exact Hb). destruct (argmax_spec z Nz) as [A1 [A2 A3]]. rewrite Lz in *.
      assert (Lt : forall j, (j < n)%nat -> (nth j z 0 < nth b z 0 <-> w [j] < a [j]) /\ (nth j z 0 <= nth b z 0 <-> w [j] <= a [j])).
      { intros j Hj. destruct (softmax_lt w j b Hj Hb) as [S1 S2]. fold z in S1, S2. destruct (score_lt w j (Rw b Hb) (Rw j Hj) Hj) as [T1 T2]. rewrite Wb in T1, T2. fold a in T1, T2. tauto. }
      destruct (Nat.eqb_spec b (argmax z)) as [E|Hne].
      * replace (forallb _ _) with true; [reflexivity|]. symmetry. apply forallb_forall. intros e He. apply in_others in He. destruct He as [j [-> [Hj Hjb]]]. unfold ok. cbn [hd].
        destruct (Nat.ltb_spec b j) as [L|L].
        -- destruct Rlt_dec; [reflexivity|]. destruct Rle_dec as [|C]; [reflexivity|]. exfalso. apply C. apply Lt; [exact Hj|]. rewrite E. now apply A2.
        -- destruct Rlt_dec as [|C]; [reflexivity|]. exfalso. apply C. apply Lt; [exact Hj|]. rewrite E. apply A3. lia.
      * replace (forallb _ _) with false; [reflexivity|]. symmetry. apply not_true_iff_false. intros C. rewrite forallb_forall in C.
        specialize (C [argmax z] ltac:(apply in_others; exists (argmax z); auto)). unfold ok in C. cbn [hd] in C.
        destruct (Nat.ltb_spec b (argmax z)) as [L|L].
        -- assert (D : nth b z 0 < nth (argmax z) z 0) by now apply A3. destruct Rlt_dec as [K|K]; [apply Lt in K; [lra|exact A1]|]. destruct Rle_dec as [K'|K']; [apply Lt in K'; [lra|exact A1]|]. discriminate.
        -- destruct Rlt_dec as [K|K]; [|discriminate]. apply Lt in K; [|exact A1]. pose proof (A2 b Hb). lra.
    + apply race_mean; [apply others_nodup| | |].
      * intros e He. apply in_others in He. destruct He as [j [-> [Hj _]]]. pose proof (bound_range x j Hx Hj) as X. unfold a. lra.
      * intros e y _ Hy. unfold ok. destruct Rlt_dec; [reflexivity|lra].
      * intros e y _ Hy. unfold ok. destruct Rlt_dec; [lra|]. destruct Rle_dec; [lra|]. apply andb_false_r.
  - evar_last; [apply (power_subst t 1 (fun _ => 1)); [lra| |]|ring].
    + intros y _. apply continuous_const.
    + pose proof (is_RInt_const (V := R_NormedModule) 0 1 1) as X. unfold scal in X. simpl in X. unfold mult in X. simpl in X. replace ((1 - 0) * 1) with 1 in X by ring. exact X.
Qed.
End Row.

Theorem bernoulli_law : forall eps tau p, 0 < eps -> 0 < tau -> eps < p <= 1 - eps ->
  is_RInt (fun u => discretize_bernoulli (relaxed_bernoulli eps tau p u)) 0 1 p.
Proof.
  intros eps tau p He Ht Hp.
  assert (E : forall u, 0 < u < 1 -> discretize_bernoulli (relaxed_bernoulli eps tau p u) = if Rle_dec u (1 - p) then 0 else 1).
  { intros u Hu. assert (C : clamp_probs eps (clamp_probs eps u) = clamp_probs eps u) by (apply clamp_id; apply clamp_in; lra).
    assert (Ec : relaxed_bernoulli eps tau p u = relaxed_bernoulli eps tau p (clamp_probs eps u)) by (unfold relaxed_bernoulli; now rewrite C).
    rewrite Ec, relaxed_bernoulli_rounds by (try lra; apply clamp_in; lra). unfold clamp_probs.
    destruct (Rle_dec u eps) as [H1|H1]; [rewrite Rmax_right by lra; rewrite Rmin_left by lra; destruct (Rle_dec eps (1 - p)), (Rle_dec u (1 - p)); lra|].
    rewrite (Rmax_left u eps) by lra. destruct (Rle_dec u (1 - eps)) as [H2|H2]; [rewrite Rmin_left by lra; reflexivity|]. rewrite Rmin_right by lra.
    destruct (Rle_dec (1 - eps) (1 - p)), (Rle_dec u (1 - p)); lra. }
  assert (V : p = plus (scal (1 - p - 0) 0) (scal (1 - (1 - p)) 1)) by (unfold plus, scal; simpl; unfold mult; simpl; ring). evar_last; [|symmetry; exact V].
  apply (is_RInt_Chasles (V := R_NormedModule) _ 0 (1 - p) 1).
  - apply (is_RInt_ext (V := R_NormedModule) (fun _ => 0)); [|apply (is_RInt_const (V := R_NormedModule))]. intros u Hu. rewrite Rmin_left, Rmax_right in Hu by lra. rewrite E by lra. destruct Rle_dec; lra.
  - apply (is_RInt_ext (V := R_NormedModule) (fun _ => 1)); [|apply (is_RInt_const (V := R_NormedModule))]. intros u Hu. rewrite Rmin_left, Rmax_right in Hu by lra. rewrite E by lra. destruct Rle_dec; lra.
Qed.

(** ** A case with two options *)
Lemma pair_cond : forall v, 0 < v [0%nat] < 1 -> 0 < v [1%nat] < 1 ->
  (nth 1 (cond_categorical 0 1 (one_hot 2 0) [1 / 2; 1 / 2] (noise_row 2 v)) 0 <= 1 / 3 <-> v [1%nat] <= exp (1 / 2 * ln (v [0%nat]))).
Proof.
  intros v H0 H1. assert (S : inside_simplex [1 / 2; 1 / 2]) by (split; [intros x [<-|[<-|[]]]; lra|simpl; lra]).
  rewrite (cond_row 2 0 [1 / 2; 1 / 2] 1 eq_refl ltac:(lia) S) by (intros [|[|j]] Hj; [exact H0|exact H1|lia]).
  rewrite softmax_nth by (simpl; lia). unfold SworWeights.rsum. cbn [seq map nth Nat.eqb fold_right]. pose proof (ln_neg1 _ H0) as L0. pose proof (ln_neg1 _ H1) as L1.
  set (x := - ln (v [0%nat])) in *. set (y := - (ln (v [1%nat]) / (1 / 2)) - ln (v [0%nat])).
  assert (Hx : 0 < x) by (unfold x; lra). assert (Hy : x < y) by (unfold x, y; lra).
  replace (- ln x / 1) with (- ln x) by lra. replace (- ln y / 1) with (- ln y) by lra. rewrite !exp_Ropp, !exp_ln by lra.
  assert (Px : 0 < / x) by (apply Rinv_0_lt_compat; lra). assert (Py : 0 < / y) by (apply Rinv_0_lt_compat; lra).
  unfold Rminus. rewrite exp_plus, (exp_Ropp (ln y)), (exp_Ropp (ln _)), !exp_ln by lra.
  replace (/ y * / (/ x + (/ y + 0))) with (x / (x + y)) by (field; lra).
  transitivity (2 * x <= y).
  - assert (E : x / (x + y) * (x + y) = x) by (field; lra). split; intros H.
    + apply (Rmult_le_compat_r (x + y)) in H; [|lra]. rewrite E in H. clear - H. lra.
    + apply (Rmult_le_reg_r (x + y)); [lra|]. rewrite E. clear - H. lra.
  - transitivity (ln (v [1%nat]) <= 1 / 2 * ln (v [0%nat])); [unfold x, y; split; lra|]. split; intros H.
    + rewrite <- (exp_ln (v [1%nat])) by lra. destruct H as [H|H]; [left; now apply exp_increasing|rewrite H; lra].
    + rewrite <- (ln_exp (1 / 2 * ln (v [0%nat]))). destruct H as [H|H]; [left; apply ln_increasing; lra|rewrite H; lra].
Qed.
