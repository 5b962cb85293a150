(** Lemmas about relaxed samples. *)
From Coq Require Import Reals List Arith Lra Lia.
From Verif Require Import SworWeights Relaxed SpecRelaxed.
Import ListNotations.
Local Open Scope R_scope.

Lemma clamp_in : forall eps p, 0 < eps < 1 / 2 -> eps <= clamp_probs eps p <= 1 - eps.
Proof.
  intros eps p He. unfold clamp_probs, Rmin, Rmax. repeat destruct Rle_dec; lra.
Qed.
Lemma clamp_id : forall eps p, eps <= p <= 1 - eps -> clamp_probs eps p = p.
Proof. intros eps p H. unfold clamp_probs, Rmin, Rmax. repeat destruct Rle_dec; lra. Qed.

Lemma argmax_from_spec : forall l best a i (pre : list R), length pre = i -> (a < i)%nat -> nth a pre 0 = best ->
  (forall j, (j < i)%nat -> nth j pre 0 <= best) -> (forall j, (j < a)%nat -> nth j pre 0 < best) ->
  let r := argmax_from best a i l in
  (r < length (pre ++ l))%nat /\ (forall j, (j < length (pre ++ l))%nat -> nth j (pre ++ l) 0 <= nth r (pre ++ l) 0) /\
  (forall j, (j < r)%nat -> nth j (pre ++ l) 0 < nth r (pre ++ l) 0).
Proof.
  induction l as [|x l IH]; intros best a i pre Hi Ha Hb Hmax Hf; cbn zeta; simpl argmax_from.
  - rewrite app_nil_r. subst. repeat split; auto.
  - replace (pre ++ x :: l) with ((pre ++ [x]) ++ l) by now rewrite <- app_assoc.
    assert (L : length (pre ++ [x]) = S i) by (rewrite app_length; simpl; lia).
    assert (N : forall j, (j < i)%nat -> nth j (pre ++ [x]) 0 = nth j pre 0) by (intros; now rewrite app_nth1 by lia).
    assert (N' : nth i (pre ++ [x]) 0 = x) by (rewrite app_nth2 by lia; now rewrite Hi, Nat.sub_diag).
    destruct (Rlt_dec best x) as [Hlt|Hge].
    + apply IH; auto.
      * intros j Hj. destruct (Nat.eq_dec j i) as [->|]; [rewrite N'; lra|]. rewrite N by lia. specialize (Hmax j ltac:(lia)). lra.
      * intros j Hj. rewrite N by lia. specialize (Hmax j ltac:(lia)). lra.
    + apply IH; auto.
      * now rewrite N.
      * intros j Hj. destruct (Nat.eq_dec j i) as [->|]; [rewrite N'; lra|]. rewrite N by lia. apply Hmax. lia.
      * intros j Hj. rewrite N by lia. auto.
Qed.
Lemma argmax_spec : forall l, l <> [] -> (argmax l < length l)%nat /\
  (forall j, (j < length l)%nat -> nth j l 0 <= nth (argmax l) l 0) /\ (forall j, (j < argmax l)%nat -> nth j l 0 < nth (argmax l) l 0).
Proof.
  intros [|x l] H; [contradiction|]. cbn [argmax]. apply (argmax_from_spec l x 0 1 [x]); auto.
  - intros j Hj. assert (j = 0)%nat as -> by lia. simpl. lra.
  - intros j Hj. lia.
Qed.
Lemma argmax_strict : forall l b, strictly_largest l b -> argmax l = b.
Proof.
  intros l b [H1 H2]. assert (l <> []) by (intros ->; simpl in H1; lia).
  destruct (argmax_spec l H) as [A1 [A2 _]]. destruct (Nat.eq_dec (argmax l) b); auto.
  specialize (H2 _ A1 n). specialize (A2 _ H1). lra.
Qed.

Lemma one_hot_length : forall n b, length (one_hot n b) = n.
Proof. intros. unfold one_hot. now rewrite map_length, seq_length. Qed.
Lemma one_hot_nth : forall n b i, (i < n)%nat -> nth i (one_hot n b) 0 = if Nat.eqb i b then 1 else 0.
Proof.
  intros. unfold one_hot.
  rewrite nth_indep with (d' := (fun i => if Nat.eqb i b then 1 else 0) 0%nat) by now rewrite map_length, seq_length.
  rewrite (map_nth (fun i => if Nat.eqb i b then 1 else 0)), seq_nth by auto. reflexivity.
Qed.
Lemma argmax_one_hot : forall n b, (b < n)%nat -> argmax (one_hot n b) = b.
Proof.
  intros n b H. apply argmax_strict. split; [now rewrite one_hot_length|]. rewrite one_hot_length. intros i Hi Hne.
  rewrite !one_hot_nth by auto. rewrite Nat.eqb_refl. apply Nat.eqb_neq in Hne. rewrite Hne. lra.
Qed.

Lemma rsum_exp_pos : forall l, l <> [] -> 0 < rsum (map exp l).
Proof.
  induction l as [|x l IH]; [contradiction|]. intros _. cbn [map rsum fold_right]. pose proof (exp_pos x).
  destruct l as [|y l]; [simpl; lra|]. specialize (IH ltac:(discriminate)). unfold rsum in *. lra.
Qed.
Lemma softmax_length : forall l, length (softmax l) = length l.
Proof. intros. unfold softmax. now rewrite map_length. Qed.
Lemma softmax_nth : forall l i, (i < length l)%nat -> nth i (softmax l) 0 = exp (nth i l 0 - ln (rsum (map exp l))).
Proof.
  intros l i H. unfold softmax. set (c := ln _). rewrite nth_indep with (d' := (fun s => exp (s - c)) 0) by now rewrite map_length.
  now rewrite (map_nth (fun s => exp (s - c))).
Qed.
Lemma softmax_inside : forall l, l <> [] -> inside_simplex (softmax l).
Proof.
  intros l Hl. split.
  - intros x H. unfold softmax in H. apply in_map_iff in H. destruct H as [y [<- _]]. apply exp_pos.
  - unfold softmax. pose proof (rsum_exp_pos l Hl) as H. set (c := rsum (map exp l)) in *.
    assert (forall l', fold_right Rplus 0 (map (fun s => exp (s - ln c)) l') = rsum (map exp l') / c).
    { induction l' as [|x l' IH]; simpl; [unfold Rdiv; ring|]. rewrite IH. unfold rsum. unfold Rminus. rewrite exp_plus, exp_Ropp, exp_ln by auto. field. lra. }
    rewrite H0. fold c. field. lra.
Qed.
Lemma softmax_largest : forall l b, strictly_largest l b -> strictly_largest (softmax l) b.
Proof.
  intros l b [H1 H2]. split; [now rewrite softmax_length|]. rewrite softmax_length. intros i Hi Hne. rewrite !softmax_nth by auto.
  apply exp_increasing. specialize (H2 i Hi Hne). lra.
Qed.
Lemma discretize_largest : forall l b, strictly_largest l b -> discretize_categorical l = one_hot (length l) b.
Proof. intros l b H. unfold discretize_categorical, one_hot. now rewrite (argmax_strict l b H). Qed.

Lemma nth_combine3 : forall (a b c : list R) i, (i < length a)%nat -> length b = length a -> length c = length a ->
  nth i (combine a (combine b c)) (0, (0, 0)) = (nth i a 0, (nth i b 0, nth i c 0)).
Proof.
  intros a b c i Hi Hb Hc. rewrite combine_nth by (rewrite combine_length; lia). now rewrite combine_nth by lia.
Qed.

Lemma cond_gumbels_length : forall hard probs lv, length probs = length hard -> length lv = length hard -> length (cond_gumbels hard probs lv) = length hard.
Proof. intros. unfold cond_gumbels. rewrite map_length, !combine_length. lia. Qed.
Lemma cond_gumbels_largest : forall n b probs lv, (b < n)%nat -> length probs = n -> length lv = n ->
  (forall p, In p probs -> 0 < p) -> (forall x, In x lv -> x < 0) -> strictly_largest (cond_gumbels (one_hot n b) probs lv) b.
Proof.
  intros n b probs lv Hb Hp Hl P L.
  assert (Len : length (cond_gumbels (one_hot n b) probs lv) = n) by (rewrite cond_gumbels_length; rewrite ?one_hot_length; auto).
  split; [now rewrite Len|]. rewrite Len. intros i Hi Hne.
  assert (E : forall j, (j < n)%nat -> nth j (cond_gumbels (one_hot n b) probs lv) 0 =
    if Nat.eqb j b then - ln (- nth j lv 0) else - ln (- (nth j lv 0 / nth j probs 0) - nth b lv 0)).
  { intros j Hj. unfold cond_gumbels. rewrite argmax_one_hot by auto.
    set (g := fun hpl : R * (R * R) => _). rewrite nth_indep with (d' := g (0, (0, 0))).
    2:{ rewrite map_length, !combine_length, one_hot_length. lia. }
    rewrite map_nth, nth_combine3 by (rewrite ?one_hot_length; lia). unfold g. rewrite one_hot_nth by auto.
    destruct (Nat.eqb j b); destruct Req_EM_T; auto; lra. }
  rewrite !E by auto. rewrite Nat.eqb_refl. apply Nat.eqb_neq in Hne. rewrite Hne.
  assert (nth b lv 0 < 0) by (apply L, nth_In; lia). assert (nth i lv 0 < 0) by (apply L, nth_In; lia). assert (0 < nth i probs 0) by (apply P, nth_In; lia).
  assert (nth i lv 0 / nth i probs 0 < 0) by (apply Rmult_lt_reg_r with (nth i probs 0); auto; unfold Rdiv; rewrite Rmult_assoc, Rinv_l by lra; lra).
  apply Ropp_lt_contravar. apply ln_increasing; lra.
Qed.
Lemma div_largest : forall tau l b, 0 < tau -> strictly_largest l b -> strictly_largest (map (fun g => g / tau) l) b.
Proof.
  intros tau l b Ht [H1 H2]. split; [now rewrite map_length|]. rewrite map_length. intros i Hi Hne.
  assert (E : forall j, (j < length l)%nat -> nth j (map (fun g => g / tau) l) 0 = nth j l 0 / tau).
  { intros j Hj. rewrite nth_indep with (d' := (fun g => g / tau) 0) by now rewrite map_length. now rewrite (map_nth (fun g => g / tau)). }
  rewrite !E by auto. apply Rmult_lt_compat_r; [now apply Rinv_0_lt_compat|auto].
Qed.

Lemma cond_categorical_ok : forall eps tau n b probs v, 0 < eps < 1 / 2 -> 0 < tau -> (b < n)%nat -> length probs = n -> length v = n ->
  let r := cond_categorical eps tau (one_hot n b) probs v in
  length r = n /\ inside_simplex r /\ strictly_largest r b /\ discretize_categorical r = one_hot n b.
Proof.
  intros eps tau n b probs v He Ht Hb Hp Hv. cbn zeta. unfold cond_categorical.
  set (sc := map _ (cond_gumbels _ _ _)).
  assert (S : strictly_largest sc b).
  { apply div_largest; auto. apply cond_gumbels_largest; rewrite ?map_length; auto.
    - intros p H. apply in_map_iff in H. destruct H as [q [<- _]]. pose proof (clamp_in eps q He). lra.
    - intros x H. apply in_map_iff in H. destruct H as [y [<- H]]. apply in_map_iff in H. destruct H as [q [<- _]].
      pose proof (clamp_in eps q He). rewrite <- ln_1. apply ln_increasing; lra. }
  assert (L : length sc = n). { unfold sc. rewrite map_length, cond_gumbels_length; rewrite ?one_hot_length, ?map_length; auto. }
  split; [now rewrite softmax_length|]. split; [apply softmax_inside; intros E; rewrite E in L; simpl in L; lia|].
  split; [now apply softmax_largest|]. rewrite (discretize_largest _ b) by now apply softmax_largest. now rewrite softmax_length, L.
Qed.

(** Bernoulli *)
Lemma sigmoid_half : forall x, sigmoid x <= 1 / 2 <-> x <= 0.
Proof.
  intros x. unfold sigmoid. pose proof (exp_pos (- x)).
  assert (E : / (1 + exp (- x)) <= 1 / 2 <-> 1 <= exp (- x)).
  { split; intros K.
    - assert ((1 + exp (- x)) * / (1 + exp (- x)) = 1) by (apply Rinv_r; lra). assert (0 < / (1 + exp (- x))) by (apply Rinv_0_lt_compat; lra). nra.
    - apply Rmult_le_reg_r with (1 + exp (- x)); [lra|]. rewrite Rinv_l by lra. lra. }
  rewrite E. split; intros K.
  - destruct (Rle_dec x 0); auto. assert (exp (- x) < exp 0) by (apply exp_increasing; lra). rewrite exp_0 in *. lra.
  - destruct (Req_dec x 0) as [->|]; [rewrite Ropp_0, exp_0; lra|]. assert (exp 0 < exp (- x)) by (apply exp_increasing; lra). rewrite exp_0 in *. lra.
Qed.
Lemma sigmoid_range : forall x, 0 < sigmoid x < 1.
Proof.
  intros x. unfold sigmoid. pose proof (exp_pos (- x)). split; [apply Rinv_0_lt_compat; lra|].
  apply Rmult_lt_reg_r with (1 + exp (- x)); [lra|]. rewrite Rinv_l by lra. lra.
Qed.
Lemma div_le_0 : forall x t, 0 < t -> (x / t <= 0 <-> x <= 0).
Proof.
  intros x t Ht. pose proof (Rinv_0_lt_compat t Ht). unfold Rdiv. split; intros K.
  - apply Rmult_le_reg_r with (/ t); auto. lra.
  - assert (x * / t <= 0 * / t) by (apply Rmult_le_compat_r; lra). lra.
Qed.
Lemma ln_le_0 : forall x, 0 < x -> (ln x <= 0 <-> x <= 1).
Proof.
  intros x Hx. split; intros K.
  - destruct (Rle_dec x 1); auto. assert (ln 1 < ln x) by (apply ln_increasing; lra). rewrite ln_1 in *. lra.
  - destruct (Req_dec x 1) as [->|]; [rewrite ln_1; lra|]. assert (ln x < ln 1) by (apply ln_increasing; lra). rewrite ln_1 in *. lra.
Qed.
(** When the conditional sample of a Bernoulli variable rounds to 0. *)
Lemma cond_bernoulli_rounds : forall eps tau hard p v, 0 < eps < 1 / 2 -> 0 < tau -> hard = 0 \/ hard = 1 ->
  let p' := clamp_probs eps p in let v' := v_prime hard p' (clamp_probs eps v) in
  discretize_bernoulli (cond_bernoulli eps tau hard p v) = if Rle_dec (p' * (1 + p') * (v' * (1 + v'))) 1 then 0 else 1.
Proof.
  intros eps tau hard p v He Ht Hh p' v'. unfold discretize_bernoulli, cond_bernoulli. fold p'. fold v'.
  pose proof (clamp_in eps p He) as P. fold p' in P. pose proof (clamp_in eps v He) as W.
  assert (V : 0 < v').
  { unfold v', v_prime. set (w := clamp_probs eps v) in *. destruct Req_EM_T; [nra|]. destruct Req_EM_T; [nra|]. destruct Hh; contradiction. }
  assert (E : ln p' + ln (1 + p') + ln v' + ln (1 + v') = ln (p' * (1 + p') * (v' * (1 + v')))).
  { rewrite !ln_mult by (repeat apply Rmult_lt_0_compat; lra). ring. }
  rewrite E. assert (Q : 0 < p' * (1 + p') * (v' * (1 + v'))) by (repeat apply Rmult_lt_0_compat; lra).
  destruct (Rle_dec (sigmoid _) _) as [K|K]; rewrite sigmoid_half, (div_le_0 _ _ Ht), (ln_le_0 _ Q) in K; destruct Rle_dec; auto; contradiction.
Qed.
Lemma cond_bernoulli_zero : forall eps tau p v, 0 < eps < 1 / 2 -> 0 < tau -> discretize_bernoulli (cond_bernoulli eps tau 0 p v) = 0.
Proof.
  intros eps tau p v He Ht. rewrite cond_bernoulli_rounds by auto. cbv zeta. pose proof (clamp_in eps p He) as P. pose proof (clamp_in eps v He) as W.
  set (q := clamp_probs eps p) in *. set (w := clamp_probs eps v) in *. unfold v_prime. destruct Req_EM_T; [lra|]. destruct Req_EM_T; [|lra].
  destruct Rle_dec as [|K]; auto. exfalso. apply K. set (x := w * (1 - q)). assert (0 < x < 1 - q) by (unfold x; nra).
  assert (x * (1 + x) <= (1 - q) * (2 - q)) by nra. assert (q * (1 + q) * (x * (1 + x)) <= q * (1 + q) * ((1 - q) * (2 - q))) by (apply Rmult_le_compat_l; nra).
  assert (q * (1 + q) * ((1 - q) * (2 - q)) = (2 * q - q * q) * (1 - q * q)) by ring.
  nra.
Qed.
Lemma cond_bernoulli_one_small : forall eps tau p v, 0 < eps -> eps <= p -> p <= 366 / 1000 -> 0 < tau -> discretize_bernoulli (cond_bernoulli eps tau 1 p v) = 0.
Proof.
  intros eps tau p v He Hp Hq Ht. assert (He' : 0 < eps < 1 / 2) by lra. rewrite cond_bernoulli_rounds by auto. cbv zeta.
  pose proof (clamp_in eps v He') as W. rewrite (clamp_id eps p) by lra. set (w := clamp_probs eps v) in *. unfold v_prime. destruct Req_EM_T; [|lra].
  destruct Rle_dec as [|K]; auto. exfalso. apply K. set (x := w * p + (1 - p)). assert (0 < x < 1) by (unfold x; nra).
  assert (x * (1 + x) < 2) by nra. assert (p * (1 + p) <= 1 / 2) by nra. nra.
Qed.

(** The relaxed sample of a Bernoulli variable rounds to 1 exactly when the uniform number is above 1 - p. *)
Lemma relaxed_bernoulli_rounds : forall eps tau p u, 0 < eps -> 0 < tau -> eps <= p <= 1 - eps -> eps <= u <= 1 - eps ->
  discretize_bernoulli (relaxed_bernoulli eps tau p u) = if Rle_dec u (1 - p) then 0 else 1.
Proof.
  intros eps tau p u He Ht Hp Hu. unfold discretize_bernoulli, relaxed_bernoulli. rewrite !clamp_id by lra.
  assert (E : (ln u - ln (1 - u) + ln p - ln (1 - p)) <= 0 <-> u <= 1 - p).
  { replace (ln u - ln (1 - u) + ln p - ln (1 - p)) with (ln (u * p) - ln ((1 - u) * (1 - p))) by (rewrite !ln_mult by lra; ring).
    assert (0 < u * p) by nra. assert (0 < (1 - u) * (1 - p)) by nra. split; intros K.
    - destruct (Rle_dec u (1 - p)); auto. assert ((1 - u) * (1 - p) < u * p) by nra. assert (ln ((1 - u) * (1 - p)) < ln (u * p)) by (apply ln_increasing; lra). lra.
    - destruct (Req_dec (u * p) ((1 - u) * (1 - p))) as [->|]; [lra|]. assert (u * p < (1 - u) * (1 - p)) by nra.
      assert (ln (u * p) < ln ((1 - u) * (1 - p))) by (apply ln_increasing; lra). lra. }
  destruct (Rle_dec (sigmoid _) _) as [K|K]; rewrite sigmoid_half, (div_le_0 _ _ Ht), E in K; destruct Rle_dec; auto; contradiction.
Qed.

Lemma relaxed_categorical_scores : forall eps tau probs us b, 0 < tau -> length us = length probs ->
  strictly_largest (map (fun pu => ln (clamp_probs eps (fst pu)) - ln (- ln (clamp_probs eps (snd pu)))) (combine probs us)) b ->
  discretize_categorical (relaxed_categorical eps tau probs us) = one_hot (length probs) b.
Proof.
  intros eps tau probs us b Ht Hl H. unfold relaxed_categorical.
  apply (div_largest tau) in H; auto. rewrite map_map in H. rewrite (discretize_largest _ b) by now apply softmax_largest.
  rewrite softmax_length, map_length, combine_length, Hl. now rewrite Nat.min_id.
Qed.
(** The exponential race: option [b] wins when its time -ln u / p is strictly the smallest. *)
Lemma relaxed_categorical_race : forall eps tau probs us b, 0 < eps -> 0 < tau -> length us = length probs -> (b < length probs)%nat ->
  (forall p, In p probs -> eps <= p <= 1 - eps) -> (forall u, In u us -> eps <= u <= 1 - eps) ->
  (forall i, (i < length probs)%nat -> i <> b -> - ln (nth b us 0) / nth b probs 0 < - ln (nth i us 0) / nth i probs 0) ->
  discretize_categorical (relaxed_categorical eps tau probs us) = one_hot (length probs) b.
Proof.
  intros eps tau probs us b He Ht Hl Hb P U H. apply relaxed_categorical_scores; auto. split; [rewrite map_length, combine_length; lia|].
  rewrite map_length, combine_length, Hl, Nat.min_id. intros i Hi Hne.
  assert (E : forall j, (j < length probs)%nat -> nth j (map (fun pu => ln (clamp_probs eps (fst pu)) - ln (- ln (clamp_probs eps (snd pu)))) (combine probs us)) 0
      = - ln (- ln (nth j us 0) / nth j probs 0) /\ 0 < - ln (nth j us 0) / nth j probs 0).
  { intros j Hj. set (g := fun pu : R * R => _). rewrite nth_indep with (d' := g (0, 0)) by (rewrite map_length, combine_length; lia).
    rewrite map_nth, combine_nth by auto. unfold g. cbn [fst snd].
    assert (Pj : In (nth j probs 0) probs) by (apply nth_In; lia). assert (Uj : In (nth j us 0) us) by (apply nth_In; lia).
    specialize (P _ Pj). specialize (U _ Uj). rewrite !clamp_id by lra.
    assert (0 < - ln (nth j us 0)). { assert (ln (nth j us 0) < ln 1) by (apply ln_increasing; lra). rewrite ln_1 in *. lra. }
    assert (0 < / nth j probs 0) by (apply Rinv_0_lt_compat; lra).
    split; [|unfold Rdiv; nra]. unfold Rdiv. rewrite ln_mult by lra. rewrite ln_Rinv by lra. ring. }
  destruct (E i Hi) as [-> Ei]. destruct (E b Hb) as [-> Eb]. apply Ropp_lt_contravar. apply ln_increasing; auto.
Qed.
