(** Lemmas about the weights of the unordered set estimator. *)
From Coq Require Import Reals List Arith Bool Lra Lia.
From Verif Require Import Gumbel GumbelProofs SworWeights Unordered SpecUnordered.
Import ListNotations.
Local Open Scope R_scope.

Lemma log1mexp_abs : forall x, log1mexp x = ln (1 - exp (- Rabs x) + l_eps).
Proof. intros x. unfold log1mexp. destruct Rlt_dec; f_equal; lra. Qed.

Lemma total_rsum : forall l, total l = rsum l.
Proof. reflexivity. Qed.
Lemma total_ext : forall (A : Type) (f g : A -> R) l, (forall x, In x l -> f x = g x) -> total (map f l) = total (map g l).
Proof.
  intros A f g. induction l as [|x l IH]; intros H; simpl; auto. rewrite (H x) by now left. rewrite IH; auto. intros y Hy. apply H. now right.
Qed.
Lemma total_pos : forall (A : Type) (f : A -> R) l, l <> [] -> (forall x, In x l -> 0 < f x) -> 0 < total (map f l).
Proof.
  intros A f. induction l as [|x l IH]; intros Hn H; [contradiction|]. simpl. assert (0 < f x) by (apply H; now left).
  destruct l as [|y l]; [simpl; lra|]. assert (0 < total (map f (y :: l))) by (apply IH; [discriminate|]; intros z Hz; apply H; now right). unfold total in *. lra.
Qed.
Lemma product_pos : forall (A : Type) (f : A -> R) l, (forall x, In x l -> 0 < f x) -> 0 < product (map f l).
Proof.
  intros A f. induction l as [|x l IH]; intros H; simpl; [lra|]. apply Rmult_lt_0_compat; [apply H; now left|]. apply IH. intros y Hy. apply H. now right.
Qed.
Lemma filter_all : forall l, filter all l = l.
Proof. induction l as [|x l IH]; simpl; auto. now rewrite IH. Qed.
Lemma filter_but_out : forall s l, ~ In s l -> filter (but s) l = l.
Proof.
  intros s. induction l as [|x l IH]; intros H; simpl; auto. unfold but at 1. destruct (Nat.eqb_spec x s) as [->|]; simpl.
  - exfalso. apply H. now left.
  - rewrite IH; auto. intros K. apply H. now right.
Qed.
Lemma product_but : forall (f : nat -> R) s l, NoDup l -> In s l -> product (map f l) = f s * product (map f (filter (but s) l)).
Proof.
  intros f s. induction l as [|x l IH]; intros Hd Hi; [destruct Hi|]. apply NoDup_cons_iff in Hd. destruct Hd as [Hx Hd]. simpl.
  unfold but at 1. destruct (Nat.eqb_spec x s) as [->|Hne]; simpl.
  - now rewrite filter_but_out.
  - destruct Hi as [->|Hi]; [congruence|]. rewrite IH by auto. ring.
Qed.
Lemma filter_but2 : forall s s' l, filter (but2 s s') l = filter (but s') (filter (but s) l).
Proof.
  intros s s'. induction l as [|x l IH]; simpl; auto. unfold but2 at 1, but at 2. destruct (Nat.eqb x s); simpl; auto.
  unfold but at 1. destruct (Nat.eqb x s'); simpl; auto. now rewrite IH.
Qed.

Section Weights.
Variable N : nat.
Variable a : R.
Variable lps : list R.
Hypothesis HN : (2 <= N)%nat.
Hypothesis Hk : lps <> [].
Hypothesis Hsum : total (map exp lps) <= 1.
(** The points stay where the code does not use the series. *)
Hypothesis Hsmall : a + ln (ln (INR N)) < 10.

Notation p := (fun s => exp (nth s lps 0)).
Notation k := (length lps).
Notation fac := (factor a l_eps p).
Notation M := (mass N a l_eps k p).

Lemma N_pos : 2 <= INR N.
Proof. replace 2 with (INR 2) by reflexivity. now apply le_INR. Qed.
Lemma point_in : forall n, In n (seq 1 (N - 1)) -> 0 < INR n / INR N < 1 /\ / INR N <= INR n / INR N.
Proof.
  intros n Hn. apply in_seq in Hn. pose proof N_pos. assert (1 <= INR n) by (replace 1 with (INR 1) by reflexivity; apply le_INR; lia).
  assert (INR n < INR N) by (apply lt_INR; lia). assert (0 < / INR N) by (apply Rinv_0_lt_compat; lra).
  assert (INR N * / INR N = 1) by (apply Rinv_r; lra). unfold Rdiv. split; [split|]; nra.
Qed.

Lemma lp_le0 : forall s, (s < k)%nat -> nth s lps 0 <= 0.
Proof.
  intros s Hs. destruct (Rle_dec (nth s lps 0) 0) as [|H]; auto. exfalso.
  assert (1 < exp (nth s lps 0)) by (rewrite <- exp_0; apply exp_increasing; lra).
  assert (G : forall l, 0 <= total (map exp l)). { induction l as [|x l IH]; simpl; [lra|]. pose proof (exp_pos x). unfold total in *. lra. }
  assert (K : forall l i, (i < length l)%nat -> exp (nth i l 0) <= total (map exp l)).
  { induction l as [|x l IH]; intros [|i] Hi; simpl in *; try lia.
    - pose proof (G l). unfold total in *. lra.
    - pose proof (exp_pos x). specialize (IH i ltac:(lia)). unfold total in *. lra. }
  specialize (K lps s Hs). lra.
Qed.

Lemma total_nth : forall (f : R -> R) l, total (map f l) = total (map (fun s => f (nth s l 0)) (seq 0 (length l))).
Proof.
  intros f. induction l as [|x l IH]; simpl; auto. rewrite IH. do 2 f_equal. rewrite <- seq_shift, map_map. reflexivity.
Qed.
Lemma rest_val : rest l_eps k p = 1 - total (map exp lps) + l_eps.
Proof. unfold rest. now rewrite (total_nth exp lps). Qed.
Lemma rest_pos : 0 < rest l_eps k p.
Proof. rewrite rest_val. pose proof eps_pos. lra. Qed.

Lemma sum_pos : 0 < total (map exp lps).
Proof. apply total_pos; auto. intros; apply exp_pos. Qed.
Lemma scale_val : exp (a + log1mexp (logsumexp lps)) = rest l_eps k p * exp a.
Proof.
  unfold logsumexp. rewrite log1mexp_abs. pose proof sum_pos as Hs. change (rsum (map exp lps)) with (total (map exp lps)).
  assert (ln (total (map exp lps)) <= 0).
  { destruct (Req_dec (total (map exp lps)) 1) as [->|]; [rewrite ln_1; lra|]. assert (ln (total (map exp lps)) < ln 1) by (apply ln_increasing; lra). rewrite ln_1 in *. lra. }
  rewrite Rabs_left1 by auto. rewrite Ropp_involutive, exp_ln by auto. rewrite <- rest_val. rewrite exp_plus, exp_ln by apply rest_pos. ring.
Qed.

Lemma factor_pos : forall v s, 0 < v < 1 -> 0 < fac v s.
Proof.
  intros v s Hv. unfold factor, power. pose proof eps_pos. assert (ln v < 0) by (rewrite <- ln_1; apply ln_increasing; lra).
  assert (exp (exp (nth s lps 0) * exp a * ln v) < 1).
  { rewrite <- exp_0. apply exp_increasing. pose proof (exp_pos (nth s lps 0)). pose proof (exp_pos a). assert (0 < exp (nth s lps 0) * exp a) by nra. nra. }
  lra.
Qed.
Lemma term_val : forall v s, (s < k)%nat -> 0 < v < 1 -> / INR N <= v -> u_term a (nth s lps 0) v = ln (fac v s).
Proof.
  intros v s Hs Hv Hp. unfold u_term. assert (L : ln v < 0) by (rewrite <- ln_1; apply ln_increasing; lra). pose proof N_pos as HNp.
  assert (- ln v <= ln (INR N)).
  { rewrite <- ln_Rinv by lra. destruct (Req_dec (/ v) (INR N)) as [->|]; [lra|]. left. apply ln_increasing; [apply Rinv_0_lt_compat; lra|].
    assert (/ v <= / / INR N) by (apply Rinv_le_contravar; auto; apply Rinv_0_lt_compat; lra). rewrite Rinv_inv in *. lra. }
  assert (ln (- ln v) <= ln (ln (INR N))).
  { destruct (Req_dec (- ln v) (ln (INR N))) as [->|]; [lra|]. left. apply ln_increasing; lra. }
  pose proof (lp_le0 s Hs). destruct Rle_dec as [K|K]; [lra|]. rewrite log1mexp_abs.
  rewrite Rabs_right by (left; apply exp_pos). unfold factor, power. do 3 f_equal. f_equal.
  rewrite exp_plus, exp_plus, exp_ln by lra. ring.
Qed.
Lemma integrand_val : forall v, 0 < v < 1 -> / INR N <= v ->
  exp (u_integrand a lps v) = power v (rest l_eps k p * exp a - 1) * product (map (fac v) (seq 0 k)).
Proof.
  intros v Hv Hp. unfold u_integrand. rewrite exp_plus, scale_val. rewrite Rmult_comm. f_equal.
  unfold samples, lp_of. assert (G : forall l, incl l (seq 0 k) -> exp (rsum (map (fun s => u_term a (nth s lps 0) v) l)) = product (map (fac v) l)).
  { induction l as [|s l IH]; intros Hl; simpl; [apply exp_0|]. change (rsum (?x :: ?y)) with (x + rsum y). unfold rsum in *.
    rewrite exp_plus, IH by (intros y Hy; apply Hl; now right). rewrite term_val; auto.
    - rewrite exp_ln by now apply factor_pos. reflexivity.
    - specialize (Hl s (or_introl eq_refl)). apply in_seq in Hl. lia. }
  apply G. intros x; auto.
Qed.
Lemma without_val : forall s v, (s < k)%nat -> 0 < v < 1 -> / INR N <= v ->
  exp (u_without a lps s v) = power v (rest l_eps k p * exp a - 1) * product (map (fac v) (filter (but s) (seq 0 k))).
Proof.
  intros s v Hs Hv Hp. unfold u_without. unfold Rminus at 1. rewrite exp_plus, exp_Ropp, integrand_val by auto. unfold lp_of. rewrite term_val by auto.
  pose proof (factor_pos v s Hv). rewrite exp_ln by auto. rewrite (product_but (fac v) s (seq 0 k)) by (try apply seq_NoDup; apply in_seq; lia). field. lra.
Qed.

Lemma lse_mass : forall (g : R -> R) A, (forall n, In n (seq 1 (N - 1)) ->
    exp (g (INR n / INR N)) = (power (INR n / INR N) (rest l_eps k p * exp a - 1) * product (map (fac (INR n / INR N)) (filter A (seq 0 k))))) ->
  exp (logsumexp (map g (int_points N))) = M A /\ 0 < M A.
Proof.
  intros g A H. unfold logsumexp, int_points. rewrite !map_map.
  assert (E : rsum (map (fun n => exp (g (INR n / INR N))) (seq 1 (N - 1))) = M A).
  { unfold mass. rewrite <- total_rsum. apply total_ext. intros n Hn. now rewrite H. }
  assert (P : 0 < M A).
  { rewrite <- E, <- total_rsum. apply total_pos; [|intros; apply exp_pos]. destruct (N - 1)%nat eqn:Z; [lia|]. discriminate. }
  rewrite E. split; auto. now apply exp_ln.
Qed.
Lemma mass_all : exp (log_p_S N a lps) = M all /\ 0 < M all.
Proof. apply lse_mass. intros n Hn. destruct (point_in n Hn). rewrite filter_all. now apply integrand_val. Qed.
Lemma mass_but : forall s, (s < k)%nat -> exp (log_p_without N a lps s) = M (but s) /\ 0 < M (but s).
Proof. intros s Hs. apply lse_mass. intros n Hn. destruct (point_in n Hn). now apply without_val. Qed.

Theorem weight_val : forall s, (s < k)%nat -> u_weight N a lps s = leave_one_out N a l_eps k p s /\ 0 < u_weight N a lps s.
Proof.
  intros s Hs. split; [|apply exp_pos]. unfold u_weight, leave_one_out, Rminus. destruct mass_all as [E1 P1]. destruct (mass_but s Hs) as [E2 P2].
  rewrite exp_plus, exp_plus, exp_Ropp, E1, E2. unfold lp_of. field. lra.
Qed.
Theorem weights_val : u_weights N a lps = map (leave_one_out N a l_eps k p) (seq 0 k).
Proof. unfold u_weights, samples. apply map_ext_in. intros s Hs. apply in_seq in Hs. apply weight_val. lia. Qed.

(** The second order ratio the code computes: the sample of the plate index is left out twice. *)
Definition twice (s : nat) : R :=
  total (map (fun n => let v := INR n / INR N in
    power v (rest l_eps k p * exp a - 1) * (product (map (fac v) (filter (but s) (seq 0 k))) / fac v s)) (seq 1 (N - 1))).
Lemma snd_val : forall s s', (s < k)%nat -> exp (log_snd N a lps s s') = if Nat.eqb s s' then 1 else twice s / M (but s).
Proof.
  intros s s' Hs. unfold log_snd, Rminus. rewrite exp_plus, exp_Ropp. destruct (mass_but s Hs) as [E P]. rewrite E.
  assert (D : forall v, u_without2 a lps s s' v = if Nat.eqb s s' then u_without a lps s v else u_without a lps s v - u_term a (nth s lps 0) v).
  { intros v. unfold u_without2, skip_diag, lp_of. destruct (Nat.eqb s s'); ring. }
  destruct (Nat.eqb s s').
  - rewrite (map_ext _ _ D). fold (log_p_without N a lps s). rewrite E. field. lra.
  - rewrite (map_ext _ _ D). unfold Rdiv. f_equal. unfold logsumexp, int_points. rewrite !map_map.
    assert (Q : rsum (map (fun n => exp (u_without a lps s (INR n / INR N) - u_term a (nth s lps 0) (INR n / INR N))) (seq 1 (N - 1))) = twice s).
    { unfold twice. rewrite <- total_rsum. apply total_ext. intros n Hn. destruct (point_in n Hn) as [V1 V2]. unfold Rminus at 1.
      rewrite exp_plus, exp_Ropp, without_val, term_val by auto. rewrite exp_ln by now apply factor_pos. unfold Rdiv. ring. }
    rewrite Q. apply exp_ln. rewrite <- Q, <- total_rsum. apply total_pos; [|intros; apply exp_pos]. destruct (N - 1)%nat eqn:Z; [lia|]. discriminate.
Qed.
Theorem baseline_val : forall cost s', (s' < k)%nat -> u_baseline N a lps cost s' =
  total (map (fun s => p s * (if Nat.eqb s s' then 1 else twice s / M (but s)) * cost s) (seq 0 k)).
Proof.
  intros cost s' Hs'. unfold u_baseline, samples. rewrite <- total_rsum. apply total_ext. intros s Hs. apply in_seq in Hs.
  rewrite exp_plus, snd_val by lia. unfold lp_of. reflexivity.
Qed.

(** With equal probabilities leaving one sample out twice is the same as leaving out another one. *)
Lemma product_const : forall (f : nat -> R) c l, (forall x, In x l -> f x = c) -> product (map f l) = c ^ length l.
Proof. intros f c. induction l as [|x l IH]; intros H; simpl; auto. rewrite IH by (intros; apply H; now right). rewrite H by now left. reflexivity. Qed.
Lemma length_but : forall s l, NoDup l -> In s l -> length l = S (length (filter (but s) l)).
Proof.
  intros s. induction l as [|x l IH]; intros Hd Hi; [destruct Hi|]. apply NoDup_cons_iff in Hd. destruct Hd as [Hx Hd]. simpl.
  unfold but at 1. destruct (Nat.eqb_spec x s) as [->|Hne]; simpl.
  - now rewrite filter_but_out.
  - destruct Hi as [->|Hi]; [congruence|]. now rewrite <- IH.
Qed.
Lemma In_filter_but : forall s s' l, In s' l -> s' <> s -> In s' (filter (but s) l).
Proof. intros. apply filter_In. split; auto. unfold but. destruct (Nat.eqb_spec s' s); auto. Qed.
Theorem baseline_equal : forall cost s', (s' < k)%nat -> (forall i j, (i < k)%nat -> (j < k)%nat -> nth i lps 0 = nth j lps 0) ->
  u_baseline N a lps cost s' = set_baseline N a l_eps k p cost s'.
Proof.
  intros cost s' Hs' He. rewrite baseline_val by auto. unfold set_baseline. apply total_ext. intros s Hs. apply in_seq in Hs. f_equal. f_equal.
  unfold second_ratio. rewrite (Nat.eqb_sym s' s). destruct (Nat.eqb_spec s s') as [->|Hne]; auto.
  assert (Fe : forall v i, (i < k)%nat -> fac v i = fac v 0%nat).
  { intros v i Hi. unfold factor. do 4 f_equal. rewrite (He i 0%nat); auto. lia. }
  assert (B : M (but s) = M (but s')).
  { unfold mass. apply total_ext. intros n _. cbv zeta. f_equal.
    rewrite !(product_const _ (fac (INR n / INR N) 0%nat)).
    2,3: intros x Hx; apply filter_In in Hx; destruct Hx as [Hx _]; apply in_seq in Hx; apply Fe; lia.
    f_equal. pose proof (length_but s (seq 0 k) (seq_NoDup _ _) ltac:(apply in_seq; lia)). pose proof (length_but s' (seq 0 k) (seq_NoDup _ _) ltac:(apply in_seq; lia)). lia. }
  rewrite B. f_equal. unfold twice, mass. apply total_ext. intros n Hn. cbv zeta. f_equal. destruct (point_in n Hn) as [V1 V2].
  pose proof (factor_pos (INR n / INR N) 0 V1) as F. rewrite filter_but2.
  assert (L1 : length (filter (but s') (seq 0 k)) = S (length (filter (but s) (filter (but s') (seq 0 k))))).
  { apply length_but; [apply NoDup_filter, seq_NoDup|]. apply In_filter_but; auto. apply in_seq. lia. }
  assert (L2 : length (filter (but s) (seq 0 k)) = length (filter (but s') (seq 0 k))).
  { pose proof (length_but s (seq 0 k) (seq_NoDup _ _) ltac:(apply in_seq; lia)). pose proof (length_but s' (seq 0 k) (seq_NoDup _ _) ltac:(apply in_seq; lia)). lia. }
  rewrite (product_const (fac (INR n / INR N)) (fac (INR n / INR N) 0%nat) (filter (but s) (seq 0 k))).
  2:{ intros x Hx. apply filter_In in Hx. destruct Hx as [Hx _]. apply in_seq in Hx. apply Fe. lia. }
  rewrite (product_const (fac (INR n / INR N)) (fac (INR n / INR N) 0%nat) (filter (but s) (filter (but s') (seq 0 k)))).
  2:{ intros x Hx. apply filter_In in Hx. destruct Hx as [Hx _]. apply filter_In in Hx. destruct Hx as [Hx _]. apply in_seq in Hx. apply Fe. lia. }
  rewrite (Fe _ s) by lia. rewrite L2, L1. cbn [pow]. field. lra.
Qed.
End Weights.
