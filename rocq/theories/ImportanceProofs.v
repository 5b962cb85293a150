(** Proofs about importance sampling. *)
From Coq Require Import Reals List Arith Lia Lra.
From Verif Require Import Base Torch Importance SpecImportance.
Import ListNotations.
Local Open Scope R_scope.

Definition rsum (l : list R) : R := fold_right Rplus 0 l.

Lemma rsum_plus : forall {A} (f g : A -> R) l, rsum (map (fun a => f a + g a) l) = rsum (map f l) + rsum (map g l).
Proof. intros A f g. induction l as [|a l IH]; unfold rsum in *; simpl; lra. Qed.
Lemma rsum_scale : forall {A} (f : A -> R) c l, rsum (map (fun a => c * f a) l) = c * rsum (map f l).
Proof. intros A f c. induction l as [|a l IH]; unfold rsum in *; simpl; lra. Qed.
Lemma rsum_ext : forall {A} (f g : A -> R) l, (forall a, In a l -> f a = g a) -> rsum (map f l) = rsum (map g l).
Proof. intros A f g l H. f_equal. apply map_ext_in. exact H. Qed.

Lemma rsum_nth : forall {A} (f : A -> R) l d, rsum (map (fun i => f (nth i l d)) (seq 0 (length l))) = rsum (map f l).
Proof.
  intros A f l d. f_equal. induction l as [|a l IH]; simpl; auto. f_equal. rewrite <- seq_shift, map_map. exact IH.
Qed.

Lemma mean_ext : forall q f g, (forall v, (v < length q)%nat -> f v = g v) -> mean q f = mean q g.
Proof. intros q f g H. apply rsum_ext. intros v Hv. apply in_seq in Hv. rewrite H by lia. reflexivity. Qed.
Lemma mean_plus : forall q f g, mean q (fun v => f v + g v) = mean q f + mean q g.
Proof.
  intros q f g. unfold mean. change (fold_right Rplus 0) with rsum. rewrite <- rsum_plus. apply rsum_ext. intros. lra.
Qed.
Lemma mean_scale : forall q c f, mean q (fun v => c * f v) = c * mean q f.
Proof.
  intros q c f. unfold mean. change (fold_right Rplus 0) with rsum. rewrite <- rsum_scale. apply rsum_ext. intros. lra.
Qed.
Lemma mean_const : forall q c, sums_to_one q -> mean q (fun _ => c) = c.
Proof.
  intros q c H. transitivity (mean q (fun _ => c * 1)); [apply mean_ext; intros; lra|]. rewrite mean_scale, H. lra.
Qed.

Lemma mean_all_ext : forall qs f g, (forall vs, length vs = length qs -> f vs = g vs) -> mean_all qs f = mean_all qs g.
Proof.
  induction qs as [|q qs IH]; intros f g H; simpl; [apply H; auto|]. apply mean_ext. intros v _. apply IH. intros vs HL.
  apply H. simpl. lia.
Qed.

(** The sum of a function of each draw. *)
Lemma mean_all_sum : forall qs (h : nat -> nat -> R), Forall sums_to_one qs -> forall k,
  mean_all qs (fun vs => rsum (map (fun i => h (k + i)%nat (nth i vs 0%nat)) (seq 0 (length qs))))
  = rsum (map (fun i => mean (nth i qs []) (h (k + i)%nat)) (seq 0 (length qs))).
Proof.
  induction qs as [|q qs IH]; intros h HF k; [reflexivity|]. inversion HF as [|? ? H1 H2]; subst.
  cbn [mean_all length seq map nth]. unfold rsum. cbn [fold_right]. rewrite Nat.add_0_r.
  transitivity (mean q (fun v => h k v + rsum (map (fun i => mean (nth i qs []) (h (S k + i)%nat)) (seq 0 (length qs))))).
  - apply mean_ext. intros v _. rewrite <- (IH h H2 (S k)).
    assert (C : forall qs' c f, Forall sums_to_one qs' -> mean_all qs' (fun vs => c + f vs) = c + mean_all qs' f).
    { clear. induction qs' as [|q' qs' IH]; intros c f HF; simpl; auto. inversion HF; subst.
      transitivity (mean q' (fun v => c + mean_all qs' (fun vs => f (v :: vs)))).
      - apply mean_ext. intros v _. apply (IH c (fun vs => f (v :: vs))). auto.
      - rewrite (mean_plus q' (fun _ => c)). rewrite mean_const by auto. reflexivity. }
    rewrite <- (C qs (h k v)) by auto. apply mean_all_ext. intros vs _. f_equal. rewrite <- seq_shift, map_map. fold (@rsum).
    apply rsum_ext. intros i _. f_equal. lia.
  - rewrite (mean_plus q (h k)). rewrite mean_const by auto. f_equal. rewrite <- seq_shift, map_map. apply rsum_ext. intros i _.
    replace (k + S i)%nat with (S k + i)%nat by lia. reflexivity.
Qed.

(** One ratio. *)
Lemma mean_ratio : forall p q f, covers q p -> mean q (fun v => nth v p 0 / nth v q 0 * f v) = mean p f.
Proof.
  intros p q f [HL HC]. unfold mean. rewrite HL. apply rsum_ext. intros v Hv. apply in_seq in Hv.
  destruct (Req_EM_T (nth v q 0) 0) as [E|N].
  - rewrite (HC v) by (lia || auto). lra.
  - field. auto.
Qed.

Lemma is_weights_mean : forall n p q cost, (1 <= n)%nat -> sums_to_one q -> covers q p ->
  mean_all (repeat q n) (fun vs => rsum (map (fun i => nth i (is_weights n p q vs) 0 * cost (nth i vs 0%nat)) (seq 0 n))) = mean p cost.
Proof.
  intros n p q cost Hn Hq Hc.
  assert (Hn' : INR n <> 0) by (apply not_0_INR; lia).
  transitivity (mean_all (repeat q n) (fun vs => rsum (map (fun i => (fun (_ v : nat) => / INR n * (nth v p 0 / nth v q 0 * cost v)) (0 + i)%nat (nth i vs 0%nat)) (seq 0 (length (repeat q n)))))).
  - apply mean_all_ext. intros vs HL. rewrite repeat_length in *. apply rsum_ext. intros i Hi. apply in_seq in Hi. unfold is_weights.
    rewrite (nth_indep _ 0 ((fun v => nth v p 0 / (INR n * nth v q 0)) 0%nat)) by (rewrite map_length; lia).
    rewrite (map_nth (fun v => nth v p 0 / (INR n * nth v q 0))). unfold Rdiv. rewrite Rinv_mult. lra.
  - assert (HF : Forall sums_to_one (repeat q n)) by (apply Forall_forall; intros x Hx; apply repeat_spec in Hx; subst; auto).
      etransitivity; [exact (mean_all_sum (repeat q n) (fun (_ v : nat) => / INR n * (nth v p 0 / nth v q 0 * cost v)) HF 0%nat)|]. rewrite repeat_length.
    transitivity (rsum (map (fun _ : nat => / INR n * mean p cost) (seq 0 n))).
    + apply rsum_ext. intros i Hi. apply in_seq in Hi. rewrite mean_scale. f_equal.
      replace (nth i (repeat q n) []) with q; [apply mean_ratio; auto|]. symmetry. apply (repeat_spec n). apply nth_In. rewrite repeat_length. lia.
    + generalize (mean p cost). intros m. clear -Hn'. 
      assert (G : forall s k, rsum (map (fun _ : nat => / INR n * m) (seq s k)) = INR k * (/ INR n * m)).
      { intros s k. revert s. induction k as [|k IH]; intros s; [unfold rsum; simpl; lra|]. cbn [seq map]. unfold rsum in *. cbn [fold_right]. rewrite IH, S_INR. lra. }
      rewrite G. field. auto.
Qed.

(** Sequences. *)
Section Chain.
Variable n : nat.
Hypothesis Hn : (1 <= n)%nat.
Variable target : list nat -> list R.
Variable proposal : list (list nat) -> nat -> list R.

Lemma INRn : INR n <> 0.
Proof. apply not_0_INR. lia. Qed.

(** The weight so far, a sequence without one counting as 1/n. *)
Definition so_far (w : option R) : R := match w with Some w => w | None => / INR n end.
Lemma is_step_so_far : forall eps w p q, is_step eps n w p q = so_far w * (p / (q + eps)).
Proof.
  intros eps w p q. unfold is_step, so_far, Rdiv. rewrite Rinv_mult. pose proof INRn as H.
  destruct w as [w|]; [|lra]. transitivity (w * (INR n * / INR n) * p * / (q + eps)); [lra|]. rewrite Rinv_r by auto. lra.
Qed.

Definition laws (st : is_state) : list (list R) := map (proposal (map fst st)) (seq 0 (length st)).

Lemma chain_mean : (forall seqs i, sums_to_one (proposal seqs i)) ->
  (forall seqs i, (i < length seqs)%nat -> covers (proposal seqs i) (target (nth i seqs []))) ->
  forall cost t st, (forall x, In x st -> snd x <> None) \/ (1 <= t)%nat ->
  process laws (is_decode 0 n target proposal) t st (weighted_cost cost)
  = rsum (map (fun x => so_far (snd x) * seq_mean target t (fst x) cost) st).
Proof.
  intros HS HC cost. induction t as [|t IH]; intros st Hst.
  - destruct Hst as [Hst|]; [|lia]. simpl. apply rsum_ext. intros x Hx. specialize (Hst x Hx). destruct (snd x); [reflexivity|congruence].
  - cbn [process]. set (h := fun i v => so_far (snd (nth i st ([], None))) *
        (nth v (target (fst (nth i st ([], None)))) 0 / nth v (proposal (map fst st) i) 0 * seq_mean target t (fst (nth i st ([], None)) ++ [v]) cost)).
    transitivity (mean_all (laws st) (fun vs => rsum (map (fun i => h (0 + i)%nat (nth i vs 0%nat)) (seq 0 (length (laws st)))))).
    + apply mean_all_ext. intros vs HL. rewrite IH.
      * unfold is_decode. rewrite map_map. unfold laws. rewrite map_length, seq_length. apply rsum_ext. intros i Hi.
        unfold h. cbn [plus]. destruct (nth i st ([], None)) as [s w]. cbn [fst snd]. unfold so_far at 1. rewrite is_step_so_far, Rplus_0_r. lra.
      * left. unfold is_decode. intros x Hx. apply in_map_iff in Hx as [i [<- _]]. destruct (nth i st ([], None)) as [s w]. discriminate.
    + assert (HF : Forall sums_to_one (laws st)) by (apply Forall_forall; intros q Hq; apply in_map_iff in Hq as [i [<- _]]; auto).
      etransitivity; [exact (mean_all_sum (laws st) h HF 0%nat)|].
      unfold laws. rewrite map_length, seq_length.
      transitivity (rsum (map (fun i => (fun x => so_far (snd x) * seq_mean target (S t) (fst x) cost) (nth i st ([], None))) (seq 0 (length st)))).
      * apply rsum_ext. intros i Hi. apply in_seq in Hi. cbn [plus]. unfold h. rewrite mean_scale. f_equal. cbn [seq_mean].
        rewrite (nth_indep _ [] (proposal (map fst st) 0%nat)) by (rewrite map_length, seq_length; lia).
        rewrite (map_nth (proposal (map fst st))), seq_nth by lia. cbn [plus]. apply mean_ratio.
        specialize (HC (map fst st) i). rewrite map_length in HC. rewrite (nth_indep _ [] (fst ([], @None R))) in HC by (rewrite map_length; lia).
        rewrite (map_nth (@fst (list nat) (option R))) in HC. apply HC. lia.
      * apply (rsum_nth (fun x => so_far (snd x) * seq_mean target (S t) (fst x) cost)).
Qed.

Lemma chain_start : (forall seqs i, sums_to_one (proposal seqs i)) ->
  (forall seqs i, (i < length seqs)%nat -> covers (proposal seqs i) (target (nth i seqs []))) ->
  forall cost t, (1 <= t)%nat ->
  process laws (is_decode 0 n target proposal) t (repeat ([], None) n) (weighted_cost cost) = seq_mean target t [] cost.
Proof.
  intros HS HC cost t Ht. rewrite chain_mean by auto.
  assert (G : forall k, rsum (map (fun x : list nat * option R => so_far (snd x) * seq_mean target t (fst x) cost) (repeat ([], None) k)) = INR k * (/ INR n * seq_mean target t [] cost)).
  { induction k as [|k IH]; [unfold rsum; simpl; lra|]. cbn [repeat map]. unfold rsum in *. cbn [fold_right]. rewrite IH, S_INR. cbn [fst snd so_far]. lra. }
  rewrite G. field. apply INRn.
Qed.

(** The weight along a chain. *)
Lemma path_ratio_snoc : forall eps tg q s v, path_ratio eps tg q (s ++ [v]) = path_ratio eps tg q s * (nth v (tg s) 0 / (nth v (q s) 0 + eps)).
Proof.
  intros eps tg q s v. unfold path_ratio. rewrite app_length. cbn [length]. rewrite Nat.add_1_r, seq_S, map_app. cbn [map plus].
  assert (G : forall l x, fold_right Rmult 1 (l ++ [x]) = fold_right Rmult 1 l * x).
  { induction l as [|a l IH]; intros x; simpl; [lra|]. rewrite IH. lra. }
  rewrite G. f_equal.
  - f_equal. apply map_ext_in. intros i Hi. apply in_seq in Hi. rewrite firstn_app, app_nth1 by lia.
    replace (i - length s)%nat with 0%nat by lia. cbn [firstn]. rewrite app_nil_r. reflexivity.
  - rewrite nth_middle, firstn_app, Nat.sub_diag, firstn_all. cbn [firstn]. rewrite app_nil_r. reflexivity.
Qed.

Lemma decode_ratios : forall eps q vss st, proposal = (fun seqs i => q (nth i seqs [])) ->
  (forall x, In x st -> so_far (snd x) = path_ratio eps target q (fst x) / INR n) ->
  forall x, In x (fold_left (is_decode eps n target proposal) vss st) ->
    so_far (snd x) = path_ratio eps target q (fst x) / INR n /\ (vss <> [] -> snd x <> None).
Proof.
  intros eps q. induction vss as [|vs vss IH]; intros st HP Hst x Hx; cbn [fold_left] in Hx.
  - split; [auto|congruence].
  - assert (I : forall y, In y (is_decode eps n target proposal st vs) -> so_far (snd y) = path_ratio eps target q (fst y) / INR n /\ snd y <> None).
    { intros y Hy. unfold is_decode in Hy. apply in_map_iff in Hy as [i [<- Hi]]. apply in_seq in Hi.
      assert (HI : In (nth i st ([], None)) st) by (apply nth_In; lia). specialize (Hst _ HI). rewrite HP.
      rewrite (nth_indep (map fst st) [] (fst ([], @None R))) by (rewrite map_length; lia). rewrite (map_nth (@fst (list nat) (option R))).
      destruct (nth i st ([], None)) as [s w]. cbn [fst snd] in *. split; [|discriminate]. unfold so_far at 1. rewrite is_step_so_far, Hst, path_ratio_snoc. unfold Rdiv. lra. }
    destruct (IH (is_decode eps n target proposal st vs) HP) with (x := x) as [A B]; auto; [intros y Hy; apply I; auto|]. split; auto. intros _.
    destruct vss as [|vs' vss]; [cbn [fold_left] in Hx; apply I; auto|]. apply B. discriminate.
Qed.

(** One variable with a positive epsilon: the expected sum of the weights is below one. *)
Lemma eps_total : forall eps q, proposal = (fun _ _ => q) -> sums_to_one q ->
  process laws (is_decode eps n target proposal) 1 (repeat ([], None) n) (weighted_cost (fun _ => 1))
  = mean q (fun v => nth v (target []) 0 / (nth v q 0 + eps)).
Proof.
  intros eps q HP HS. cbn [process].
  set (st := repeat ([], None) n). set (h := fun (_ v : nat) => / INR n * (nth v (target []) 0 / (nth v q 0 + eps))).
  assert (LN : length (laws st) = n) by (unfold laws, st; rewrite map_length, seq_length; apply repeat_length).
  transitivity (mean_all (laws st) (fun vs => rsum (map (fun i => h (0 + i)%nat (nth i vs 0%nat)) (seq 0 (length (laws st)))))).
  - apply mean_all_ext. intros vs HL. rewrite LN. unfold weighted_cost, is_decode. rewrite map_map. unfold st. rewrite repeat_length.
    apply rsum_ext. intros i Hi. apply in_seq in Hi.
    replace (nth i (repeat ([], None) n) ([], None)) with (@nil nat, @None R) by (symmetry; apply (repeat_spec n); apply nth_In; rewrite repeat_length; lia).
    cbn [fst snd]. rewrite is_step_so_far, HP. unfold h. cbn [so_far]. lra.
  - assert (HF : Forall sums_to_one (laws st)) by (apply Forall_forall; intros x Hx; unfold laws in Hx; rewrite HP in Hx; apply in_map_iff in Hx as [i [<- _]]; auto).
      etransitivity; [exact (mean_all_sum (laws st) h HF 0%nat)|].
    rewrite LN. transitivity (rsum (map (fun _ : nat => / INR n * mean q (fun v => nth v (target []) 0 / (nth v q 0 + eps))) (seq 0 n))).
    + apply rsum_ext. intros i Hi. apply in_seq in Hi. unfold h. rewrite mean_scale.
      replace (nth i (laws st) []) with q; [reflexivity|]. unfold laws, st. rewrite HP. rewrite repeat_length.
      rewrite (nth_indep _ [] q) by (rewrite map_length, seq_length; lia). symmetry. apply (map_nth (fun _ => q) (seq 0 n) 0%nat).
    + generalize (mean q (fun v => nth v (target []) 0 / (nth v q 0 + eps))). intros m.
      assert (G : forall s k, rsum (map (fun _ : nat => / INR n * m) (seq s k)) = INR k * (/ INR n * m)).
      { intros s k. revert s. induction k as [|k IH]; intros s; [unfold rsum; simpl; lra|]. cbn [seq map]. unfold rsum in *. cbn [fold_right]. rewrite IH, S_INR. lra. }
      rewrite G. field. apply INRn.
Qed.

End Chain.

(** With epsilon the mean ratio is below one. *)
Lemma eps_below : forall eps p q, 0 < eps -> length q = length p -> (forall v, (v < length q)%nat -> 0 < nth v q 0) ->
  (forall v, (v < length p)%nat -> 0 <= nth v p 0) -> sums_to_one p -> mean q (fun v => nth v p 0 / (nth v q 0 + eps)) < 1.
Proof.
  intros eps p q He HL Hq Hp HS. rewrite <- HS. unfold mean. rewrite HL.
  assert (P : exists v, (v < length p)%nat /\ 0 < nth v p 0).
  { unfold sums_to_one, mean in HS. assert (G : forall l, (forall v, In v l -> (v < length p)%nat) -> rsum (map (fun v => nth v p 0 * 1) l) > 0 -> exists v, (v < length p)%nat /\ 0 < nth v p 0).
    { induction l as [|v l IH]; intros Hl H; unfold rsum in *; simpl in H; [lra|].
      destruct (Rlt_dec 0 (nth v p 0)) as [L|L]; [exists v; split; [apply Hl; left|]; auto|]. apply IH; [intros; apply Hl; right; auto|].
      pose proof (Hp v (Hl v (or_introl eq_refl))). lra. }
    apply (G (seq 0 (length p))); [intros v Hv; apply in_seq in Hv; lia|]. unfold rsum. rewrite HS. lra. }
  assert (G : forall l, (forall v, In v l -> (v < length p)%nat) ->
     rsum (map (fun v => nth v q 0 * (nth v p 0 / (nth v q 0 + eps))) l) <= rsum (map (fun v => nth v p 0 * 1) l) /\
     ((exists v, In v l /\ 0 < nth v p 0) -> rsum (map (fun v => nth v q 0 * (nth v p 0 / (nth v q 0 + eps))) l) < rsum (map (fun v => nth v p 0 * 1) l))).
  { induction l as [|v l IH]; intros Hl; unfold rsum in *; simpl.
    - split; [lra|]. intros [v [[] _]].
    - destruct IH as [I1 I2]; [intros; apply Hl; right; auto|]. assert (V : (v < length p)%nat) by (apply Hl; left; auto).
      assert (Q : 0 < nth v q 0) by (apply Hq; lia). pose proof (Hp v V) as P0.
      assert (E : nth v q 0 * (nth v p 0 / (nth v q 0 + eps)) = nth v p 0 * (1 - eps / (nth v q 0 + eps))) by (field; lra).
      assert (D : 0 < eps / (nth v q 0 + eps)) by (apply Rdiv_lt_0_compat; lra). rewrite E.
      assert (M : nth v p 0 * (1 - eps / (nth v q 0 + eps)) <= nth v p 0 * 1) by (apply Rmult_le_compat_l; lra).
      split; [lra|]. intros [u [[<-|Hu] Pu]].
      + assert (nth v p 0 * (1 - eps / (nth v q 0 + eps)) < nth v p 0 * 1) by (apply Rmult_lt_compat_l; lra). lra.
      + assert (fold_right Rplus 0 (map (fun v => nth v q 0 * (nth v p 0 / (nth v q 0 + eps))) l) < fold_right Rplus 0 (map (fun v => nth v p 0 * 1) l)) by (apply I2; exists u; auto). lra. }
  destruct (G (seq 0 (length p))) as [_ G2]; [intros v Hv; apply in_seq in Hv; lia|]. apply G2. destruct P as [v [Hv Pv]]. exists v. split; auto. apply in_seq. lia.
Qed.
