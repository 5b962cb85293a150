(** Sampling without replacement: if there are at most [k] outcomes, all are sampled and their probabilities sum to one. *)
From Coq Require Import Reals List Arith Bool Lia Lra Permutation.
From Verif Require Import Base Gumbel GumbelProofs Swor SpecSwor SworProofs SworProofs2 SworProofs3.
Import ListNotations.

Lemma total_app : forall a b, total (a ++ b) = Rplus (total a) (total b).
Proof. unfold total. induction a as [|x a IH]; intros b; simpl; [lra|]. rewrite IH. lra. Qed.

Lemma total_perm : forall a b, Permutation a b -> total a = total b.
Proof. unfold total. induction 1; simpl; lra. Qed.

Lemma total_scale : forall c l, total (map (Rmult c) l) = Rmult c (total l).
Proof. unfold total. induction l as [|x l IH]; simpl; [lra|]. rewrite IH. lra. Qed.

Lemma total_flat : forall {A} (f : A -> list R) l, total (flat_map f l) = total (map (fun a => total (f a)) l).
Proof. induction l as [|a l IH]; simpl; auto. now rewrite total_app, IH. Qed.

Lemma nth_seq_id : forall {A} (l : list A) d, map (fun i => nth i l d) (seq 0 (length l)) = l.
Proof.
  intros A l d. induction l as [|a l IH]; simpl; auto. f_equal. rewrite <- seq_shift, map_map. exact IH.
Qed.

(** All rows of [e] options below [d]. *)
Fixpoint all_rows (d e : nat) : list (list nat) :=
  match e with 0 => [[]] | S e => flat_map (fun v => map (cons v) (all_rows d e)) (seq 0 d) end.

Lemma all_rows_In : forall d e r, length r = e -> (forall v, In v r -> v < d) -> In r (all_rows d e).
Proof.
  intros d. induction e as [|e IH]; intros [|v r] HL HD; simpl in *; try discriminate; auto.
  apply in_flat_map. exists v. split; [apply in_seq; split; [lia|]; simpl; apply HD; auto|]. apply in_map. apply IH; auto.
Qed.

Lemma all_rows_length : forall d e, length (all_rows d e) = d ^ e.
Proof.
  intros d. induction e as [|e IH]; simpl; auto. 
  rewrite (flat_length (fun v => map (cons v) (all_rows d e)) (d ^ e)); auto. intros. now rewrite map_length.
Qed.

Definition row_lp_from (lp : nat -> list R) (s : nat) (r : list nat) : R :=
  fold_right Rplus 0%R (map (fun e => nth (nth e r 0) (lp (s + e)) 0%R) (seq 0 (length r))).

Lemma row_lp_cons : forall lp s v r, row_lp_from lp s (v :: r) = Rplus (nth v (lp s) 0%R) (row_lp_from lp (S s) r).
Proof.
  intros lp s v r. unfold row_lp_from. cbn [length seq map fold_right nth]. rewrite Nat.add_0_r. f_equal.
  rewrite <- seq_shift, map_map. f_equal. apply map_ext. intros e. cbn [nth]. now rewrite Nat.add_succ_r.
Qed.

Lemma rows_total : forall lp d, (forall e, length (lp e) = d) -> (forall e, total (map exp (lp e)) = 1%R) ->
  forall E s, total (map (fun r => exp (row_lp_from lp s r)) (all_rows d E)) = 1%R.
Proof.
  intros lp d HL HT. induction E as [|E IH]; intros s; simpl all_rows.
  - unfold row_lp_from. simpl. unfold total. simpl. rewrite exp_0. lra.
  - rewrite flat_map_concat_map, concat_map, map_map, <- flat_map_concat_map, total_flat.
    rewrite <- (HT s). rewrite <- (nth_seq_id (lp s) 0%R) at 1. rewrite HL, map_map. f_equal. apply map_ext. intros v.
    rewrite map_map. erewrite map_ext with (g := fun r => Rmult (exp (nth v (lp s) 0%R)) (exp (row_lp_from lp (S s) r))).
    + rewrite <- (map_map (fun r => exp (row_lp_from lp (S s) r)) (Rmult (exp (nth v (lp s) 0%R)))), total_scale, IH. lra.
    + intros r. now rewrite row_lp_cons, exp_plus.
Qed.

Lemma drawn_total : forall k n x d base rows parent joint, drawn k n x d base rows parent joint -> has_domain x d -> normalised x ->
  n * d ^ lprod (v_events x) <= k ->
  total (map exp joint) = total (map (fun i => exp (base i)) (seq 0 n)).
Proof.
  intros k n x d base rows parent joint D [Hd [HE [Hlp Hno]]] HN Hk.
  set (E := lprod (v_events x)) in *.
  set (par := fun j => match parent with Some p => nth j p 0 | None => 0 end).
  set (K := map (fun j => (par j, nth j rows [])) (seq 0 (length rows))).
  pose proof (d_count _ _ _ _ _ _ _ _ D) as C. fold E in C. rewrite Nat.min_r in C by auto.
  assert (P : Permutation K (list_prod (seq 0 n) (all_rows d E))).
  { apply NoDup_Permutation_bis.
    - apply NoDup_map_seq. intros i j Hi Hj EQ. injection EQ as E1 E2. apply (d_key _ _ _ _ _ _ _ _ D); auto; try lia.
      unfold par in E1. destruct parent; auto.
    - unfold K. rewrite prod_length, map_length, !seq_length, all_rows_length. lia.
    - intros [i r] Hin. apply in_map_iff in Hin as [j [EQ Hj]]. injection EQ as <- <-. apply in_seq in Hj. apply in_prod.
      + apply in_seq. split; [lia|]. simpl. pose proof (d_par _ _ _ _ _ _ _ _ D) as PR. unfold par. destruct parent as [p|]; [|lia].
        apply PR. apply nth_In. lia.
      + apply all_rows_In.
        * apply (d_len _ _ _ _ _ _ _ _ D). apply nth_In. lia.
        * intros v. apply (d_dom _ _ _ _ _ _ _ _ D). apply nth_In. lia. }
  set (f := fun ir : nat * list nat => exp (Rplus (base (fst ir)) (row_log_prob x (fst ir) (snd ir)))).
  assert (EJ : map exp joint = map f K).
  { apply nth_ext with (d := exp 0%R) (d' := exp 0%R).
    - unfold K. rewrite !map_length, seq_length. apply (d_joint _ _ _ _ _ _ _ _ D).
    - intros j Hj. rewrite map_length, (d_joint _ _ _ _ _ _ _ _ D) in Hj. rewrite (map_nth exp). unfold K. rewrite map_map.
      rewrite nth_map_seq by auto. unfold f. cbn [fst snd]. f_equal. apply (d_lp _ _ _ _ _ _ _ _ D). auto. }
  rewrite EJ. rewrite (total_perm _ _ (Permutation_map f P)).
  clear - HN Hlp HE. fold E in HE. assert (G : forall l, total (map f (list_prod l (all_rows d E))) = total (map (fun i => exp (base i)) l)).
  { induction l as [|i l IH]; simpl; auto. rewrite map_app, total_app, IH. unfold total at 3. simpl. f_equal.
    rewrite map_map. unfold f. cbn [fst snd].
    erewrite map_ext with (g := fun r => Rmult (exp (base i)) (exp (row_lp_from (fun e => v_lp x e (if v_cond x then i else 0)) 0 r))).
    - rewrite <- (map_map (fun r => exp (row_lp_from (fun e => v_lp x e (if v_cond x then i else 0)) 0 r)) (Rmult (exp (base i)))).
      rewrite total_scale, rows_total; auto; lra.
    - intros r. rewrite exp_plus. reflexivity. }
  apply G.
Qed.

Lemma outcomes_pos : forall xs ds, Forall2 has_domain xs ds -> 1 <= outcomes xs ds.
Proof.
  induction 1 as [|x d xs ds [Hd _] H IH]; unfold outcomes in *; simpl; auto.
  pose proof (pow_pos d (lprod (v_events x)) Hd). nia.
Qed.

Section Totals.
Variable k : nat.
Hypothesis Hk : 1 <= k.
Variable select : list (option R) -> list R -> list nat.
Hypothesis Hsel : good_select k select.

Lemma total_next : forall eos xs ds, Forall2 has_domain xs ds -> Forall2 (slice_ok k false) xs ds -> Forall (eos_ok eos) xs ->
  Forall normalised xs ->
  forall s l, 1 <= length l -> length l * outcomes xs ds <= k -> ss_joint s = Some l -> length (ss_pert s) = length l -> fin_ok eos s ->
    forall outs s', sample_vars select k eos xs s = Ok (outs, s') ->
    exists l', ss_joint s' = Some l' /\ total (map exp l') = total (map exp l).
Proof.
  intros eos. induction xs as [|x xs IH]; intros ds HD HS HEos HN s l Hge Hk' HJ HP HF outs s' ER.
  - simpl in ER. injection ER as <- <-. exists l; auto.
  - inversion HD as [|? d ? ds' Dx Dxs]; subst. inversion HS as [|? ? ? ? Sx Sxs]; subst.
    apply Forall_cons_iff in HEos as [Ex Exs]. apply Forall_cons_iff in HN as [Nx Nxs].
    pose proof (outcomes_pos _ _ Dxs) as OP.
    assert (Dpow : 1 <= d ^ lprod (v_events x)) by (apply pow_pos; apply Dx).
    unfold outcomes in Hk'. cbn [combine fold_right fst snd] in Hk'. fold (outcomes xs ds') in Hk'.
    assert (K1 : length l * d ^ lprod (v_events x) <= k) by nia. assert (K2 : length l <= k) by nia.
    cbn [sample_vars] in ER. unfold sample_var in ER. destruct (fin_compute eos s HF) as [fin EF]. rewrite EF, HJ in ER. cbn [bind] in ER.
    destruct (decode_next k Hk select Hsel fin x d l (ss_pert s)) as [b [joint [E [BJ [BP [D P]]]]]]; auto; try lia.
    rewrite E, BJ in ER. rewrite (d_joint _ _ _ _ _ _ _ _ D), Nat.eqb_refl, andb_false_r in ER. cbn [bind] in ER.
    pose proof (d_count _ _ _ _ _ _ _ _ D) as CN. rewrite Nat.min_r in CN by auto.
    pose proof (drawn_total _ _ _ _ _ _ _ _ D Dx Nx K1) as T.
    destruct (sample_vars select k eos xs _) as [[outs' s'']|] eqn:ES in ER; [|discriminate]. cbn [bind] in ER. injection ER as <- <-.
    apply (IH ds' Dxs Sxs Exs Nxs) with (l := joint) in ES; auto.
    + destruct ES as [l' [E1 E2]]. exists l'. split; auto. rewrite E2, T.
      rewrite <- (map_map (fun i => nth i l 0%R) exp). now rewrite nth_seq_id.
    + rewrite (d_joint _ _ _ _ _ _ _ _ D), CN. nia.
    + rewrite (d_joint _ _ _ _ _ _ _ _ D), CN. nia.
    + cbn [ss_pert]. now rewrite P, (d_joint _ _ _ _ _ _ _ _ D).
    + now apply fin_next.
Qed.

Lemma total_all : forall eos x xs d ds, Forall2 has_domain (x :: xs) (d :: ds) -> slice_ok k true x d ->
  Forall2 (slice_ok k false) xs ds -> Forall (eos_ok eos) (x :: xs) -> Forall normalised (x :: xs) ->
  outcomes (x :: xs) (d :: ds) <= k ->
  forall outs s, sample_vars select k eos (x :: xs) sstart = Ok (outs, s) ->
  exists l, ss_joint s = Some l /\ total (map exp l) = 1%R.
Proof.
  intros eos x xs d ds HD Sx Sxs HEos HN Hk' outs s ER. inversion HD as [|? ? ? ? Dx Dxs]; subst.
  apply Forall_cons_iff in HEos as [Ex Exs]. apply Forall_cons_iff in HN as [Nx Nxs].
  pose proof (outcomes_pos _ _ Dxs) as OP.
  assert (Dpow : 1 <= d ^ lprod (v_events x)) by (apply pow_pos; apply Dx).
  unfold outcomes in Hk'. cbn [combine fold_right fst snd] in Hk'. fold (outcomes xs ds) in Hk'.
  assert (K1 : 1 * d ^ lprod (v_events x) <= k) by nia.
  cbn [sample_vars] in ER. unfold sample_var in ER. cbn [ss_fin ss_joint ss_pert sstart bind] in ER.
  destruct (decode_first k Hk select Hsel None x d [] Dx Sx) as [b [joint [E [BJ [BP [D P]]]]]].
  rewrite E, BJ in ER. rewrite (d_joint _ _ _ _ _ _ _ _ D), Nat.eqb_refl, andb_false_r in ER. cbn [bind] in ER.
  pose proof (d_count _ _ _ _ _ _ _ _ D) as CN. rewrite Nat.min_r in CN by auto.
  pose proof (drawn_total _ _ _ _ _ _ _ _ D Dx Nx K1) as T.
  destruct (sample_vars select k eos xs _) as [[outs' s'']|] eqn:ES in ER; [|discriminate]. cbn [bind] in ER. injection ER as <- <-.
  apply (total_next eos xs ds Dxs Sxs Exs Nxs) with (l := joint) in ES; auto.
  - destruct ES as [l' [E1 E2]]. exists l'. split; auto. rewrite E2, T. unfold total. simpl. rewrite exp_0. lra.
  - rewrite (d_joint _ _ _ _ _ _ _ _ D), CN. lia.
  - rewrite (d_joint _ _ _ _ _ _ _ _ D), CN. lia.
  - cbn [ss_pert]. now rewrite P, (d_joint _ _ _ _ _ _ _ _ D).
  - apply (fin_next eos x sstart); auto. exact I.
Qed.

End Totals.
