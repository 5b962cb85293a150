(** Reductions over named dimensions. *)
From Coq Require Import String List Arith Bool ZArith Lia Permutation Ring.
From Verif Require Import Base Torch Plates Wrap OrderPlates Scalar Reduce ListLemmas IndexLemmas SpecTensor SpecWrap SpecOrder SpecReduce
  WrapProofs AlignProofs CallProofs CallProofs2 OpProofs OrderProofs.
Import ListNotations.

#[local] Arguments skipn {A} !n !l : simpl nomatch.
#[local] Arguments firstn {A} !n !l : simpl nomatch.

Section MaskLemmas.

Lemma select_app : forall b m1 m2 l1 l2, length m1 = length l1 -> select b (m1 ++ m2) (l1 ++ l2) = select b m1 l1 ++ select b m2 l2.
Proof.
  intros b. induction m1 as [|x m1 IH]; intros m2 [|y l1] l2 H; simpl in *; try discriminate; auto.
  injection H as H. rewrite IH by auto. destruct (Bool.eqb x b); reflexivity.
Qed.
Lemma merge_app : forall m1 m2 k1 k2 r1 r2,
  length k1 = count_occ Bool.bool_dec m1 false -> length r1 = count_occ Bool.bool_dec m1 true ->
  merge (m1 ++ m2) (k1 ++ k2) (r1 ++ r2) = merge m1 k1 r1 ++ merge m2 k2 r2.
Proof.
  induction m1 as [|b m1 IH]; intros m2 k1 k2 r1 r2 Hk Hr; simpl in *.
  - destruct k1; [|discriminate]. destruct r1; [|discriminate]. reflexivity.
  - destruct b; simpl in *.
    + destruct r1 as [|r r1]; [discriminate|]. simpl. f_equal. apply IH; auto.
    + destruct k1 as [|k k1]; [discriminate|]. simpl. f_equal. apply IH; auto.
Qed.
Lemma select_none : forall b m (l : list nat), (forall x, In x m -> x = negb b) -> select b m l = [].
Proof.
  intros b. induction m as [|x m IH]; intros l H; simpl; auto. destruct l; auto.
  rewrite (H x) by (simpl; auto). replace (Bool.eqb (negb b) b) with false by (destruct b; reflexivity).
  apply IH. intros; apply H; simpl; auto.
Qed.
Lemma select_all : forall b m (l : list nat), length m = length l -> (forall x, In x m -> x = b) -> select b m l = l.
Proof.
  intros b. induction m as [|x m IH]; intros [|y l] Hl H; simpl in *; try discriminate; auto.
  rewrite (H x) by auto. rewrite Bool.eqb_reflx. f_equal. apply IH; auto.
Qed.
Lemma merge_none : forall m k r, length k = length m -> (forall x, In x m -> x = false) -> merge m k r = k.
Proof.
  induction m as [|x m IH]; intros [|y k] r Hl H; simpl in *; try discriminate; auto.
  rewrite (H x) by auto. f_equal. apply IH; auto.
Qed.
Lemma select_map_filter : forall {A} b (f : A -> bool) (g : A -> nat) l,
  select b (map f l) (map g l) = map g (filter (fun x => Bool.eqb (f x) b) l).
Proof. intros A b f g. induction l as [|x l IH]; simpl; auto. destruct (Bool.eqb (f x) b); simpl; congruence. Qed.
Lemma count_map_filter : forall {A} b (f : A -> bool) l,
  count_occ Bool.bool_dec (map f l) b = length (filter (fun x => Bool.eqb (f x) b) l).
Proof. intros A b f. induction l as [|x l IH]; simpl; auto. destruct (f x), b; simpl; auto. Qed.

Lemma select_pick : forall b m l, select b m l = pick b m l.
Proof. intros b. induction m as [|x m IH]; intros [|y l]; simpl; auto. destruct (Bool.eqb x b); simpl; now rewrite IH. Qed.
Lemma pick_length : forall b m l, length m = length l -> length (pick b m l) = count_occ Bool.bool_dec m b.
Proof.
  intros b. induction m as [|x m IH]; intros [|y l] H; simpl in *; try discriminate; auto. rewrite app_length, IH by auto.
  destruct x, b; reflexivity.
Qed.
Lemma merge_valid : forall m k r shp, length m = length shp ->
  valid k (select false m shp) -> valid r (select true m shp) -> valid (merge m k r) shp.
Proof.
  induction m as [|b m IH]; intros k r [|d shp] Hl Hk Hr; simpl in *; try discriminate; [constructor|].
  injection Hl as Hl. destruct b; simpl in *.
  - inversion Hr; subst. constructor; auto. apply IH; auto.
  - inversion Hk; subst. constructor; auto. apply IH; auto.
Qed.

End MaskLemmas.

Section ReduceWith.
Context {V : Type}.
Variable veq : V -> V -> bool.
Variable anc_unwrap : plate V -> stensor V -> res (stensor V).
Notation plate := (plate V).
Notation stensor := (stensor V).
Notation N l := (map (@pname V) l).

Lemma find_dim_spec : forall name (l : list plate) i, In name (N l) ->
  exists k, find_dim name l i = Ok (i + k) /\ nth_error (N l) k = Some name.
Proof.
  intros name. induction l as [|p l IH]; intros i H; [destruct H|]. simpl.
  destruct (String.eqb_spec (pname p) name) as [e|n].
  - exists 0. simpl. split; [f_equal; lia|congruence].
  - destruct (IH (S i)) as [k [E Hk]]; [destruct H; [congruence|auto]|]. exists (S k). split; [rewrite E; f_equal; lia|auto].
Qed.
Lemma find_dim_none : forall name (l : list plate) i, ~ In name (N l) -> find_dim name l i = Err IndexError.
Proof.
  intros name. induction l as [|p l IH]; intros i H; simpl; auto. simpl in H.
  destruct (String.eqb_spec (pname p) name); [tauto|]. apply IH. tauto.
Qed.

Lemma NoDup_wide : forall l : list plate, NoDup (N l) -> NoDup (N (wide l)).
Proof. intros l H. unfold wide. now apply NoDup_map_filter. Qed.

Definition pos_of (a : stensor) (t : string + nat) : nat :=
  match t with
  | inl n => match find_dim n (wide (splates a)) 0 with Ok i => i | _ => 0 end
  | inr j => length (wide (splates a)) + j
  end.
Definition target_ok (a : stensor) (t : string + nat) : Prop :=
  match t with inl n => In n (N (wide (splates a))) | inr j => j < s_event_dims a end.

Lemma dim_means_ok : forall a d t, dim_means a d t -> target_ok a t.
Proof.
  intros a d t H. inversion H; subst; simpl; auto. apply in_map. apply In_wide. auto.
Qed.

Lemma pos_lt : forall a t, target_ok a t -> match t with inl _ => pos_of a t < length (wide (splates a)) | inr j => pos_of a t = length (wide (splates a)) + j end.
Proof.
  intros a [n|j] H; simpl in *; auto. destruct (find_dim_spec n _ 0 H) as [k [E Hk]]. rewrite E. simpl.
  assert (k < length (N (wide (splates a)))) by (apply nth_error_Some; congruence). rewrite map_length in H0. lia.
Qed.
Lemma pos_nth : forall a n, target_ok a (inl n) -> nth_error (N (wide (splates a))) (pos_of a (inl n)) = Some n.
Proof.
  intros a n H. simpl in *. destruct (find_dim_spec n _ 0 H) as [k [E Hk]]. rewrite E. simpl. auto.
Qed.
Lemma pos_inj : forall a t u, target_ok a t -> target_ok a u -> pos_of a t = pos_of a u -> t = u.
Proof.
  intros a t u Ht Hu E. pose proof (pos_lt a t Ht) as L1. pose proof (pos_lt a u Hu) as L2.
  destruct t as [n|j], u as [m|k].
  - pose proof (pos_nth a n Ht) as A. pose proof (pos_nth a m Hu) as B. rewrite E in A. congruence.
  - lia.
  - lia.
  - f_equal. lia.
Qed.

Lemma convert_one : forall a d t, wf a -> dim_means a d t ->
  exists z, convert_index a d = Ok (z, match t with inl n => [n] | inr _ => [] end) /\
            norm_dim (length (wide (splates a)) + s_event_dims a) z = Ok (pos_of a t).
Proof.
  intros a d t Hw H. pose proof (wf_dims a Hw) as Hd. inversion H as [p Hp Hn|j Hj|j Hj]; subst; simpl convert_index.
  - unfold get_plate_dim_index, multi_dim_plates. change (mdp (splates a)) with (wide (splates a)).
    assert (Hin : In (pname p) (N (wide (splates a)))) by (apply in_map; apply In_wide; auto).
    destruct (find_dim_spec (pname p) _ 0 Hin) as [k [E Hk]]. rewrite E. simpl. eexists. split; [reflexivity|].
    rewrite E. simpl. unfold norm_dim.
    assert (k < length (N (wide (splates a)))) by (apply nth_error_Some; congruence). rewrite map_length in H0.
    replace (0 <=? Z.of_nat k)%Z with true by (symmetry; apply Z.leb_le; lia).
    replace (Z.of_nat k <? Z.of_nat (length (wide (splates a)) + s_event_dims a))%Z with true by (symmetry; apply Z.ltb_lt; lia).
    simpl. now rewrite Nat2Z.id.
  - rewrite Hd. eexists. 
    replace (Z.of_nat (length (wide (splates a))) <=? Z.of_nat (length (wide (splates a)) + j))%Z with true by (symmetry; apply Z.leb_le; lia).
    simpl. split; [reflexivity|]. unfold norm_dim.
    replace (0 <=? Z.of_nat (length (wide (splates a)) + j))%Z with true by (symmetry; apply Z.leb_le; lia).
    replace (Z.of_nat (length (wide (splates a)) + j) <? Z.of_nat (length (wide (splates a)) + s_event_dims a))%Z with true by (symmetry; apply Z.ltb_lt; lia).
    simpl. now rewrite Nat2Z.id.
  - rewrite Hd. exists (Z.of_nat j - Z.of_nat (s_event_dims a))%Z.
    replace (Z.of_nat (length (wide (splates a))) <=? Z.of_nat j - Z.of_nat (s_event_dims a))%Z with false by (symmetry; apply Z.leb_gt; lia).
    replace (Z.of_nat j - Z.of_nat (s_event_dims a) <? 0)%Z with true by (symmetry; apply Z.ltb_lt; lia).
    replace (- Z.of_nat (s_event_dims a) <=? Z.of_nat j - Z.of_nat (s_event_dims a))%Z with true by (symmetry; apply Z.leb_le; lia).
    simpl. split; [reflexivity|]. unfold norm_dim.
    replace (0 <=? Z.of_nat j - Z.of_nat (s_event_dims a))%Z with false by (symmetry; apply Z.leb_gt; lia).
    replace (Z.of_nat j - Z.of_nat (s_event_dims a) <? 0)%Z with true by (symmetry; apply Z.ltb_lt; lia).
    replace (- Z.of_nat (length (wide (splates a)) + s_event_dims a) <=? Z.of_nat j - Z.of_nat (s_event_dims a))%Z with true by (symmetry; apply Z.leb_le; lia).
    simpl. f_equal. lia.
Qed.

Lemma convert_all : forall a ds ts, wf a -> Forall2 (dim_means a) ds ts ->
  exists zs, convert_indices a ds = Ok (zs, flat_map (fun t => match t with inl n => [n] | inr _ => [] end) ts) /\
    mapM (norm_dim (length (wide (splates a)) + s_event_dims a)) zs = Ok (map (pos_of a) ts).
Proof.
  intros a ds ts Hw F. 
  assert (G : exists l, mapM (convert_index a) ds = Ok l /\ flat_map snd l = flat_map (fun t => match t with inl n => [n] | inr _ => [] end) ts /\
    mapM (norm_dim (length (wide (splates a)) + s_event_dims a)) (map fst l) = Ok (map (pos_of a) ts)).
  { induction F as [|d t ds ts H F [l [IH1 [IH2 IH3]]]]; [exists []; auto|].
    destruct (convert_one a d t Hw H) as [z [E1 E2]]. exists ((z, match t with inl n => [n] | inr _ => [] end) :: l).
    simpl. rewrite E1. cbn [bind]. rewrite IH1. cbn [bind]. rewrite E2. cbn [bind]. rewrite IH3. cbn [bind]. rewrite IH2. auto. }
  destruct G as [l [G1 [G2 G3]]]. exists (map fst l). unfold convert_indices. rewrite G1. cbn [bind]. rewrite G2. auto.
Qed.

Lemma named_In : forall ts n, named ts n = true <-> In (inl n) ts.
Proof.
  intros ts n. unfold named. rewrite existsb_exists. split.
  - intros [[x|j] [Hi E]]; [|discriminate]. apply String.eqb_eq in E. now subst.
  - intros H. exists (inl n). split; auto. apply String.eqb_refl.
Qed.
Lemma counted_In : forall ts j, counted ts j = true <-> In (inr j) ts.
Proof.
  intros ts n. unfold counted. rewrite existsb_exists. split.
  - intros [[x|j] [Hi E]]; [discriminate|]. apply Nat.eqb_eq in E. now subst.
  - intros H. exists (inr n). split; auto. apply Nat.eqb_refl.
Qed.
Lemma bool_iff : forall a b : bool, (a = true <-> b = true) -> a = b.
Proof. intros [] []; intuition. Qed.

Lemma mask_spec : forall a ts, NoDup (N (splates a)) -> Forall (target_ok a) ts ->
  dims_mask (length (wide (splates a)) + s_event_dims a) (map (pos_of a) ts)
  = map (fun p => named ts (pname p)) (wide (splates a)) ++ event_mask a ts.
Proof.
  intros a ts ND HT. unfold dims_mask. rewrite seq_app, map_app. f_equal.
  - rewrite Forall_forall in HT. apply nth_error_ext. intros i. rewrite !nth_error_map.
    destruct (Nat.lt_ge_cases i (length (wide (splates a)))) as [L|L].
    + rewrite (nth_error_nth' (seq 0 (length (wide (splates a)))) 0) by now rewrite seq_length.
      rewrite seq_nth by auto. simpl. destruct (nth_error_lt (wide (splates a)) i L) as [p Hp]. rewrite Hp. simpl. f_equal.
      assert (Hpn : nth_error (N (wide (splates a))) i = Some (pname p)) by (rewrite nth_error_map, Hp; reflexivity).
      apply bool_iff. rewrite existsb_exists, named_In. split.
      * intros [x [Hx E]]. apply Nat.eqb_eq in E. subst x. apply in_map_iff in Hx. destruct Hx as [t [E Ht]].
        specialize (HT t Ht). destruct t as [n|j].
        -- pose proof (pos_nth a n HT) as A. rewrite E, Hpn in A. injection A as ->. auto.
        -- simpl in E. lia.
      * intros Ht. exists i. split; [|apply Nat.eqb_refl]. apply in_map_iff. exists (inl (pname p)). split; auto.
        pose proof (pos_nth a (pname p) (HT _ Ht)) as A.
        assert (ND' : NoDup (N (wide (splates a)))) by now apply NoDup_wide.
        rewrite NoDup_nth_error in ND'. apply ND'; [|congruence].
        pose proof (pos_lt a _ (HT _ Ht)) as B. simpl in B |- *. rewrite map_length. exact B.
    + replace (nth_error (seq 0 (length (wide (splates a)))) i) with (@None nat) by (symmetry; apply nth_error_None; rewrite seq_length; lia).
      replace (nth_error (wide (splates a)) i) with (@None plate) by (symmetry; apply nth_error_None; lia). reflexivity.
  - unfold event_mask. simpl. 
    replace (seq (length (wide (splates a))) (s_event_dims a)) with (map (fun j => length (wide (splates a)) + j) (seq 0 (s_event_dims a))).
    2:{ apply nth_error_ext. intros i. rewrite nth_error_map. destruct (Nat.lt_ge_cases i (s_event_dims a)) as [L|L].
        - rewrite !(nth_error_nth' _ 0) by now rewrite seq_length. rewrite !seq_nth by auto. reflexivity.
        - replace (nth_error (seq 0 (s_event_dims a)) i) with (@None nat) by (symmetry; apply nth_error_None; rewrite seq_length; lia).
          symmetry. apply nth_error_None. rewrite seq_length. lia. }
    rewrite map_map. apply map_ext_in. intros j Hj. rewrite Forall_forall in HT.
    apply bool_iff. rewrite existsb_exists, counted_In. split.
    + intros [x [Hx E]]. apply Nat.eqb_eq in E. subst x. apply in_map_iff in Hx. destruct Hx as [t [E Ht]].
      pose proof (pos_lt a t (HT t Ht)) as B. destruct t as [n|i]; [simpl in *; lia|]. simpl in E. assert (i = j) by lia. now subst.
    + intros Ht. exists (length (wide (splates a)) + j). split; [|apply Nat.eqb_refl]. apply in_map_iff. exists (inr j). auto.
Qed.

Lemma set_all_other : forall (s : assignment) (ps : list plate) ix x, ~ In x (N ps) -> set_all s ps ix x = s x.
Proof.
  intros s. induction ps as [|p ps IH]; intros [|i ix] x H; simpl in *; auto. unfold set_to.
  destruct (String.eqb_spec x (pname p)); [subst; tauto|]. apply IH. tauto.
Qed.
Lemma set_all_map : forall (s : assignment) (ps : list plate) ix, NoDup (N ps) -> length ix = length ps ->
  map (fun p : plate => set_all s ps ix (pname p)) ps = ix.
Proof.
  intros s. induction ps as [|p ps IH]; intros [|i ix] ND H; simpl in *; try discriminate; auto.
  inversion ND as [|? ? Hn ND']; subst. unfold set_to at 1. rewrite String.eqb_refl. f_equal.
  transitivity (map (fun q : plate => set_all s ps ix (pname q)) ps); [|apply IH; auto].
  apply map_ext_in. intros q Hq. unfold set_to. destruct (String.eqb_spec (pname q) (pname p)) as [e|]; auto.
  exfalso. apply Hn. rewrite <- e. now apply in_map.
Qed.

(** Merging kept choices with reduced choices. *)
Lemma merge_named : forall (f : plate -> bool) (s : assignment) (ps : list plate) ix, NoDup (N ps) ->
  length ix = length (filter f ps) ->
  merge (map f ps) (map (fun p : plate => s (pname p)) (filter (fun p => negb (f p)) ps)) ix
  = map (fun p : plate => set_all s (filter f ps) ix (pname p)) ps.
Proof.
  intros f s. induction ps as [|p ps IH]; intros ix ND H; simpl in *; auto.
  inversion ND as [|? ? Hn ND']; subst. destruct (f p) eqn:E; simpl in *.
  - destruct ix as [|i ix]; [discriminate|]. simpl. unfold set_to at 1. rewrite String.eqb_refl. f_equal.
    rewrite IH by auto. apply map_ext_in. intros q Hq. unfold set_to.
    destruct (String.eqb_spec (pname q) (pname p)) as [e|]; auto. exfalso. apply Hn. rewrite <- e. now apply in_map.
  - rewrite IH by auto. f_equal. symmetry. apply set_all_other. intros C. apply Hn.
    apply in_map_iff in C. destruct C as [q [e Hq]]. apply filter_In in Hq. rewrite <- e. apply in_map. tauto.
Qed.

Lemma wide_filter : forall (f : plate -> bool) l, wide (filter f l) = filter f (wide l).
Proof.
  intros f. induction l as [|p l IH]; simpl; auto. destruct (f p) eqn:E, (1 <? pn p) eqn:E2; simpl; rewrite ?E, ?E2; simpl; congruence.
Qed.

Definition names_of (ts : list (string + nat)) : list string :=
  flat_map (fun t => match t with inl n => [n] | inr _ => [] end) ts.
Lemma names_named : forall ts x, existsb (String.eqb x) (names_of ts) = named ts x.
Proof.
  intros ts x. apply bool_iff. rewrite existsb_In, named_In. unfold names_of. rewrite in_flat_map. split.
  - intros [[n|j] [Hi Hx]]; simpl in Hx; [destruct Hx as [<-|[]]; auto|tauto].
  - intros H. exists (inl x). simpl. auto.
Qed.

Theorem reduce_with_spec : forall red a ds ts base,
  callable veq [a] -> Forall2 (dim_means a) ds ts -> NoDup ts -> ts <> [] ->
  exists r, reduce_with veq anc_unwrap top_ctx red a ds base = Ok (PT r) /\
    splates r = filter (fun p => negb (named ts (pname p))) (splates a) /\
    s_event_shape r = pick false (event_mask a ts) (s_event_shape a) /\
    wf r /\ sparents r = [sid a] /\ s_stochastic r = false /\
    forall s e, in_range s (splates r) -> valid e (s_event_shape r) -> den r s e = red (group a ts s e).
Proof.
  intros red a ds ts base HC F ND Hne.
  assert (Hw : wf a) by (destruct HC as [H _]; inversion H; auto).
  destruct (convert_all a ds ts Hw F) as [zs [E1 E2]].
  unfold reduce_with. rewrite E1. cbn [bind].
  assert (HT : Forall (target_ok a) ts).
  { clear -F. induction F; constructor; auto. eapply dim_means_ok; eauto. }
  destruct (prepare_args_laid_out veq anc_unwrap [PT a] [] default_opts [a]) as [args' [kwargs' [E [F1 F2]]]]; auto.
  { repeat constructor. }
  inversion F1 as [|? x1 ? r1 U1 F1']; subst. inversion F1'; subst. inversion F2; subst.
  inversion U1 as [? u1 L1| | | | | | | |]; subst.
  unfold handle_deterministic. cbn [top_ctx c_stochastic]. rewrite E. cbn [bind torch_fn1 c_ignore].
  rewrite all_plates_single in *. change (max_event [a]) with (Nat.max 0 (s_event_dims a)) in L1. simpl Nat.max in L1.
  destruct (laid_out_self _ _ _ Hw L1) as [Hs X].
  set (np := length (wide (splates a))) in *.
  assert (Hrank : ndim u1 = np + s_event_dims a).
  { unfold ndim. rewrite <- Hs, (wf_shape a Hw), app_length, map_length. reflexivity. }
  set (mask := map (fun p => named ts (pname p)) (wide (splates a)) ++ event_mask a ts).
  assert (Hlm : length mask = length (shape u1)).
  { unfold mask, event_mask. rewrite app_length, !map_length, seq_length. symmetry. exact Hrank. }
  assert (Hred : torch_reduce red zs u1 = Ok (mkten (select false mask (shape u1))
             (fun idx => red (map (fun r => el u1 (merge mask idx r)) (indices (select true mask (shape u1))))))).
  { unfold torch_reduce. 
    assert (Hsh : shape u1 <> []).
    { intros C. unfold ndim in Hrank. rewrite C in Hrank. simpl in Hrank. destruct ts as [|t ts']; [congruence|].
      inversion HT as [|? ? Ht _]; subst. pose proof (pos_lt a t Ht) as B. destruct t; simpl in Ht, B; unfold np in *; lia. }
    assert (Hm : mapM (norm_dim (ndim u1)) zs = Ok (map (pos_of a) ts)) by (rewrite Hrank; exact E2).
    destruct (shape u1) as [|d0 sh] eqn:Esh; [congruence|]. rewrite <- Esh in *. rewrite Hm. cbn [bind].
    unfold reduce_dims.
    replace (forallb (fun d => d <? ndim u1) (map (pos_of a) ts)) with true.
    2:{ symmetry. apply forallb_forall. intros d Hd. apply in_map_iff in Hd. destruct Hd as [t [<- Ht]]. apply Nat.ltb_lt.
        rewrite Forall_forall in HT. pose proof (HT t Ht) as HtT. pose proof (pos_lt a t HtT) as B. rewrite Hrank.
        destruct t; simpl in HtT, B |- *; unfold np in *; lia. }
    assert (NDp : NoDup (map (pos_of a) ts)).
    { clear -ND HT. induction ND as [|t ts Hn ND IH]; simpl; constructor.
      - intros C. apply in_map_iff in C. destruct C as [u [E Hu]]. inversion HT as [|? ? Ht HT']; subst. rewrite Forall_forall in HT'.
        apply pos_inj in E; auto. now subst.
      - apply IH. inversion HT; auto. }
    rewrite (nodup_fixed_point Nat.eq_dec NDp). rewrite Nat.eqb_refl. simpl negb. cbv iota.
    replace (match map (pos_of a) ts with [] => repeat true (ndim u1) | _ => dims_mask (ndim u1) (map (pos_of a) ts) end) with mask; auto.
    destruct ts as [|t ts']; [congruence|]. simpl. rewrite Hrank. unfold np.
    change (pos_of a t :: map (pos_of a) ts') with (map (pos_of a) (t :: ts')). symmetry. apply mask_spec; auto. apply (wf_names a Hw). }
  rewrite Hred. cbn [bind].
  set (P' := filter (fun p => negb (existsb (String.eqb (pname p)) (flat_map (fun t => match t with inl n => [n] | inr _ => [] end) ts))) (splates a)).
  assert (EP : P' = filter (fun p => negb (named ts (pname p))) (splates a)).
  { unfold P'. apply filter_ext. intros p. f_equal. apply names_named. }
  cbn [prepare_outputs default_opts o_flatten bind].
  assert (Hsel : forall b, select b mask (shape u1) = map pn (filter (fun p => Bool.eqb (named ts (pname p)) b) (wide (splates a))) ++ pick b (event_mask a ts) (s_event_shape a)).
  { intros b. unfold mask. rewrite <- Hs, (wf_shape a Hw). rewrite select_app by now rewrite !map_length.
    rewrite select_map_filter, select_pick. reflexivity. }
  assert (Hf1 : forall l : list plate, filter (fun p => Bool.eqb (named ts (pname p)) true) l = filter (fun p => named ts (pname p)) l).
  { intros l. apply filter_ext. intros p. destruct (named ts (pname p)); reflexivity. }
  assert (Hf0 : forall l : list plate, filter (fun p => Bool.eqb (named ts (pname p)) false) l = filter (fun p => negb (named ts (pname p))) l).
  { intros l. apply filter_ext. intros p. destruct (named ts (pname p)); reflexivity. }
  match goal with |- context [mk_tensor ?i ?t ?q ?l ?b] =>
    destruct (mk_tensor_good i t q l b (pick false (event_mask a ts) (s_event_shape a))) as [r [Hr [G1 [G2 [G3 [G4 [G5 [G6 G7]]]]]]]] end.
  { fold P'. rewrite EP. apply NoDup_map_filter. apply (wf_names a Hw). }
  { fold P'. rewrite EP. intros p Hp. apply filter_In in Hp. apply (wf_pos a Hw). tauto. }
  { fold P'. simpl shape. rewrite Hsel, EP, wide_filter, Hf0. reflexivity. }
  fold P' in Hr, G3. rewrite Hr. cbn [bind]. rewrite EP in G3. exists r.
  refine (conj eq_refl (conj G3 (conj G6 (conj G7 (conj G4 (conj G5 _)))))).
  intros s e Hsr He. unfold den at 1. rewrite G2, G3. simpl el. f_equal. unfold group.
  rewrite Hsel, Hf1. change (filter (fun p => named ts (pname p)) (wide (splates a))) with (reduced_plates a ts).
  set (rp := reduced_plates a ts). set (em := event_mask a ts) in *.
  apply map_ext_in. intros ix Hix. apply in_indices in Hix.
  assert (Hlen : length ix = length rp + length (pick true em (s_event_shape a))).
  { apply valid_length in Hix. rewrite app_length, map_length in Hix. exact Hix. }
  destruct (valid_app_inv ix (map pn rp) (pick true em (s_event_shape a)) Hix) as [i1 [i2 [Eix [V1 V2]]]].
  assert (L1i : length i1 = length rp) by (apply valid_length in V1; rewrite map_length in V1; exact V1).
  subst ix. rewrite <- L1i. rewrite firstn_app_exact, skipn_app_exact.
  assert (Lem : length em = length (s_event_shape a)) by (unfold em, event_mask; rewrite map_length, seq_length; reflexivity).
  rewrite G6 in He.
  assert (M : merge mask (map (fun p => s (pname p)) (wide (filter (fun p => negb (named ts (pname p))) (splates a))) ++ e) (i1 ++ i2)
            = map (fun p : plate => set_all s rp i1 (pname p)) (wide (splates a)) ++ fill em e i2).
  { unfold mask. rewrite merge_app.
    - rewrite wide_filter. rewrite merge_named; [|apply NoDup_wide; apply (wf_names a Hw)|exact L1i].
      reflexivity.
    - rewrite map_length, count_map_filter. apply f_equal. apply wide_filter.
    - rewrite L1i, count_map_filter, Hf1. reflexivity. }
  unfold den. rewrite M. symmetry. apply X.
  rewrite <- M. rewrite Hs. apply merge_valid; auto.
  - rewrite Hsel. apply valid_app; auto.
    replace (filter (fun p => Bool.eqb (named ts (pname p)) false) (wide (splates a))) with (wide (filter (fun p => negb (named ts (pname p))) (splates a))) by apply wide_filter.
    rewrite G3 in Hsr. exact (in_range_valid s _ (in_range_wide anc_unwrap s _ Hsr)).
  - rewrite Hsel, Hf1. apply valid_app; auto.
Qed.

End ReduceWith.

Section ReduceErrors.
Context {V : Type}.
Variable veq : V -> V -> bool.
Variable anc_unwrap : plate V -> stensor V -> res (stensor V).
Notation stensor := (stensor V).
Notation N l := (map (@pname V) l).

(** Entries that denote nothing. *)
Lemma convert_bad : forall (a : stensor) d z n, wf a -> convert_index a d = Ok (z, n) -> (forall t, ~ dim_means a d t) ->
  norm_dim (length (wide (splates a)) + s_event_dims a) z = Err IndexError.
Proof.
  intros a d z n Hw H Hno. pose proof (wf_dims a Hw) as Hd. destruct d as [z0|name]; simpl in H.
  - destruct ((Z.of_nat (s_plate_dims a) <=? z0)%Z || ((z0 <? 0)%Z && (- Z.of_nat (s_event_dims a) <=? z0)%Z)) eqn:E; [|discriminate].
    injection H as <- <-. rewrite Hd in E. apply orb_true_iff in E. rewrite andb_true_iff, Z.leb_le, Z.ltb_lt, Z.leb_le in E.
    set (np := length (wide (splates a))) in *. set (ne := s_event_dims a) in *.
    assert (A : (Z.of_nat (np + ne) <= z0)%Z).
    { destruct E as [E|[E1 E2]].
      - destruct (Z_lt_le_dec z0 (Z.of_nat (np + ne))) as [C|C]; [|exact C]. exfalso.
        apply (Hno (inr (Z.to_nat z0 - np))). replace z0 with (Z.of_nat (np + (Z.to_nat z0 - np))) at 1 by lia.
        apply M_left. fold ne. lia.
      - exfalso. apply (Hno (inr (Z.to_nat (z0 + Z.of_nat ne)))).
        replace z0 with (Z.of_nat (Z.to_nat (z0 + Z.of_nat ne)) - Z.of_nat ne)%Z at 1 by lia. apply M_right. fold ne. lia. }
    unfold norm_dim. replace (z0 <? Z.of_nat (np + ne))%Z with false by (symmetry; apply Z.ltb_ge; lia).
    replace (z0 <? 0)%Z with false by (symmetry; apply Z.ltb_ge; lia). now rewrite andb_false_r.
  - exfalso. unfold get_plate_dim_index, multi_dim_plates in H. change (mdp (splates a)) with (wide (splates a)) in H.
    destruct (in_dec string_dec name (N (wide (splates a)))) as [i|i].
    + apply in_map_iff in i. destruct i as [p [<- Hp]]. apply In_wide in Hp. apply (Hno (inl (pname p))). constructor; tauto.
    + rewrite find_dim_none in H by auto. discriminate.
Qed.

Lemma convert_index_err : forall (a : stensor) d e, convert_index a d = Err e -> e = IndexError.
Proof.
  intros a d e H. destruct d as [z|n]; simpl in H.
  - destruct (_ || _); congruence.
  - unfold get_plate_dim_index in H. destruct (in_dec string_dec n (N (multi_dim_plates a))) as [i|i].
    + destruct (find_dim_spec n (multi_dim_plates a) 0 i) as [k [E _]]. rewrite E in H. discriminate.
    + rewrite find_dim_none in H by auto. simpl in H. congruence.
Qed.
Lemma norm_dim_err : forall r z e, norm_dim r z = Err e -> e = IndexError.
Proof. intros r z e H. unfold norm_dim in H. destruct (_ && _); [discriminate|]. destruct (_ && _); congruence. Qed.

Lemma mapM_Err : forall {A B} (f : A -> res B) (l : list A) x e, (forall y e', f y = Err e' -> e' = e) -> In x l -> f x = Err e ->
  mapM f l = Err e.
Proof.
  intros A B f l x e Hf. induction l as [|y l IH]; intros Hi Hx; [destruct Hi|]. simpl.
  destruct Hi as [->|Hi].
  - rewrite Hx. reflexivity.
  - destruct (f y) eqn:E; simpl; [rewrite IH by auto; reflexivity|]. f_equal. eauto.
Qed.

Theorem reduce_with_err : forall red a ds base, callable veq [a] -> shape (st a) <> [] ->
  (exists d, In d ds /\ forall t, ~ dim_means a d t) ->
  reduce_with veq anc_unwrap top_ctx red a ds base = Err IndexError.
Proof.
  intros red a ds base HC Hsh [d [Hd Hno]].
  assert (Hw : wf a) by (destruct HC as [H _]; inversion H; auto).
  unfold reduce_with, convert_indices.
  destruct (mapM (convert_index a) ds) as [l|e] eqn:E.
  2:{ simpl. f_equal. clear -E veq anc_unwrap. revert e E. induction ds as [|x ds IH]; simpl; intros e E; [discriminate|].
      destruct (convert_index a x) eqn:E1; simpl in E; [destruct (mapM (convert_index a) ds) eqn:E2; simpl in E|].
      - discriminate.
      - injection E as ->. eauto.
      - injection E as ->. eapply convert_index_err; eauto. }
  cbn [bind].
  assert (Hz : exists z n, In (z, n) l /\ convert_index a d = Ok (z, n)).
  { clear -E Hd. revert l E. induction ds as [|x ds IH]; intros l E; [destruct Hd|]. simpl in E.
    destruct (convert_index a x) as [[z n]|] eqn:E1; [|discriminate]. simpl in E. destruct (mapM (convert_index a) ds) as [l'|] eqn:E2; [|discriminate].
    simpl in E. injection E as <-. destruct Hd as [->|Hd].
    - exists z, n. simpl; auto.
    - destruct (IH Hd l' eq_refl) as [z' [n' [Hi Hc]]]. exists z', n'. simpl; auto. }
  destruct Hz as [z [n [Hi Hc]]]. pose proof (convert_bad a d z n Hw Hc Hno) as Hb.
  destruct (prepare_args_laid_out veq anc_unwrap [PT a] [] default_opts [a]) as [args' [kwargs' [E' [F1 F2]]]]; auto.
  { repeat constructor. }
  inversion F1 as [|? x1 ? r1 U1 F1']; subst. inversion F1'; subst. inversion F2; subst.
  inversion U1 as [? u1 L1| | | | | | | |]; subst.
  unfold handle_deterministic. cbn [top_ctx c_stochastic]. rewrite E'. cbn [bind torch_fn1 c_ignore].
  rewrite all_plates_single in *. change (max_event [a]) with (Nat.max 0 (s_event_dims a)) in L1. simpl Nat.max in L1.
  destruct (laid_out_self _ _ _ Hw L1) as [Hs X].
  assert (Hrank : ndim u1 = length (wide (splates a)) + s_event_dims a).
  { unfold ndim. rewrite <- Hs, (wf_shape a Hw), app_length, map_length. reflexivity. }
  replace (torch_reduce red (map fst l) u1) with (@Err (ten V) IndexError); [reflexivity|].
  symmetry. unfold torch_reduce. destruct (shape u1) as [|d0 sh] eqn:Esh; [congruence|].
  rewrite (mapM_Err _ _ z IndexError); auto.
  - intros y e. apply norm_dim_err.
  - change z with (fst (z, n)). now apply in_map.
  - rewrite Hrank. exact Hb.
Qed.

End ReduceErrors.
