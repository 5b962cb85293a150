(** Proofs about reduce_mean, right_expand_as and left_expand_as. *)
From Coq Require Import List Arith Bool ZArith Lia.
From Verif Require Import Base Torch ListLemmas Util SpecUtil.
Import ListNotations.

Lemma remove_in : forall d l, In d l -> NoDup l -> py_remove (Z.of_nat d) l = Ok (filter (fun x => negb (x =? d)) l).
Proof.
  intros d. induction l as [|y l IH]; intros Hi Hn; [contradiction|]. inversion Hn as [|? ? Hy Hl]; subst. cbn.
  destruct (Z.eqb_spec (Z.of_nat y) (Z.of_nat d)) as [E|E].
  - apply Nat2Z.inj in E. subst y. rewrite Nat.eqb_refl. cbn. f_equal. symmetry.
    rewrite (filter_ext_in _ (fun _ => true)).
    + clear. induction l; cbn; congruence.
    + intros a Ha. apply negb_true_iff, Nat.eqb_neq. congruence.
  - destruct Hi as [->|Hi]; [congruence|]. rewrite IH by auto. cbn. destruct (Nat.eqb_spec y d); [subst; congruence|]. reflexivity.
Qed.
Lemma remove_out : forall z l, (forall x, In x l -> Z.of_nat x <> z) -> py_remove z l = Err ValueError.
Proof.
  intros z. induction l as [|y l IH]; intros H; cbn; auto.
  destruct (Z.eqb_spec (Z.of_nat y) z) as [E|E]; [exfalso; apply (H y); [now left|exact E]|].
  rewrite IH; [reflexivity|]. intros x Hx. apply H. now right.
Qed.

Lemma removes : forall keep l, NoDup keep -> NoDup l -> (forall d, In d keep -> In d l) ->
  foldM (fun l d => py_remove d l) (map Z.of_nat keep) l = Ok (filter (fun x => negb (existsb (Nat.eqb x) keep)) l).
Proof.
  induction keep as [|d keep IH]; intros l Hk Hl Hi; cbn.
  - f_equal. clear. induction l; cbn; congruence.
  - inversion Hk as [|? ? Hd Hk']; subst. rewrite remove_in; auto; [|apply Hi; now left]. cbn. rewrite IH; auto.
    + f_equal. clear. induction l as [|y l IH]; cbn; auto. destruct (y =? d); cbn; [exact IH|].
      destruct (existsb (Nat.eqb y) keep); cbn; congruence.
    + now apply NoDup_filter.
    + intros x Hx. apply filter_In. split; [apply Hi; now right|]. apply negb_true_iff, Nat.eqb_neq. intros ->. contradiction.
Qed.

(** Removing fails as soon as a dimension is out of range or met again. *)
Lemma removes_fail : forall keep l, NoDup l -> (~ NoDup keep \/ exists z, In z keep /\ forall x, In x l -> Z.of_nat x <> z) ->
  foldM (fun l d => py_remove d l) keep l = Err ValueError.
Proof.
  induction keep as [|z keep IH]; intros l Hl H.
  - destruct H as [H|[z [[] _]]]. exfalso. apply H. constructor.
  - cbn. destruct (in_dec Z.eq_dec z (map Z.of_nat l)) as [Hz|Hz].
    + apply in_map_iff in Hz. destruct Hz as [d [<- Hd]]. rewrite remove_in by auto. cbn. apply IH; [now apply NoDup_filter|].
      destruct (in_dec Z.eq_dec (Z.of_nat d) keep) as [Hr|Hr].
      * right. exists (Z.of_nat d). split; auto. intros x Hx E. apply Nat2Z.inj in E. subst x. apply filter_In in Hx.
        destruct Hx as [_ Hx]. now rewrite Nat.eqb_refl in Hx.
      * destruct H as [H|[z [[E|Hz] Hx]]].
        -- left. intros Hn. apply H. now constructor.
        -- exfalso. exact (Hx d Hd E).
        -- right. exists z. split; auto. intros x H'. apply filter_In in H'. apply Hx, H'.
    + rewrite remove_out; [reflexivity|]. intros x Hx E. apply Hz. apply in_map_iff. now exists x.
Qed.

(** Agreement on the dimensions a mask keeps. *)
Fixpoint agreem (m : list bool) (i j : list nat) : bool :=
  match m, i, j with
  | b :: m, x :: i, y :: j => (b || (x =? y)) && agreem m i j
  | _, _, _ => true
  end.
Lemma filter_flat_map : forall {A B} (f : B -> bool) (g : A -> list B) l, filter f (flat_map g l) = flat_map (fun a => filter f (g a)) l.
Proof. intros A B f g. induction l; cbn; auto. rewrite filter_app. congruence. Qed.
Lemma filter_map : forall {A B} (f : B -> bool) (g : A -> B) l, filter f (map g l) = map g (filter (fun a => f (g a)) l).
Proof. intros A B f g. induction l; cbn; auto. destruct (f (g a)); cbn; congruence. Qed.
Lemma flat_map_none : forall {A B} (g : A -> list B) l, (forall a, In a l -> g a = []) -> flat_map g l = [].
Proof. intros A B g. induction l; intros H; cbn; auto. rewrite (H a) by now left. apply IHl. intros; apply H; now right. Qed.
Lemma flat_map_one : forall {B} (g : nat -> list B) x l, NoDup l -> In x l -> flat_map (fun a => if x =? a then g a else []) l = g x.
Proof.
  intros B g x. induction l as [|y l IH]; intros Hn Hi; [contradiction|]. inversion Hn; subst. cbn. destruct (Nat.eqb_spec x y) as [->|E].
  - rewrite flat_map_none; [apply app_nil_r|]. intros a Ha. destruct (Nat.eqb_spec y a); [subst; contradiction|reflexivity].
  - destruct Hi as [->|Hi]; [congruence|]. cbn. now apply IH.
Qed.
Lemma map_flat_map : forall {A B C} (f : B -> C) (g : A -> list B) l, map f (flat_map g l) = flat_map (fun a => map f (g a)) l.
Proof. intros. induction l; cbn; auto. rewrite map_app. congruence. Qed.
Lemma merge_filter : forall m shp i, length m = length shp -> valid i shp ->
  map (merge m (select false m i)) (indices (select true m shp)) = filter (agreem m i) (indices shp).
Proof.
  induction m as [|b m IH]; intros [|n shp] i Hl Hv; try discriminate.
  - reflexivity.
  - injection Hl as Hl. inversion Hv as [|x n' i' shp' Hx Hv']; subst. destruct b.
    + cbn [select Bool.eqb indices]. rewrite map_flat_map, filter_flat_map. apply flat_map_ext. intros a.
      rewrite map_map, filter_map. cbn [agreem merge orb andb]. rewrite <- IH by auto. now rewrite map_map.
    + cbn [select Bool.eqb indices]. rewrite filter_flat_map.
      erewrite flat_map_ext; [|intros a; rewrite filter_map; cbn [agreem orb]; instantiate (1 := fun a => if x =? a then map (cons a) (filter (agreem m i') (indices shp)) else [])].
      * rewrite flat_map_one; [|apply seq_NoDup|apply in_seq; lia]. rewrite <- IH by auto. rewrite map_map. reflexivity.
      * cbn. destruct (x =? a); cbn; auto. clear. induction (indices shp); cbn; auto.
Qed.

(** The mask of the removed dimensions. *)
Definition gone (keep : list nat) (d : nat) : bool := negb (existsb (Nat.eqb d) keep).
Lemma existsb_in : forall x l, existsb (Nat.eqb x) l = true <-> In x l.
Proof.
  intros x l. rewrite existsb_exists. split; [intros [y [H E]]; apply Nat.eqb_eq in E; now subst|intros H; exists x; now rewrite Nat.eqb_refl].
Qed.
Lemma mask_gone : forall n keep, dims_mask n (filter (gone keep) (seq 0 n)) = map (gone keep) (seq 0 n).
Proof.
  intros n keep. apply map_ext_in. intros d Hd. destruct (gone keep d) eqn:E.
  - apply existsb_in, filter_In. now split.
  - apply not_true_is_false. intros H. apply existsb_in, filter_In in H. destruct H. congruence.
Qed.
Lemma select_part : forall keep idx a, select false (map (gone keep) (seq a (length idx))) idx
  = map (fun d => nth (d - a) idx 0) (filter (fun d => existsb (Nat.eqb d) keep) (seq a (length idx))).
Proof.
  intros keep. induction idx as [|x idx IH]; intros a; cbn -[Nat.sub]; auto. rewrite IH. unfold gone at 1.
  assert (E : forall l, (forall d, In d l -> S a <= d) -> map (fun d => nth (d - S a) idx 0) l = map (fun d => nth (d - a) (x :: idx) 0) l).
  { intros l H. apply map_ext_in. intros d Hd. specialize (H d Hd). replace (d - a) with (S (d - S a)) by lia. reflexivity. }
  destruct (existsb (Nat.eqb a) keep); cbn -[Nat.sub]; [rewrite Nat.sub_diag; cbn [nth]; f_equal|]; apply E; intros d Hd;
    apply filter_In in Hd; destruct Hd as [Hd _]; apply in_seq in Hd; lia.
Qed.
Lemma agree_mask : forall keep i j a, length i = length j ->
  agreem (map (gone keep) (seq a (length i))) i j = forallb (fun d => nth (d - a) i 0 =? nth (d - a) j 0) (filter (fun d => existsb (Nat.eqb d) keep) (seq a (length i))).
Proof.
  intros keep. induction i as [|x i IH]; intros [|y j] a H; try discriminate; auto. injection H as H. cbn -[Nat.sub]. rewrite IH by auto. unfold gone.
  assert (E : forall l, (forall d, In d l -> S a <= d) -> forallb (fun d => nth (d - S a) i 0 =? nth (d - S a) j 0) l = forallb (fun d => nth (d - a) (x :: i) 0 =? nth (d - a) (y :: j) 0) l).
  { induction l as [|d l IHl]; intros Hd; auto. cbn -[Nat.sub nth]. rewrite IHl by (intros; apply Hd; now right).
    specialize (Hd d (or_introl eq_refl)). replace (d - a) with (S (d - S a)) by lia. reflexivity. }
  assert (B : forall d, In d (filter (fun d => existsb (Nat.eqb d) keep) (seq (S a) (length i))) -> S a <= d).
  { intros d Hd. apply filter_In in Hd. destruct Hd as [Hd _]. apply in_seq in Hd. lia. }
  rewrite (E _ B). destruct (existsb (Nat.eqb a) keep); cbn -[Nat.sub]; [rewrite Nat.sub_diag|]; reflexivity.
Qed.
Lemma valid_length : forall i shp, valid i shp -> length i = length shp.
Proof. intros i shp H. induction H; cbn; congruence. Qed.

Section Mean.
Context {V : Type}.
Variable mean : list V -> V.

Lemma mean_kept : forall (t : ten V) keep, NoDup keep -> (forall d, In d keep -> d < ndim t) -> length keep < ndim t ->
  exists u, reduce_mean mean t (map Z.of_nat keep) = Ok u /\ shape u = part (kept (ndim t) keep) (shape t) /\
    forall i, valid i (shape t) -> el u (part (kept (ndim t) keep) i) = mean (map (el t) (filter (agree keep i) (indices (shape t)))).
Proof.
  intros t keep Hn Hr Hk. unfold reduce_mean. rewrite map_length. replace (length keep =? ndim t) with false by (symmetry; apply Nat.eqb_neq; lia).
  rewrite removes; auto using seq_NoDup; [|intros d Hd; apply in_seq; specialize (Hr d Hd); lia]. cbn [bind].
  change (fun x => negb (existsb (Nat.eqb x) keep)) with (gone keep). set (ds := filter (gone keep) (seq 0 (ndim t))).
  assert (D : ds <> []).
  { intros E. assert (I : incl (seq 0 (ndim t)) keep).
    { intros d Hd. destruct (existsb (Nat.eqb d) keep) eqn:X; [now apply existsb_in|]. exfalso.
      assert (In d ds) by (apply filter_In; split; auto; unfold gone; now rewrite X). rewrite E in H. contradiction. }
    apply NoDup_incl_length in I; [rewrite seq_length in I; lia|apply seq_NoDup]. }
  unfold reduce_dims.
  replace (forallb (fun d => d <? ndim t) ds) with true.
  2:{ symmetry. apply forallb_forall. intros d Hd. apply filter_In in Hd. destruct Hd as [Hd _]. apply in_seq in Hd. apply Nat.ltb_lt. lia. }
  rewrite nodup_fixed_point by (apply NoDup_filter, seq_NoDup). rewrite Nat.eqb_refl. cbn [negb].
  replace (match ds with [] => repeat true (ndim t) | _ :: _ => dims_mask (ndim t) ds end) with (map (gone keep) (seq 0 (ndim t))).
  2:{ destruct ds eqn:E; [congruence|]. rewrite <- E. unfold ds. now rewrite mask_gone. }
  eexists. split; [reflexivity|]. cbn [shape el].
  assert (P : forall idx, length idx = ndim t -> select false (map (gone keep) (seq 0 (ndim t))) idx = part (kept (ndim t) keep) idx).
  { intros idx H. rewrite <- H, select_part. unfold part, kept. apply map_ext. intros d. now rewrite Nat.sub_0_r. }
  split; [now apply P|]. intros i Hi. pose proof (valid_length _ _ Hi) as Li. fold (ndim t) in Li. rewrite <- P by auto.
  rewrite <- (map_map (merge _ _) (el t)). rewrite merge_filter; [|now rewrite map_length, seq_length|exact Hi].
  f_equal. f_equal. apply filter_ext_in. intros j Hj. apply in_indices, valid_length in Hj. fold (ndim t) in Hj.
  rewrite <- Li at 1. rewrite agree_mask by congruence. unfold agree. rewrite Li.
  apply eq_true_iff_eq. rewrite !forallb_forall. split; intros H d Hd.
  - specialize (H d). rewrite Nat.sub_0_r in H. apply H. apply filter_In. split; [apply in_seq; specialize (Hr d Hd); lia|now apply existsb_in].
  - rewrite Nat.sub_0_r. apply H. apply filter_In in Hd. now apply existsb_in.
Qed.
Lemma mean_as_many : forall (t : ten V) keep, length keep = ndim t -> reduce_mean mean t keep = Ok t.
Proof. intros t keep H. unfold reduce_mean. now rewrite H, Nat.eqb_refl. Qed.
Lemma mean_rejected : forall (t : ten V) keep, length keep <> ndim t ->
  ~ NoDup keep \/ (exists z, In z keep /\ ~ (0 <= z < Z.of_nat (ndim t))%Z) -> reduce_mean mean t keep = Err ValueError.
Proof.
  intros t keep H C. unfold reduce_mean. replace (length keep =? ndim t) with false by (symmetry; now apply Nat.eqb_neq).
  rewrite removes_fail; auto using seq_NoDup. destruct C as [C|[z [Hz C]]]; [now left|right; exists z; split; auto].
  intros x Hx E. apply in_seq in Hx. lia.
Qed.
End Mean.

Section Expand.
Context {V : Type}.
Lemma expandable_refl : forall l, expandable_rev l l = true.
Proof. induction l; cbn; auto. now rewrite Nat.eqb_refl. Qed.
Lemma expandable_ones : forall a b, length a = length b -> (forall x, In x a -> x = 1) -> expandable_rev a b = true.
Proof.
  induction a as [|x a IH]; intros [|y b] H H1; try discriminate; auto. injection H as H. cbn. rewrite (H1 x) by now left.
  rewrite orb_true_r. apply IH; auto. intros z Hz. apply H1. now right.
Qed.
Lemma expandable_app : forall a b c d, length a = length c -> expandable_rev (a ++ b) (c ++ d) = expandable_rev a c && expandable_rev b d.
Proof.
  induction a as [|x a IH]; intros b [|y c] d H; try discriminate; auto. injection H as H. cbn. rewrite IH by auto. now rewrite andb_assoc.
Qed.
Lemma in_rev_ones : forall k x, In x (rev (repeat 1 k)) -> x = 1.
Proof. intros k x H. apply in_rev in H. now apply repeat_spec in H. Qed.
Lemma clip_id : forall shp i, valid i shp -> zip_clip shp i = i.
Proof.
  induction shp as [|n shp IH]; intros i H; inversion H as [|x n' i' shp' Hx Hv]; subst; auto. cbn. rewrite IH by auto.
  destruct (Nat.eqb_spec n 1); [|reflexivity]. f_equal. lia.
Qed.
Lemma clip_app : forall a b i j, length i = length a -> zip_clip (a ++ b) (i ++ j) = zip_clip a i ++ zip_clip b j.
Proof. induction a as [|n a IH]; intros b [|x i] j H; try discriminate; auto. injection H as H. cbn. now rewrite IH. Qed.
Lemma clip_length : forall a i, length i = length a -> length (zip_clip a i) = length a.
Proof. induction a as [|n a IH]; intros [|x i] H; try discriminate; auto. injection H as H. cbn. now rewrite IH. Qed.
Lemma bidx_full : forall shp idx, length idx = length shp -> bidx shp idx = zip_clip shp idx.
Proof. intros shp idx H. unfold bidx. now rewrite H, Nat.sub_diag. Qed.

Lemma right_fits : forall t e : ten V, ndim t <= ndim e ->
  exists u, right_expand_as t e = Ok u /\ shape u = shape t ++ skipn (ndim t) (shape e) /\
    forall i j, valid i (shape t) -> valid j (skipn (ndim t) (shape e)) -> el u (i ++ j) = el t i.
Proof.
  intros t e H. unfold right_expand_as, expand. unfold unsqueeze_right. cbn [shape el].
  assert (L : length (skipn (ndim t) (shape e)) = ndim e - ndim t) by apply skipn_length.
  rewrite !rev_app_distr, expandable_app; [|rewrite !rev_length, repeat_length; auto].
  rewrite expandable_refl, expandable_ones; [|rewrite !rev_length, repeat_length; auto|apply in_rev_ones].
  cbn [andb]. eexists. split; [reflexivity|]. split; [reflexivity|]. intros i j Hi Hj. cbn [el].
  pose proof (valid_length _ _ Hi) as Li. pose proof (valid_length _ _ Hj) as Lj.
  rewrite bidx_full by (rewrite !app_length, repeat_length; lia). rewrite clip_app by auto. rewrite clip_id by auto.
  replace (ndim t) with (length i) by exact Li. rewrite firstn_app, firstn_all, Nat.sub_diag. cbn. now rewrite app_nil_r.
Qed.
Lemma right_same : forall t e : ten V, ndim e < ndim t -> exists u, right_expand_as t e = Ok u /\ teq u t.
Proof.
  intros t e H. unfold right_expand_as, expand. replace (ndim e - ndim t) with 0 by lia. rewrite skipn_all2 by (unfold ndim in *; lia).
  unfold unsqueeze_right. cbn [shape el repeat]. rewrite expandable_refl. eexists. split; [reflexivity|]. rewrite app_nil_r. split; [reflexivity|].
  intros i Hi. cbn [el shape] in *. pose proof (valid_length _ _ Hi) as Li. rewrite bidx_full by auto. rewrite clip_id by auto.
  unfold ndim. now rewrite <- Li, firstn_all.
Qed.
Lemma left_gen : forall (t : ten V) front k, (k = length front \/ k = 0) ->
  exists u, expand (front ++ shape t) (unsqueeze_left k t) = Ok u /\ shape u = front ++ shape t /\
    forall i j, valid i front -> valid j (shape t) -> el u (i ++ j) = el t j.
Proof.
  intros t front k Hk. unfold expand. unfold unsqueeze_left. cbn [shape el].
  assert (X : expandable_rev (rev (repeat 1 k ++ shape t)) (rev (front ++ shape t)) = true).
  { rewrite !rev_app_distr, expandable_app, expandable_refl by auto. cbn [andb]. destruct Hk as [->| ->]; [|reflexivity].
    apply expandable_ones; [now rewrite !rev_length, repeat_length|apply in_rev_ones]. }
  rewrite X. eexists. split; [reflexivity|]. split; [reflexivity|]. intros i j Hi Hj. cbn [el].
  pose proof (valid_length _ _ Hi) as Li. pose proof (valid_length _ _ Hj) as Lj. destruct Hk as [->| ->].
  - rewrite bidx_full by (rewrite !app_length, repeat_length; lia). rewrite clip_app by (rewrite repeat_length; exact Li). rewrite (clip_id (shape t) j) by auto.
    rewrite skipn_app, skipn_all2 by (rewrite clip_length; rewrite repeat_length; [lia|exact Li]). rewrite clip_length, repeat_length by (rewrite repeat_length; exact Li).
    now rewrite Nat.sub_diag.
  - unfold bidx. cbn [repeat app skipn]. rewrite app_length, Lj. replace (length i + length (shape t) - length (shape t)) with (length i) by lia.
    rewrite skipn_app, skipn_all, Nat.sub_diag. cbn [skipn app]. now rewrite clip_id.
Qed.
Lemma left_fits : forall t e : ten V, ndim t <= ndim e ->
  exists u, left_expand_as t e = Ok u /\ shape u = firstn (ndim e - ndim t) (shape e) ++ shape t /\
    forall i j, valid i (firstn (ndim e - ndim t) (shape e)) -> valid j (shape t) -> el u (i ++ j) = el t j.
Proof.
  intros t e H. unfold left_expand_as, slice_to. replace (0 <=? _)%Z with true by (symmetry; apply Z.leb_le; lia).
  replace (Z.to_nat _) with (ndim e - ndim t) by lia. apply left_gen. left. rewrite firstn_length. unfold ndim. lia.
Qed.
Lemma left_larger : forall t e : ten V, ndim e < ndim t ->
  exists u, left_expand_as t e = Ok u /\ shape u = firstn (2 * ndim e - ndim t) (shape e) ++ shape t /\
    forall i j, valid i (firstn (2 * ndim e - ndim t) (shape e)) -> valid j (shape t) -> el u (i ++ j) = el t j.
Proof.
  intros t e H. unfold left_expand_as, slice_to. replace (0 <=? _)%Z with false by (symmetry; apply Z.leb_gt; lia).
  replace (length (shape e) - Z.to_nat (- (Z.of_nat (ndim e) - Z.of_nat (ndim t)))) with (2 * ndim e - ndim t)
    by (change (length (shape e)) with (ndim e); lia).
  replace (Z.to_nat (Z.of_nat (ndim e) - Z.of_nat (ndim t))) with 0 by lia. apply left_gen. now right.
Qed.
End Expand.
