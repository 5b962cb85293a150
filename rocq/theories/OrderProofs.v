(** order_plates. *)
From Coq Require Import String List Arith Bool Lia Permutation.
From Verif Require Import Base Torch Plates OrderPlates ListLemmas SpecTensor SpecOrder WrapProofs.
Import ListNotations.

Section OrderProofs.
Context {V : Type}.
Variable veq : V -> V -> bool.
Notation plate := (plate V).
Notation N l := (map (@pname V) l).

Fixpoint plate_nest (P : plate -> Prop) (H : forall c n k w l, Forall P l -> P (mkPlate c n k w l)) (p : plate) : P p :=
  match p with
  | mkPlate c n k w l =>
      H c n k w l ((fix go (l : list plate) : Forall P l :=
                      match l with [] => Forall_nil P | q :: r => Forall_cons q (plate_nest P H q) (go r) end) l)
  end.

(** All ancestors, computed (for examples). *)
Fixpoint ups (p : plate) : list plate :=
  match p with
  | mkPlate _ _ _ _ l => (fix go (l : list plate) : list plate := match l with [] => [] | q :: r => q :: ups q ++ go r end) l
  end.
Lemma above_ups : forall a p, above a p -> In a (ups p).
Proof.
  intros a p H. induction H as [a p Hi|a q p Hi Ha IH]; destruct p as [c n k w l]; simpl in *;
  induction l as [|x l IHl]; simpl in *; try tauto.
  - destruct Hi as [<-|Hi]; auto. right. apply in_or_app. auto.
  - right. apply in_or_app. destruct Hi as [<-|Hi]; auto.
Qed.
Lemma ancestry_ups : forall l a, ancestry l a -> In a (l ++ flat_map ups l).
Proof.
  intros l a [H|[q [Hq H]]]; apply in_or_app; auto. right. apply in_flat_map. exists q. split; auto. now apply above_ups.
Qed.

Lemma isroot_spec : forall L p, isroot veq L p = true <-> forall a, above a p -> pin veq a L = false.
Proof.
  intros L. induction p as [c n k w l IH] using plate_nest. simpl.
  induction l as [|q r IHr].
  - split; auto. intros _ a Ha. inversion Ha; subst; simpl in *; tauto.
  - inversion IH as [|? ? Hq Hr]; subst. specialize (IHr Hr). split.
    + destruct (pin veq q L) eqn:E; [discriminate|]. destruct (isroot veq L q) eqn:E2; [|discriminate].
      intros Hg a Ha. pose proof (proj1 Hq eq_refl) as E3. inversion Ha as [? ? Hi|? q' ? Hi Hab]; subst; simpl in Hi; destruct Hi as [<-|Hi]; auto.
      * apply IHr; auto. now constructor.
      * apply IHr; auto. eapply A_up; eauto.
    + intros H. destruct (pin veq q L) eqn:E.
      { rewrite H in E; [discriminate|]. constructor. simpl. auto. }
      replace (isroot veq L q) with true.
      * apply IHr. intros a Ha. apply H. inversion Ha; subst; simpl in *; [constructor; simpl; auto|]. eapply A_up; eauto. simpl; auto.
      * symmetry. apply Hq. intros a Ha. apply H. eapply A_up; [left; reflexivity|auto].
Qed.

Definition mems (x : string) (l : list string) : bool := existsb (String.eqb x) l.
Lemma mems_In : forall x l, mems x l = true <-> In x l.
Proof. intros x l. apply existsb_In. Qed.
Lemma mems_notIn : forall x l, mems x l = false <-> ~ In x l.
Proof. intros x l. rewrite <- mems_In. destruct (mems x l); split; congruence || tauto || (intros; exfalso; auto). Qed.

(** Dictionaries. *)
Lemma dget_dset_same : forall k v d, dget k (@dset V k v d) = Some v.
Proof. induction d as [|[k' v'] d IH]; simpl; [now rewrite String.eqb_refl|]. destruct (String.eqb_spec k k'); simpl; [now rewrite String.eqb_refl|]. destruct (String.eqb_spec k k'); congruence. Qed.
Lemma dget_dset_other : forall k k' v d, k <> k' -> dget k (@dset V k' v d) = dget k d.
Proof.
  induction d as [|[k1 v1] d IH]; simpl; intros H.
  - destruct (String.eqb_spec k k'); congruence.
  - destruct (String.eqb_spec k' k1); simpl.
    + subst. destruct (String.eqb_spec k k1); congruence.
    + destruct (String.eqb_spec k k1); auto.
Qed.
Lemma dset_keys_in : forall k v d, In k (map fst d) -> map fst (@dset V k v d) = map fst d.
Proof.
  induction d as [|[k1 v1] d IH]; simpl; intros H; [tauto|].
  destruct (String.eqb_spec k k1); simpl; [now subst|]. f_equal. apply IH. destruct H; congruence || auto.
Qed.
Lemma dset_keys_new : forall k v d, ~ In k (map fst d) -> map fst (@dset V k v d) = map fst d ++ [k].
Proof.
  induction d as [|[k1 v1] d IH]; simpl; intros H; auto.
  destruct (String.eqb_spec k k1); simpl; [subst; tauto|]. f_equal. apply IH. tauto.
Qed.
Lemma dget_None : forall k (d : @pdict V), dget k d = None <-> ~ In k (map fst d).
Proof.
  induction d as [|[k1 v1] d IH]; simpl; [tauto|]. destruct (String.eqb_spec k k1); [subst; split; [discriminate|tauto]|].
  rewrite IH. split; intros H; [intros [C|C]; congruence || auto|tauto].
Qed.
Lemma dget_entry : forall (d : @pdict V) k v, NoDup (map fst d) -> In (k, v) d -> dget k d = Some v.
Proof.
  induction d as [|[k1 v1] d IH]; simpl; intros k v ND H; [tauto|]. inversion ND; subst.
  destruct H as [E|H].
  - injection E as -> ->. now rewrite String.eqb_refl.
  - destruct (String.eqb_spec k k1); auto. subst. exfalso. apply H2. change k1 with (fst (k1, v)). now apply in_map.
Qed.

(** Initial dictionaries. *)
Lemma in_edges_gen : forall l d, NoDup (N l) -> (forall p, In p l -> ~ In (pname p) (map fst d)) ->
  let d' := fold_left (fun d p => dset (pname p) (pparents p) d) l d in
  map fst d' = map fst d ++ N l /\
  (forall p, In p l -> dget (pname p) d' = Some (pparents p)) /\
  (forall k, ~ In k (N l) -> dget k d' = dget k d).
Proof.
  induction l as [|p l IH]; simpl; intros d ND H.
  - rewrite app_nil_r. split; auto. split; [tauto|auto].
  - inversion ND as [|? ? Hn ND']; subst.
    assert (Hk : map fst (dset (pname p) (pparents p) d) = map fst d ++ [pname p]) by (apply dset_keys_new; apply H; auto).
    destruct (IH (dset (pname p) (pparents p) d)) as [A [B C]]; auto.
    { intros q Hq C. rewrite Hk in C. apply in_app_or in C. destruct C as [C|[C|[]]].
      - apply (H q); auto. 
      - apply Hn. rewrite C. now apply in_map. }
    split; [|split].
    + simpl in A. rewrite A, Hk, <- app_assoc. reflexivity.
    + intros q [<-|Hq]; auto. rewrite C by auto. apply dget_dset_same.
    + intros k Hk'. rewrite C by tauto. apply dget_dset_other. intros ->. tauto.
Qed.

Lemma blank_gen : forall l (d : @pdict V), (forall p, In p l -> In (pname p) (map fst (fold_left (fun d p => dset (pname p) [] d) l d))) /\
  (forall k, In k (map fst d) -> In k (map fst (fold_left (fun d (p : plate) => dset (pname p) [] d) l d))) /\
  (forall k v, dget k (fold_left (fun d (p : plate) => dset (pname p) [] d) l d) = Some v -> dget k d = Some v \/ v = []).
Proof.
  induction l as [|p l IH]; intros d; simpl; [repeat split; auto; tauto|].
  destruct (IH (dset (pname p) [] d)) as [A [B C]].
  assert (K : forall k, In k (map fst d) \/ k = pname p -> In k (map fst (dset (pname p) [] d))).
  { intros k Hk. destruct (in_dec string_dec (pname p) (map fst d)) as [i|i].
    - rewrite dset_keys_in by auto. destruct Hk; subst; auto.
    - rewrite dset_keys_new by auto. apply in_or_app. simpl. destruct Hk; subst; auto. }
  split; [|split].
  - intros q [<-|Hq]; auto.
  - intros k Hk. apply B. apply K. auto.
  - intros k v H. apply C in H. destruct H as [H|H]; auto.
    destruct (string_dec k (pname p)) as [->|n].
    + rewrite dget_dset_same in H. injection H as <-. auto.
    + rewrite dget_dset_other in H by auto. auto.
Qed.

Lemma add_out_other : forall p q d k, k <> pname q -> dget k (add_out p d q) = @dget V k d.
Proof. intros p q d k H. unfold add_out. destruct (dget (pname q) d); now apply dget_dset_other. Qed.
Lemma add_out_same : forall p q d l, dget (pname q) d = Some l -> dget (pname q) (add_out p d q) = @Some (list plate) (l ++ [p]).
Proof. intros p q d l H. unfold add_out. rewrite H. apply dget_dset_same. Qed.

Lemma add_outs : forall p ps d k l, NoDup (N ps) -> dget k d = Some l ->
  dget k (fold_left (add_out p) ps d) = Some (if mems k (N ps) then l ++ [p] else l).
Proof.
  intros p. induction ps as [|q ps IH]; intros d k l ND H; simpl; auto.
  inversion ND as [|? ? Hn ND']; subst. destruct (String.eqb_spec k (pname q)) as [->|n].
  - simpl. rewrite (IH _ _ (l ++ [p])); auto.
    + replace (mems (pname q) (N ps)) with false; auto. symmetry. now apply mems_notIn.
    + now apply add_out_same.
  - simpl. apply IH; auto. rewrite add_out_other; auto.
Qed.

Lemma out_edges_spec : forall L q, In q L -> (forall p, In p L -> NoDup (N (pparents p))) ->
  dget (pname q) (out_edges_of L) = Some (filter (fun p => mems (pname q) (N (pparents p))) L).
Proof.
  intros L q Hq ND. unfold out_edges_of.
  assert (G : forall l d a, (forall p, In p l -> NoDup (N (pparents p))) -> dget (pname q) d = Some a ->
    dget (pname q) (fold_left (fun d p => fold_left (add_out p) (pparents p) d) l d)
    = Some (a ++ filter (fun p => mems (pname q) (N (pparents p))) l)).
  { induction l as [|p l IH]; intros d a H1 H2; simpl; [now rewrite app_nil_r|].
    rewrite (IH _ (if mems (pname q) (N (pparents p)) then a ++ [p] else a)).
    - destruct (mems (pname q) (N (pparents p))); simpl; auto. now rewrite <- app_assoc.
    - intros; apply H1; simpl; auto.
    - apply add_outs; auto. apply H1; simpl; auto. }
  rewrite (G L _ []); auto.
  destruct (blank_gen L []) as [A [_ C]].
  specialize (A q Hq). destruct (dget (pname q) (fold_left (fun d p => dset (pname p) [] d) L [])) as [v|] eqn:E.
  - apply C in E. destruct E as [E|E]; [discriminate|now subst].
  - apply dget_None in E. tauto.
Qed.

(** The setting. *)
Variable L : list plate.
Hypothesis OK : orderable veq L.
Let NDL : NoDup (N L) := proj1 OK.
Let NDP : forall p, In p L -> NoDup (N (pparents p)) := proj1 (proj2 OK).

Lemma anc_parent : forall p q, In p L -> In q (pparents p) -> ancestry L q.
Proof. intros p q Hp Hq. right. exists p. split; auto. now constructor. Qed.
Lemma peq_iff : forall p q, ancestry L p -> ancestry L q -> peq veq p q = String.eqb (pname p) (pname q).
Proof.
  intros p q Hp Hq. destruct (String.eqb_spec (pname p) (pname q)) as [e|n].
  - now apply (proj2 (proj2 OK)).
  - destruct (peq veq p q) eqn:E; auto. apply peq_name in E. congruence.
Qed.
Lemma pin_iff : forall p, ancestry L p -> pin veq p L = mems (pname p) (N L).
Proof.
  intros p Hp. unfold pin, inb, mems.
  assert (G : forall l, incl l L -> existsb (fun y => peq veq y p) l = existsb (String.eqb (pname p)) (N l)).
  { induction l as [|q l IH]; intros Hi; simpl; auto.
    rewrite IH by (intros x Hx; apply Hi; simpl; auto). rewrite peq_iff; auto.
    - now rewrite String.eqb_sym.
    - left. apply Hi. simpl; auto. }
  apply G. apply incl_refl.
Qed.

Lemma premove_spec : forall n l, ancestry L n -> (forall q, In q l -> ancestry L q) -> NoDup (N l) -> In (pname n) (N l) ->
  premove veq n l = Ok (filter (fun q => negb (String.eqb (pname q) (pname n))) l).
Proof.
  intros n l Hn. induction l as [|q l IH]; intros Ha ND Hi; [destruct Hi|].
  inversion ND as [|? ? Hq ND']; subst. simpl. rewrite peq_iff by (auto; apply Ha; simpl; auto).
  destruct (String.eqb_spec (pname q) (pname n)) as [e|ne]; simpl.
  - f_equal. symmetry. clear -Hq e. induction l as [|x l IH]; simpl; auto. simpl in Hq.
    destruct (String.eqb_spec (pname x) (pname n)) as [e2|]; simpl; [exfalso; apply Hq; left; congruence|]. f_equal. apply IH. tauto.
  - rewrite IH; auto.
    + intros x Hx. apply Ha. simpl; auto.
    + simpl in Hi. destruct Hi as [C|Hi]; [congruence|auto].
Qed.

Lemma unique : forall p q, In p L -> In q L -> pname p = pname q -> p = q.
Proof. intros p q Hp Hq E. eapply NoDup_map_inj; eauto. Qed.

Definition drop (n : plate) (l : list plate) : list plate := filter (fun q => negb (String.eqb (pname q) (pname n))) l.
Definition empty {A} (l : list A) : bool := match l with [] => true | _ => false end.

(** The inner loop. *)
Lemma visit_all : forall n ms stack ins (f : plate -> list plate), In n L ->
  NoDup (N ms) -> incl ms L ->
  (forall p, In p L -> dget (pname p) ins = Some (f p)) ->
  (forall p, In p L -> incl (f p) (pparents p) /\ NoDup (N (f p))) ->
  (forall m, In m ms -> In (pname n) (N (f m))) ->
  map fst ins = N L ->
  exists ins', foldM (visit veq n) ms (stack, ins) = Ok (rev (filter (fun m => empty (drop n (f m))) ms) ++ stack, ins') /\
    map fst ins' = N L /\
    forall p, In p L -> dget (pname p) ins' = Some (if mems (pname p) (N ms) then drop n (f p) else f p).
Proof.
  intros n. induction ms as [|m ms IH]; intros stack ins f Hn ND Hi Hd Hf Hm Hk.
  - simpl. exists ins. auto.
  - inversion ND as [|? ? Hnm ND']; subst. 
    assert (HmL : In m L) by (apply Hi; simpl; auto).
    simpl foldM. unfold visit at 1. simpl snd. rewrite (Hd m HmL).
    destruct (Hf m HmL) as [Hinc HND].
    rewrite premove_spec; [|left; auto| |auto|apply Hm; simpl; auto].
    2:{ intros q Hq. eapply anc_parent; eauto. }
    cbn [bind fst]. fold (drop n (f m)).
    destruct (IH (match drop n (f m) with [] => m :: stack | _ => stack end) (dset (pname m) (drop n (f m)) ins)
                 (fun p => if String.eqb (pname p) (pname m) then drop n (f m) else f p)) as [ins' [A [B C]]]; auto.
    + intros x Hx. apply Hi. simpl; auto.
    + intros p Hp. destruct (String.eqb_spec (pname p) (pname m)) as [e|ne].
      * rewrite e. apply dget_dset_same.
      * rewrite dget_dset_other; auto.
    + intros p Hp. destruct (String.eqb_spec (pname p) (pname m)) as [e|ne]; auto.
      assert (p = m) by (apply unique; auto). subst. split.
      * intros x Hx. unfold drop in Hx. apply filter_In in Hx. apply Hinc. tauto.
      * unfold drop. now apply NoDup_map_filter.
    + intros x Hx. destruct (String.eqb_spec (pname x) (pname m)) as [e|ne].
      * exfalso. apply Hnm. rewrite <- e. now apply in_map.
      * apply Hm. simpl; auto.
    + rewrite dset_keys_in; auto. rewrite Hk. now apply in_map.
    + exists ins'. split; [|split; auto].
      * rewrite A. f_equal. f_equal.
        assert (Eq : filter (fun x => empty (drop n (if String.eqb (pname x) (pname m) then drop n (f m) else f x))) ms
                   = filter (fun x => empty (drop n (f x))) ms).
        { apply filter_ext_in. intros x Hx. destruct (String.eqb_spec (pname x) (pname m)) as [e|ne]; auto.
          exfalso. apply Hnm. rewrite <- e. now apply in_map. }
        rewrite Eq. simpl filter. destruct (drop n (f m)) eqn:Ed; simpl empty; cbv iota; auto.
        simpl rev. now rewrite <- app_assoc.
      * intros p Hp. rewrite (C p Hp). simpl.
        destruct (String.eqb_spec (pname p) (pname m)) as [e|ne]; simpl; auto.
        assert (p = m) by (apply unique; auto). subst. 
        replace (mems (pname m) (N ms)) with false; auto. symmetry. apply mems_notIn. auto.
Qed.

(** What remains of the edges when [sorted] has been removed. *)
Definition left_of (sorted : list plate) (p : plate) : list plate :=
  filter (fun q => negb (mems (pname q) (N sorted))) (pparents p).

Record inv (sorted stack : list plate) (ins : @pdict V) : Prop := {
  i_nodup : NoDup (N (sorted ++ stack));
  i_incl : incl (sorted ++ stack) L;
  i_keys : map fst ins = N L;
  i_ins : forall p, In p L -> dget (pname p) ins = Some (left_of sorted p);
  i_in : forall p, In p L -> (In p (sorted ++ stack) <-> isroot veq L p = true \/ left_of sorted p = []);
  i_order : parents_first sorted
}.

Lemma root_no_parent : forall p q, In p L -> isroot veq L p = true -> In q (pparents p) -> ~ In (pname q) (N L).
Proof.
  intros p q Hp Hr Hq C. rewrite isroot_spec in Hr. specialize (Hr q (A_parent _ _ Hq)).
  rewrite pin_iff in Hr by (eapply anc_parent; eauto). apply mems_notIn in Hr. auto.
Qed.

Lemma left_nil : forall sorted p, left_of sorted p = [] <-> forall q, In q (pparents p) -> In (pname q) (N sorted).
Proof.
  intros sorted p. unfold left_of. induction (pparents p) as [|q r IH]; simpl.
  - split; auto; intros; tauto.
  - destruct (mems (pname q) (N sorted)) eqn:E; simpl.
    + apply mems_In in E. rewrite IH. split; [intros H x [<-|Hx]; auto|intros H x Hx; apply H; auto].
    + apply mems_notIn in E. split; [discriminate|]. intros H. exfalso. apply E. apply H. auto.
Qed.

Lemma inv_parents : forall sorted stack ins p q, inv sorted stack ins -> In p (sorted ++ stack) -> In q (pparents p) ->
  In (pname q) (N L) -> In (pname q) (N sorted).
Proof.
  intros sorted stack ins p q I Hp Hq HqL. pose proof (i_incl _ _ _ I p Hp) as HpL.
  apply (i_in _ _ _ I p HpL) in Hp. destruct Hp as [Hr|Hl].
  - exfalso. eapply root_no_parent; eauto.
  - rewrite left_nil in Hl. auto.
Qed.

Lemma nth_error_snoc : forall {A} (l : list A) x i y, nth_error (l ++ [x]) i = Some y ->
  (i < length l /\ nth_error l i = Some y) \/ (i = length l /\ y = x).
Proof.
  intros A l x i y H. destruct (Nat.lt_ge_cases i (length l)).
  - rewrite nth_error_app1 in H by auto. auto.
  - rewrite nth_error_app2 in H by auto. right. destruct (i - length l) as [|k] eqn:E; simpl in H.
    + injection H as <-. split; auto; lia.
    + destruct k; discriminate.
Qed.

Lemma kahn_spec : forall fuel stack sorted ins, inv sorted stack ins -> length L <= length sorted + fuel ->
  exists sorted' ins', kahn veq fuel L (out_edges_of L) stack sorted ins = Ok (sorted', ins') /\ inv sorted' [] ins'.
Proof.
  induction fuel as [|fuel IH]; intros stack sorted ins I Hf.
  - destruct stack as [|n rest]; simpl; [eauto|]. exfalso.
    assert (H1 : length (N (sorted ++ n :: rest)) <= length (N L)).
    { apply NoDup_incl_length; [apply (i_nodup _ _ _ I)|]. apply incl_map. apply (i_incl _ _ _ I). }
    rewrite !map_length, app_length in H1. simpl in H1. lia.
  - destruct stack as [|n rest]; simpl; [eauto|].
    assert (HnL : In n L) by (apply (i_incl _ _ _ I); apply in_or_app; simpl; auto).
    assert (ND := i_nodup _ _ _ I). 
    replace (pin veq n L) with true.
    2:{ symmetry. rewrite pin_iff by (left; auto). apply mems_In. now apply in_map. }
    rewrite out_edges_spec by auto.
    set (ms := filter (fun p => mems (pname n) (N (pparents p))) L).
    assert (Hms : forall m, In m ms <-> In m L /\ parent_of n m).
    { intros m. unfold ms. rewrite filter_In, mems_In. unfold parent_of. tauto. }
    assert (Hns : ~ In (pname n) (N sorted)).
    { rewrite map_app in ND. simpl in ND. apply NoDup_remove_2 in ND. intros C. apply ND. apply in_or_app. auto. }
    destruct (visit_all n ms rest ins (left_of sorted)) as [ins' [A [B C]]]; auto.
    { unfold ms. now apply NoDup_map_filter. }
    { intros m Hm. apply Hms in Hm. tauto. }
    { apply (i_ins _ _ _ I). }
    { intros p Hp. split; [intros x Hx; unfold left_of in Hx; apply filter_In in Hx; tauto|].
      unfold left_of. apply NoDup_map_filter. auto. }
    { intros m Hm. apply Hms in Hm. destruct Hm as [HmL Hpar]. unfold parent_of in Hpar. apply in_map_iff in Hpar.
      destruct Hpar as [q [Eq Hq]]. rewrite <- Eq. apply in_map. unfold left_of. apply filter_In. split; auto.
      rewrite Eq. apply negb_true_iff. now apply mems_notIn. }
    { apply (i_keys _ _ _ I). }
    rewrite A. cbn [bind].
    set (new := filter (fun m => empty (drop n (left_of sorted m))) ms) in *.
    assert (Hdrop : forall p, drop n (left_of sorted p) = left_of (sorted ++ [n]) p).
    { intros p. unfold drop, left_of. rewrite map_app. simpl.
      induction (pparents p) as [|q r IHr]; simpl; auto.
      assert (E : mems (pname q) (N sorted ++ [pname n]) = mems (pname q) (N sorted) || String.eqb (pname q) (pname n)).
      { unfold mems. rewrite existsb_app. simpl. now rewrite orb_false_r. }
      rewrite E. destruct (mems (pname q) (N sorted)); simpl; auto.
      destruct (String.eqb (pname q) (pname n)); simpl; auto. f_equal. auto. }
    assert (Hsame : forall p, In p L -> ~ In p ms -> left_of (sorted ++ [n]) p = left_of sorted p).
    { intros p Hp Hn. rewrite <- Hdrop. unfold drop. unfold left_of. 
      assert (Hno : ~ In (pname n) (N (pparents p))) by (intros Cx; apply Hn; apply Hms; split; auto).
      clear -Hno. induction (pparents p) as [|q r IHr]; simpl; auto. simpl in Hno.
      destruct (mems (pname q) (N sorted)); simpl; [apply IHr; tauto|].
      destruct (String.eqb_spec (pname q) (pname n)); simpl; [exfalso; tauto|]. f_equal. apply IHr. tauto. }
    assert (Hmsnew : forall m, In m ms -> ~ In m (sorted ++ n :: rest)).
    { intros m Hm Cx. apply Hms in Hm. destruct Hm as [HmL Hpar]. unfold parent_of in Hpar. apply in_map_iff in Hpar.
      destruct Hpar as [q [Eq Hq]]. apply Hns. rewrite <- Eq. eapply inv_parents; eauto. rewrite Eq. now apply in_map. }
    assert (Hnew : forall m, In m new <-> In m ms /\ left_of (sorted ++ [n]) m = []).
    { intros m. unfold new. rewrite filter_In, Hdrop. destruct (left_of (sorted ++ [n]) m); simpl; split; intros [Hx Hy]; auto; discriminate. }
    apply IH.
    + constructor.
      * (* no duplicates *)
        rewrite <- app_assoc. simpl.
        assert (P : Permutation (N (sorted ++ n :: rev new ++ rest)) (N new ++ N (sorted ++ n :: rest))).
        { rewrite <- map_app. apply Permutation_map.
          transitivity (sorted ++ new ++ n :: rest).
          - apply Permutation_app_head. transitivity (n :: new ++ rest).
            + constructor. apply Permutation_app_tail. symmetry. apply Permutation_rev.
            + apply Permutation_middle.
          - rewrite !app_assoc. apply Permutation_app_tail. apply Permutation_app_comm. }
        eapply Permutation_NoDup; [symmetry; exact P|]. apply NoDup_app_intro; auto.
        -- unfold new, ms. apply NoDup_map_filter. now apply NoDup_map_filter.
        -- intros x Hx Cx. apply in_map_iff in Hx. destruct Hx as [m [<- Hm]]. apply in_map_iff in Cx. destruct Cx as [y [E Hy]].
           apply Hnew in Hm. destruct Hm as [Hm _]. assert (y = m).
           { apply unique; auto. { apply (i_incl _ _ _ I); auto. } apply Hms in Hm. tauto. }
           subst. eapply Hmsnew; eauto.
      * intros x Hx. rewrite <- app_assoc in Hx. simpl in Hx. apply in_app_or in Hx. destruct Hx as [Hx|[<-|Hx]].
        -- apply (i_incl _ _ _ I). apply in_or_app; auto.
        -- auto.
        -- apply in_app_or in Hx. destruct Hx as [Hx|Hx].
           ++ apply in_rev in Hx. apply Hnew in Hx. destruct Hx as [Hx _]. apply Hms in Hx. tauto.
           ++ apply (i_incl _ _ _ I). apply in_or_app. simpl; auto.
      * exact B.
      * intros p Hp. rewrite (C p Hp). f_equal. destruct (mems (pname p) (N ms)) eqn:E; [apply Hdrop|].
        symmetry. apply Hsame; auto. apply mems_notIn in E. intros Cx. apply E. now apply in_map.
      * intros p Hp. 
        assert (Hmem : In p ((sorted ++ [n]) ++ rev new ++ rest) <-> In p (sorted ++ n :: rest) \/ In p new).
        { rewrite <- app_assoc. simpl. rewrite !in_app_iff. simpl. rewrite in_app_iff, <- in_rev. tauto. }
        rewrite Hmem, Hnew, (i_in _ _ _ I p Hp).
        destruct (in_dec string_dec (pname p) (N ms)) as [i|i].
        -- assert (Hpm : In p ms).
           { apply in_map_iff in i. destruct i as [y [E Hy]]. assert (y = p); [|subst; auto].
             apply unique; auto. apply Hms in Hy. tauto. }
           pose proof (Hmsnew p Hpm) as Hno. rewrite (i_in _ _ _ I p Hp) in Hno. tauto.
        -- assert (Hpm : ~ In p ms) by (intros Cx; apply i; now apply in_map).
           rewrite (Hsame p Hp Hpm). tauto.
      * intros i j p q Hi Hj Hpar.
        assert (Hcl : forall y, In y (sorted ++ n :: rest) -> parent_of n y -> False).
        { intros y Hy Hpy. eapply Hmsnew; [|exact Hy]. apply Hms. split; auto. apply (i_incl _ _ _ I); auto. }
        apply nth_error_snoc in Hi. apply nth_error_snoc in Hj.
        destruct Hj as [[Lj Hj]|[-> ->]].
        -- destruct Hi as [[Li Hi]|[-> ->]]; [eapply (i_order _ _ _ I); eauto|].
           exfalso. apply (Hcl q); auto. apply in_or_app. left. eapply nth_error_In; eauto.
        -- destruct Hi as [[Li Hi]|[-> ->]]; auto.
           exfalso. apply (Hcl n); auto. apply in_or_app. simpl; auto.
    + rewrite app_length. simpl. lia.
Qed.

Lemma inv_start : inv [] (rev (roots_of veq L)) (in_edges_of L).
Proof.
  destruct (in_edges_gen L [] NDL) as [A [B _]]; [auto|].
  constructor.
  - simpl. rewrite map_rev. apply NoDup_rev. unfold roots_of. now apply NoDup_map_filter.
  - simpl. intros p Hp. apply in_rev in Hp. unfold roots_of in Hp. apply filter_In in Hp. tauto.
  - exact A.
  - intros p Hp. unfold in_edges_of. rewrite B by auto. f_equal. unfold left_of. simpl.
    induction (pparents p); simpl; congruence.
  - intros p Hp. simpl. rewrite <- in_rev. unfold roots_of. rewrite filter_In. split; [tauto|].
    intros [H|H]; auto. split; auto. unfold left_of in H. simpl in H.
    assert (E : pparents p = []) by (destruct (pparents p); [auto|discriminate]).
    destruct p as [c n k w l]. simpl in *. now subst.
  - intros i j p q Hi. destruct i; discriminate.
Qed.

Lemma no_cycle : forall sorted, incl L sorted -> parents_first sorted -> ~ cyclic L.
Proof.
  intros sorted Hi Ho [c [Hne [Hc Hp]]].
  assert (G : forall k q i, In q c -> nth_error sorted i = Some q -> i <= k -> False).
  { induction k as [|k IH]; intros q i Hq Hn Hk.
    - destruct (Hp q Hq) as [p [Hpc Hpar]]. destruct (In_nth_error sorted p (Hi p (Hc p Hpc))) as [j Hj].
      pose proof (Ho _ _ _ _ Hj Hn Hpar). lia.
    - destruct (Hp q Hq) as [p [Hpc Hpar]]. destruct (In_nth_error sorted p (Hi p (Hc p Hpc))) as [j Hj].
      pose proof (Ho _ _ _ _ Hj Hn Hpar). apply (IH p j); auto. lia. }
  destruct c as [|q c]; [congruence|]. destruct (In_nth_error sorted q (Hi q (Hc q (or_introl eq_refl)))) as [i Hn].
  apply (G i q i); simpl; auto.
Qed.

Lemma sorted_dec : forall sorted p, incl sorted L -> In p L -> In p sorted \/ ~ In p sorted.
Proof.
  intros sorted p Hi Hp. destruct (in_dec string_dec (pname p) (N sorted)) as [i|i].
  - left. apply in_map_iff in i. destruct i as [y [Ey Hy]]. assert (y = p) by (apply unique; auto). now subst.
  - right. intros C. apply i. now apply in_map.
Qed.

Lemma order_plates_spec : no_gaps L ->
  (cyclic L -> forall b, order_plates veq L b = Err ValueError) /\
  (~ cyclic L -> exists l, order_plates veq L false = Ok l /\ order_plates veq L true = Ok (rev l) /\
                           Permutation l L /\ parents_first l).
Proof.
  intros Hg. destruct (kahn_spec (order_fuel L) (rev (roots_of veq L)) [] (in_edges_of L) inv_start) as [sorted [ins [E I]]].
  { unfold order_fuel. simpl. lia. }
  unfold order_plates. rewrite E. cbn [bind].
  pose proof (i_nodup _ _ _ I) as ND. rewrite app_nil_r in ND.
  pose proof (i_incl _ _ _ I) as HI. rewrite app_nil_r in HI.
  assert (Hdone : forall p, In p L -> ~ In p sorted -> exists q, In q L /\ ~ In q sorted /\ parent_of q p).
  { intros p Hp Hn. pose proof (i_in _ _ _ I p Hp) as Hin. rewrite app_nil_r in Hin.
    destruct (Hg p Hp) as [Hpar|Hroot].
    - assert (Hl : left_of sorted p <> []) by (intros C; apply Hn; apply Hin; auto).
      destruct (left_of sorted p) as [|q r] eqn:El; [congruence|].
      assert (Hq : In q (left_of sorted p)) by (rewrite El; simpl; auto). unfold left_of in Hq. apply filter_In in Hq.
      destruct Hq as [Hq Hqs]. apply negb_true_iff in Hqs. apply mems_notIn in Hqs.
      specialize (Hpar q Hq). apply in_map_iff in Hpar. destruct Hpar as [q' [Eq Hq']]. exists q'. split; auto. split.
      + intros C. apply Hqs. rewrite <- Eq. now apply in_map.
      + unfold parent_of. rewrite Eq. now apply in_map.
    - exfalso. apply Hn. apply Hin. left. apply isroot_spec. intros a Ha.
      rewrite pin_iff by (right; eauto). apply mems_notIn. auto. }
  assert (Hcheck : existsb (fun kv => existsb (fun p => pin veq p L) (snd kv)) ins = true <->
                   exists p q, In p L /\ In q (left_of sorted p) /\ In (pname q) (N L)).
  { rewrite existsb_exists. split.
    - intros [[k v] [Hin H]]. simpl in H. apply existsb_exists in H. destruct H as [q [Hq Hpin]].
      assert (Hk : In k (N L)) by (rewrite <- (i_keys _ _ _ I); change k with (fst (k, v)); now apply in_map).
      apply in_map_iff in Hk. destruct Hk as [p [<- Hp]]. exists p, q.
      apply dget_entry in Hin; [|rewrite (i_keys _ _ _ I); auto]. rewrite (i_ins _ _ _ I p Hp) in Hin. injection Hin as <-.
      split; auto. split; auto. unfold left_of in Hq. apply filter_In in Hq. destruct Hq as [Hq _].
      rewrite pin_iff in Hpin by (eapply anc_parent; eauto). now apply mems_In.
    - intros [p [q [Hp [Hq HL]]]].
      assert (Hin : In (pname p, left_of sorted p) ins).
      { assert (Hd := i_ins _ _ _ I p Hp). clear -Hd. induction ins as [|[k v] d IH]; simpl in *; [discriminate|].
        destruct (String.eqb_spec (pname p) k); [left; congruence|auto]. }
      exists (pname p, left_of sorted p). split; auto. simpl. apply existsb_exists. exists q. split; auto.
      unfold left_of in Hq. apply filter_In in Hq. destruct Hq as [Hq _].
      rewrite pin_iff by (eapply anc_parent; eauto). now apply mems_In. }
  (* either everything was sorted, or the rest is a cycle *)
  assert (Hall : incl L sorted \/ exists p, In p L /\ ~ In p sorted).
  { assert (G : forall l, incl l L -> incl l sorted \/ exists p, In p L /\ ~ In p sorted).
    { induction l as [|p l IH]; intros Hl; [left; intros x []|].
      destruct IH as [A|A]; [intros x Hx; apply Hl; simpl; auto| |auto].
      destruct (sorted_dec sorted p HI (Hl p (or_introl eq_refl))) as [B|B].
      - left. intros x [<-|Hx]; auto.
      - right. exists p. split; auto. apply Hl. simpl; auto. }
    apply G. apply incl_refl. }
  destruct Hall as [Hall|[p [Hp Hnp]]].
  - assert (Hnc : ~ cyclic L) by (eapply no_cycle; eauto; apply (i_order _ _ _ I)).
    split; [tauto|]. intros _.
    destruct (existsb (fun kv => existsb (fun p => pin veq p L) (snd kv)) ins) eqn:Ec.
    { exfalso. destruct (proj1 Hcheck eq_refl) as [p [q [Hp [Hq HqL]]]].
      unfold left_of in Hq. apply filter_In in Hq. destruct Hq as [Hq Hn]. apply negb_true_iff in Hn. apply mems_notIn in Hn.
      apply in_map_iff in HqL. destruct HqL as [y [Ey Hy]]. apply Hn. rewrite <- Ey. apply in_map. auto. }
    exists sorted. split; auto. split; auto. split; [|apply (i_order _ _ _ I)].
    apply NoDup_Permutation.
    + eapply NoDup_map_inv; eauto.
    + eapply NoDup_map_inv; eauto.
    + intros x. split; auto.
  - assert (Hcyc : cyclic L).
    { exists (filter (fun p => negb (mems (pname p) (N sorted))) L). 
      assert (M : forall x, In x (filter (fun p => negb (mems (pname p) (N sorted))) L) <-> In x L /\ ~ In x sorted).
      { intros x. rewrite filter_In, negb_true_iff, mems_notIn. split; intros [A B]; split; auto; intros C; apply B.
        - now apply in_map.
        - apply in_map_iff in C. destruct C as [y [Ey Hy]]. assert (y = x) by (apply unique; auto). now subst. }
      split; [|split].
      - intros C. assert (H : In p []) by (rewrite <- C; apply M; auto). destruct H.
      - intros x Hx. apply M in Hx. tauto.
      - intros q Hq. apply M in Hq. destruct (Hdone q) as [r [H1 [H2 H3]]]; try tauto. exists r. split; auto. now apply M. }
    split; [|tauto]. intros _ b.
    replace (existsb (fun kv => existsb (fun p => pin veq p L) (snd kv)) ins) with true; auto.
    symmetry. apply Hcheck. destruct (Hdone p Hp Hnp) as [q [H1 [H2 H3]]].
    unfold parent_of in H3. apply in_map_iff in H3. destruct H3 as [q' [E' Hq']]. exists p, q'. split; auto. split.
    + unfold left_of. apply filter_In. split; auto. apply negb_true_iff. apply mems_notIn. rewrite E'. intros C.
      apply in_map_iff in C. destruct C as [y [Ey Hy]]. assert (y = q) by (apply unique; auto). now subst.
    + rewrite E'. now apply in_map.
Qed.

End OrderProofs.
