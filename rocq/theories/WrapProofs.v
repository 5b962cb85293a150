(** Proofs about the constructor and the deterministic wrapper. *)
From Coq Require Import String List Arith Bool Lia Permutation.
From Verif Require Import Base Torch Plates Wrap ListLemmas SpecTensor.
Import ListNotations.

#[local] Arguments skipn {A} !n !l : simpl nomatch.
#[local] Arguments firstn {A} !n !l : simpl nomatch.

Section WrapProofs.
Context {V : Type}.
Variable veq : V -> V -> bool.
Notation plate := (plate V).
Notation stensor := (stensor V).

(** * Constructor *)

Definition nonone (l : list plate) : list plate := filter (fun p => negb (pn p =? 1)) l.

Lemma existsb_In : forall x l, existsb (String.eqb x) l = true <-> In x l.
Proof.
  intros. rewrite existsb_exists. split.
  - intros [y [H E]]. apply String.eqb_eq in E. now subst.
  - intros H. exists x. split; auto. apply String.eqb_refl.
Qed.

Lemma existsb_notIn : forall x l, existsb (String.eqb x) l = false <-> ~ In x l.
Proof. intros. rewrite <- existsb_In. destruct (existsb _ _); split; congruence. Qed.

Lemma skipn_nth : forall {A} (l : list A) k x, nth_error l k = Some x -> skipn k l = x :: skipn (S k) l.
Proof.
  induction l; destruct k; intros x H; try discriminate.
  - injection H as <-. reflexivity.
  - exact (IHl k x H).
Qed.

Lemma check_plates_ok : forall shp (plates : list plate) names bd n,
  check_plates shp plates names bd = Ok n <->
  (NoDup (map pname plates) /\ (forall p, In p plates -> ~ In (pname p) names) /\
   n = bd + length (nonone plates) /\
   exists ev, skipn bd shp = map pn (nonone plates) ++ ev).
Proof.
  intros shp plates; induction plates as [|p r IH]; simpl; intros names bd n.
  - split.
    + intros H; injection H as <-. repeat split; auto using NoDup_nil. eauto.
    + intros [_ [_ [-> _]]]. f_equal; lia.
  - destruct (existsb (String.eqb (pname p)) names) eqn:E.
    + apply existsb_In in E. split; [discriminate|]. intros [_ [H _]]. exfalso. apply (H p); auto.
    + apply existsb_notIn in E. unfold nonone; simpl. fold (nonone r).
      destruct (pn p =? 1) eqn:E1; simpl.
      * rewrite IH. split.
        -- intros [ND [HN [-> HE]]]. repeat split; auto.
           ++ constructor; auto. rewrite in_map_iff. intros [q [Eq Iq]]. apply (HN q Iq). simpl; auto.
           ++ intros q [<-|Iq]; auto. intros C. apply (HN q Iq). simpl; auto.
        -- intros [ND [HN [-> HE]]]. inversion ND; subst. repeat split; auto.
           intros q Iq [C|C]; [|apply (HN q); auto]. apply H1. rewrite C. now apply in_map.
      * destruct (nth_error shp bd) as [d|] eqn:En.
        -- rewrite (skipn_nth _ _ _ En).
           destruct (d =? pn p) eqn:Ed; simpl.
           ++ apply Nat.eqb_eq in Ed. rewrite IH. split.
              ** intros [ND [HN [-> [ev HE]]]]. repeat split; auto.
                 --- constructor; auto. rewrite in_map_iff. intros [q [Eq Iq]]. apply (HN q Iq). simpl; auto.
                 --- intros q [<-|Iq]; auto. intros C. apply (HN q Iq). simpl; auto.
                 --- lia.
                 --- exists ev. rewrite HE. subst. reflexivity.
              ** intros [ND [HN [-> [ev HE]]]]. inversion ND; subst. injection HE as HE. repeat split; auto.
                 --- intros q Iq [C|C]; [|apply (HN q); auto]. apply H1. rewrite C. now apply in_map.
                 --- lia.
                 --- eauto.
           ++ apply Nat.eqb_neq in Ed. split; [discriminate|]. intros [_ [_ [_ [ev HE]]]]. injection HE; congruence.
        -- split; [discriminate|]. intros [_ [_ [_ [ev HE]]]]. apply nth_error_None in En.
           rewrite skipn_all2 in HE by lia. discriminate.
Qed.

Lemma check_plates_err : forall shp (plates : list plate) names bd e,
  check_plates shp plates names bd = Err e -> e = ValueError.
Proof.
  intros shp plates; induction plates as [|p r IH]; simpl; intros names bd e H; [discriminate|].
  destruct (existsb _ _); [congruence|]. destruct (pn p =? 1); [eauto|].
  destruct (nth_error shp bd); [|congruence]. destruct (negb _); [congruence|eauto].
Qed.

Lemma mk_tensor_iff : forall id (t : ten V) par (plates : list plate) stoch,
  (exists a, mk_tensor id t par plates stoch = Ok a) <->
  NoDup (map pname plates) /\ exists ev, shape t = map pn (nonone plates) ++ ev.
Proof.
  intros. unfold mk_tensor. split.
  - intros [a H]. destruct (check_plates (shape t) plates [] 0) eqn:E; [|discriminate].
    apply check_plates_ok in E. destruct E as [ND [_ [_ HE]]]. auto.
  - intros [ND HE]. assert (E : check_plates (shape t) plates [] 0 = Ok (0 + length (nonone plates))).
    { apply check_plates_ok. repeat split; auto. }
    rewrite E. simpl. eauto.
Qed.

Lemma mk_tensor_fields : forall id (t : ten V) par (plates : list plate) stoch a,
  mk_tensor id t par plates stoch = Ok a ->
  sid a = id /\ st a = t /\ splates a = plates /\ sparents a = par /\ s_stochastic a = stoch /\
  s_plate_dims a = length (nonone plates) /\ shape t = map pn (nonone plates) ++ s_event_shape a.
Proof.
  intros id t par plates stoch a H. unfold mk_tensor in H.
  destruct (check_plates (shape t) plates [] 0) eqn:E; [|discriminate]. simpl in H. injection H as <-. simpl.
  apply check_plates_ok in E. destruct E as [ND [_ [-> [ev HE]]]]. simpl in *. repeat split; auto.
  rewrite HE at 2. rewrite HE at 1. f_equal.
  replace (length (nonone plates)) with (length (map (@pn V) (nonone plates))) by apply map_length.
  rewrite skipn_app_exact. reflexivity.
Qed.

Lemma mk_tensor_err : forall id (t : ten V) par (plates : list plate) stoch e,
  mk_tensor id t par plates stoch = Err e -> e = ValueError.
Proof.
  intros id t par plates stoch e H. unfold mk_tensor in H.
  destruct (check_plates (shape t) plates [] 0) eqn:E; [discriminate|]. simpl in H.
  apply check_plates_err in E. congruence.
Qed.

Lemma nonone_wide : forall l : list plate, (forall p, In p l -> 1 <= pn p) -> nonone l = wide l.
Proof.
  intros l H. unfold nonone, wide. apply filter_ext_in. intros p Hp. specialize (H p Hp).
  destruct (Nat.eqb_spec (pn p) 1); destruct (Nat.ltb_spec 1 (pn p)); simpl; auto; lia.
Qed.

Lemma mk_tensor_wf : forall id (t : ten V) par (plates : list plate) stoch a,
  (forall p, In p plates -> 1 <= pn p) ->
  mk_tensor id t par plates stoch = Ok a -> wf a.
Proof.
  intros id t par plates stoch a Hpos H.
  pose proof (mk_tensor_fields _ _ _ _ _ _ H) as [H1 [H2 [H3 [H4 [H5 [H6 H7]]]]]].
  assert (ND : NoDup (map pname plates)) by (apply (mk_tensor_iff id t par plates stoch); eauto).
  rewrite nonone_wide in * by auto.
  constructor; rewrite ?H3, ?H2; auto.
Qed.

(** * Names instead of plate comparison *)

Lemma plate_eq_base_name : forall p q : plate, plate_eq_base veq p q = true -> pname p = pname q.
Proof. unfold plate_eq_base. intros p q. destruct (String.eqb_spec (pname p) (pname q)); simpl; auto; discriminate. Qed.

Lemma peq_name : forall p q : plate, peq veq p q = true -> pname p = pname q.
Proof.
  unfold peq, anc_eq. intros p q. destruct (pcls p) eqn:Ep, (pcls q) eqn:Eq; try discriminate.
  - apply plate_eq_base_name.
  - destruct (ov || ov0).
    + intros H. apply String.eqb_eq in H. auto.
    + intros H. apply andb_prop in H. now apply plate_eq_base_name.
Qed.

Definition mem (x : string) (l : list string) : bool := existsb (String.eqb x) l.

Lemma pin_mem : forall L (p : plate) l, agree veq L -> In p L -> incl l L ->
  pin veq p l = mem (pname p) (map pname l).
Proof.
  intros L p l HA Hp Hl. unfold pin, inb, mem. induction l as [|q r IH]; simpl; auto.
  rewrite IH by (intros x Hx; apply Hl; simpl; auto). f_equal.
  assert (Hq : In q L) by (apply Hl; simpl; auto).
  destruct (String.eqb_spec (pname p) (pname q)).
  - apply HA; auto.
  - destruct (peq veq q p) eqn:E; auto. apply peq_name in E. congruence.
Qed.

Lemma peq_names : forall L (p q : plate), agree veq L -> In p L -> In q L ->
  peq veq p q = String.eqb (pname p) (pname q).
Proof.
  intros L p q HA Hp Hq. destruct (String.eqb_spec (pname p) (pname q)).
  - apply HA; auto.
  - destruct (peq veq p q) eqn:E; auto. apply peq_name in E. congruence.
Qed.

Lemma pindex_name : forall (p : plate) l j, pindex veq p l = Some j -> nth_error (map pname l) j = Some (pname p).
Proof.
  intros p l j H. apply indexb_some in H. destruct H as [y [Hn He]]. apply peq_name in He.
  rewrite nth_error_map, Hn. simpl. congruence.
Qed.

(** * The alignment loop *)

Lemma mem_In : forall x l, mem x l = true <-> In x l.
Proof. intros; apply existsb_In. Qed.
Lemma mem_notIn : forall x l, mem x l = false <-> ~ In x l.
Proof. intros; apply existsb_notIn. Qed.

Lemma nth_error_firstn_lt : forall {A} (l : list A) k i, i < k -> nth_error (firstn k l) i = nth_error l i.
Proof. induction l; destruct k, i; intros; simpl; auto; try lia. apply IHl; lia. Qed.

Lemma firstn_swapl : forall {A} k j (l : list A), k <= j -> j < length l -> firstn k (swapl k j l) = firstn k l.
Proof.
  intros A k j l Hk Hj. apply nth_error_ext. intros i.
  destruct (Nat.lt_ge_cases i k).
  - rewrite !nth_error_firstn_lt by auto. rewrite nth_error_swapl by lia.
    destruct (Nat.eqb_spec i j); [lia|]. destruct (Nat.eqb_spec i k); [lia|]. auto.
  - rewrite !(proj2 (nth_error_None _ _)); auto; rewrite firstn_length; lia.
Qed.

Notation N l := (map (@pname V) l).

Lemma nth_split_first : forall {A} (l : list A) k x, nth_error l k = Some x -> firstn (S k) l = firstn k l ++ [x].
Proof.
  induction l; destruct k; intros x H; try discriminate.
  - injection H as <-. reflexivity.
  - change (firstn (S (S k)) (a :: l)) with (a :: firstn (S k) l). rewrite (IHl _ _ H). reflexivity.
Qed.

Lemma In_firstn_or_skipn : forall {A} (l : list A) k x, In x l <-> In x (firstn k l) \/ In x (skipn k l).
Proof. intros A l k x. rewrite <- (firstn_skipn k l) at 1. apply in_app_iff. Qed.

Lemma NoDup_firstn_skipn : forall {A} (l : list A) k x, NoDup l -> In x (firstn k l) -> In x (skipn k l) -> False.
Proof.
  intros A l k x H H1 H2. rewrite <- (firstn_skipn k l) in H. revert H H1 H2.
  generalize (firstn k l) (skipn k l). induction l0; simpl; intros m H H1 H2; [tauto|]. inversion H; subst.
  destruct H1 as [<-|H1]; eauto. apply H4. apply in_app_iff; auto.
Qed.

Lemma nth_In_firstn : forall {A} (l : list A) k j x, nth_error l j = Some x -> j < k -> In x (firstn k l).
Proof. intros. eapply nth_error_In. rewrite nth_error_firstn_lt by eassumption. eassumption. Qed.

Lemma align_loop_spec : forall L r k links t,
  agree veq L -> incl r L -> incl links L ->
  NoDup (N r) -> NoDup (N links) -> k <= length links ->
  (forall x, In x (N r) -> ~ In x (firstn k (N links))) ->
  (forall x, In x (skipn k (N links)) -> In x (N r)) ->
  length links <= ndim t ->
  exists t', align_loop veq r k links t = Ok t' /\
    (forall (f : string -> nat) ev, shape t = map f (N links) ++ ev ->
       shape t' = map f (firstn k (N links) ++ filter (fun x => mem x (N links)) (N r)) ++ ev) /\
    (forall (s : string -> nat) e,
       el t' (map s (firstn k (N links) ++ filter (fun x => mem x (N links)) (N r)) ++ e)
       = el t (map s (N links) ++ e)).
Proof.
  intros L r. induction r as [|p r IH]; intros k links t HA Hr Hl NDr NDl Hk Hfresh Hcover Hdim; simpl.
  - exists t. split; auto.
    assert (E : firstn k (N links) = N links).
    { pose proof (firstn_skipn k (N links)) as E0.
      destruct (skipn k (N links)) as [|x m] eqn:Es; [now rewrite app_nil_r in E0|].
      exfalso. apply (Hcover x). simpl; auto. }
    rewrite E, app_nil_r. auto.
  - assert (Hp : In p L) by (apply Hr; simpl; auto).
    assert (Hr' : incl r L) by (intros x Hx; apply Hr; simpl; auto).
    inversion NDr as [|? ? Hpr NDr']; subst.
    rewrite (pin_mem L) by auto.
    destruct (mem (pname p) (N links)) eqn:M.
    + apply mem_In in M.
      assert (Hnf : ~ In (pname p) (firstn k (N links))) by (apply Hfresh; simpl; auto).
      assert (Hs : In (pname p) (skipn k (N links))).
      { apply (In_firstn_or_skipn _ k) in M. tauto. }
      assert (Hklt : k < length links).
      { destruct (Nat.eq_dec k (length links)); [|lia]. subst k.
        rewrite <- (map_length pname links) in Hs. rewrite skipn_all in Hs. destruct Hs. }
      destruct (nth_error_lt links k Hklt) as [q Hq]. rewrite Hq.
      assert (HqN : nth_error (N links) k = Some (pname q)) by now rewrite nth_error_map, Hq.
      assert (HqL : In q L) by (apply Hl; eapply nth_error_In; eauto).
      rewrite (peq_names L) by auto.
      destruct (String.eqb_spec (pname p) (pname q)) as [Epq|Npq].
      * rewrite <- Epq in HqN.
        assert (F : firstn (S k) (N links) = firstn k (N links) ++ [pname p]) by now apply nth_split_first.
        destruct (IH (S k) links t HA Hr' Hl NDr' NDl) as [t' [Ht' [HS HE]]]; auto.
        -- intros x Hx C. rewrite F in C. apply in_app_iff in C. destruct C as [C|[C|[]]].
           ++ apply (Hfresh x); simpl; auto.
           ++ subst. auto.
        -- intros x Hx. assert (Hx' : In x (skipn k (N links))).
           { rewrite (skipn_nth _ _ _ HqN). simpl; auto. }
           apply Hcover in Hx'. simpl in Hx'. destruct Hx' as [<-|]; auto. exfalso.
           apply (NoDup_firstn_skipn (N links) (S k) (pname p)); auto. rewrite F. apply in_app_iff; simpl; auto.
        -- exists t'. rewrite F in HS, HE. repeat rewrite <- app_assoc in HS. repeat rewrite <- app_assoc in HE.
           simpl in HS, HE. auto.
      * assert (Pin : pin veq p links = true) by (rewrite (pin_mem L) by auto; now apply mem_In).
        unfold pin in Pin. destruct (indexb_inb _ _ _ Pin) as [j Hj].
        unfold pindex. rewrite Hj.
        assert (HjN : nth_error (N links) j = Some (pname p)) by (apply pindex_name; exact Hj).
        assert (Hjl : j < length links).
        { rewrite <- (map_length pname). apply nth_error_Some. congruence. }
        assert (Hjk : k < j).
        { destruct (Nat.lt_trichotomy j k) as [C|[C|C]]; auto.
          - exfalso. apply Hnf. eapply nth_In_firstn; eauto.
          - subst. congruence. }
        unfold transpose. destruct (Nat.ltb_spec j (ndim t)); [|lia]. destruct (Nat.ltb_spec k (ndim t)); [|lia].
        simpl.
        set (t1 := mkten (swapl j k (shape t)) (fun idx => el t (swapl j k idx))).
        set (links' := swapl k j links).
        assert (PN : Permutation (N links') (N links)) by (apply Permutation_map, swapl_perm).
        assert (EN : N links' = swapl k j (N links)) by apply map_swapl.
        assert (LN : length (N links) = length links) by apply map_length.
        assert (Fk : firstn k (N links') = firstn k (N links)).
        { rewrite EN. apply firstn_swapl; lia. }
        assert (NDl' : NoDup (N links')) by (eapply Permutation_NoDup; [symmetry; exact PN|auto]).
        assert (HkN : nth_error (N links') k = Some (pname p)).
        { rewrite EN, nth_error_swapl by lia. destruct (Nat.eqb_spec k j); [lia|]. rewrite Nat.eqb_refl. exact HjN. }
        assert (F : firstn (S k) (N links') = firstn k (N links) ++ [pname p]).
        { rewrite (nth_split_first _ _ _ HkN). now rewrite Fk. }
        assert (Lmem : forall x, mem x (N links') = mem x (N links)).
        { intros x. destruct (mem x (N links)) eqn:E.
          - apply mem_In. apply mem_In in E. eapply Permutation_in; [symmetry; exact PN|auto].
          - apply mem_notIn. apply mem_notIn in E. intros C. apply E. eapply Permutation_in; eauto. }
        destruct (IH (S k) links' t1 HA Hr') as [t' [Ht' [HS HE]]]; auto.
        -- intros x Hx. apply Hl. eapply Permutation_in; [apply swapl_perm|exact Hx].
        -- unfold links'. rewrite swapl_length. lia.
        -- intros x Hx C. rewrite F in C. apply in_app_iff in C. destruct C as [C|[C|[]]].
           ++ apply (Hfresh x); simpl; auto.
           ++ subst. auto.
        -- intros x Hx.
           assert (NF : ~ In x (firstn (S k) (N links'))) by (intros C; eapply (NoDup_firstn_skipn (N links')); eauto).
           rewrite F in NF. rewrite in_app_iff in NF. simpl in NF.
           assert (Hx' : In x (N links)).
           { eapply Permutation_in; [exact PN|]. apply (In_firstn_or_skipn _ (S k)); auto. }
           apply (In_firstn_or_skipn _ k) in Hx'. destruct Hx' as [Hx'|Hx']; [tauto|].
           apply Hcover in Hx'. simpl in Hx'. destruct Hx' as [<-|]; auto. exfalso. tauto.
        -- unfold links', ndim, t1. simpl. rewrite !swapl_length. exact Hdim.
        -- assert (Efil : filter (fun x => mem x (N links')) (N r) = filter (fun x => mem x (N links)) (N r)).
           { apply filter_ext. auto. }
           rewrite F, Efil in HS, HE. repeat rewrite <- app_assoc in HS. repeat rewrite <- app_assoc in HE.
           simpl in HS, HE.
           exists t'. split; auto. split.
           ++ intros f ev Hsh. rewrite (HS f ev); [repeat (rewrite !map_app; simpl); now rewrite <- !app_assoc|].
              rewrite Hsh. rewrite swapl_app_l by (rewrite !map_length; lia). f_equal.
              rewrite EN. rewrite map_swapl. apply swapl_comm; rewrite !map_length; lia.
           ++ intros s e. specialize (HE s e).
              replace (firstn k (N links) ++ pname p :: filter (fun x => mem x (N links)) (N r)) with
                (firstn k (N links) ++ pname p :: filter (fun x => mem x (N links)) (N r)) by auto.
              rewrite HE. f_equal. rewrite swapl_app_l by (rewrite !map_length; unfold links'; rewrite ?swapl_length; lia).
              f_equal. rewrite EN, map_swapl. rewrite (swapl_comm k j) by (rewrite !map_length; lia).
              apply swapl_invol; rewrite !map_length; lia.
    + destruct (IH k links t HA Hr' Hl NDr' NDl) as [t' [Ht' [HS HE]]]; auto.
      * intros x Hx. apply Hfresh. simpl; auto.
      * intros x Hx. specialize (Hcover x Hx). simpl in Hcover. destruct Hcover as [<-|]; auto.
        exfalso. apply mem_notIn in M. apply M. apply (In_firstn_or_skipn _ k); auto.
      * exists t'. auto.
Qed.
End WrapProofs.
