(** The model of torch.Tensor.__getitem__ indexes as documented. *)
From Coq Require Import String List Arith Bool ZArith Lia.
From Verif Require Import Base Torch Plates Wrap TensorFns SpecTensor SpecWrap SpecReduce SpecSample ListLemmas IndexLemmas WrapProofs CallV GetitemProofs SpecIndex.
Import ListNotations.
Open Scope nat_scope.
Open Scope list_scope.

Definition no_dots (l : list idx_item) : Prop := forall x, In x l -> is_ellipsis x = false.

Lemma indexed_range : forall lo hi m n, (forall k, lo <= k -> (k < lo + m <-> k < hi /\ k < n)) -> m = Nat.min hi n - Nat.min lo n.
Proof.
  intros lo hi m n H. pose proof (H (lo + m) ltac:(lia)) as H1. destruct m as [|m]; [lia|]. pose proof (H (lo + m) ltac:(lia)). lia.
Qed.
Lemma indexed_no_dots : forall l shp s, indexed true l shp s -> no_dots l /\ consumed l = length shp.
Proof.
  intros l shp s H. remember true as b eqn:Eb. induction H; try discriminate; subst; try (destruct (IHindexed eq_refl) as [I1 I2]).
  - split; [intros x []|reflexivity].
  - split; [intros x [<-|Hx]; auto|exact I2].
  - split; [intros x [<-|Hx]; auto|]. unfold consumed in *. cbn [filter consumes length]. now rewrite I2.
  - split; [intros x [<-|Hx]; auto|]. unfold consumed in *. cbn [filter consumes length]. now rewrite I2.
  - split; [intros x [<-|Hx]; auto|]. unfold consumed in *. cbn [filter consumes length]. now rewrite I2.
Qed.
Lemma fill_no_dots : forall k l, no_dots l -> fill_ellipsis k l = l.
Proof.
  intros k l. induction l as [|x l IH]; intros H; auto. pose proof (H x ltac:(simpl; auto)) as Hx. destruct x; try discriminate; cbn [fill_ellipsis]; rewrite IH; auto; intros y Hy; apply H; simpl; auto.
Qed.

(** Without "...". *)
Lemma index_dims_spec : forall b l shp s, indexed b l shp s -> no_dots l ->
  exists g, index_dims l shp = Ok (s, g) /\ forall e, valid e s -> picks b l shp e (g e).
Proof.
  intros b l shp s H. induction H; intros ND; try (destruct (IHindexed ltac:(intros y Hy; apply ND; simpl; auto)) as [g [E G]]).
  - exists (fun i => i). split; [reflexivity|]. intros e He. now constructor.
  - exists (fun i => i). split; [reflexivity|]. intros e He. inversion He; subst. constructor.
  - cbn [index_dims]. rewrite E. cbn [bind]. eexists. split; [reflexivity|]. intros e He. inversion He as [|x ? e' ? Hx He']; subst. cbn [tl]. replace x with 0 by lia. constructor. auto.
  - cbn [index_dims]. destruct H as [Hk Hz]. cbv zeta.
    assert (Ez : (if (z <? 0)%Z then (z + Z.of_nat n)%Z else z) = Z.of_nat k).
    { destruct (Z.ltb_spec z 0); lia. }
    rewrite Ez. destruct (Z.leb_spec 0 (Z.of_nat k)); [|lia]. destruct (Z.ltb_spec (Z.of_nat k) (Z.of_nat n)); [|lia]. cbn [andb]. rewrite E. cbn [bind].
    eexists. split; [reflexivity|]. intros e He. rewrite Nat2Z.id. constructor; [split; auto|]. auto.
  - cbn [index_dims]. rewrite E. cbn [bind]. eexists. split; [reflexivity|]. intros e He. inversion He as [|x ? e' ? Hx He']; subst. cbn [hd tl]. constructor; auto.
  - cbn [index_dims]. rewrite E. cbn [bind]. pose proof (indexed_range _ _ _ _ H) as ->. eexists. split; [reflexivity|].
    intros e He. inversion He as [|x ? e' ? Hx He']; subst. cbn [hd tl]. replace (Nat.min lo n) with lo by lia. constructor; auto; lia.
  - specialize (ND IEllipsis ltac:(simpl; auto)). discriminate.
Qed.
(** The front of an index, with its "...". *)
Lemma index_fill : forall l shp s, indexed false l shp s -> consumed l <= length shp /\
  exists g, index_dims (fill_ellipsis (length shp - consumed l) l) shp = Ok (s, g) /\ forall e, valid e s -> picks false l shp e (g e).
Proof.
  intros l shp s H. remember false as b eqn:Eb. induction H; try discriminate; subst; try (destruct (IHindexed eq_refl) as [Hc [g [E G]]]).
  - split; [unfold consumed; simpl; lia|]. exists (fun i => i). split; [reflexivity|]. intros e He. now constructor.
  - split; [exact Hc|]. change (consumed (INone :: r)) with (consumed r). cbn [fill_ellipsis index_dims]. rewrite E. cbn [bind]. eexists. split; [reflexivity|].
    intros e He. inversion He as [|x ? e' ? Hx He']; subst. cbn [tl]. replace x with 0 by lia. constructor. auto.
  - change (consumed (IInt z :: r)) with (S (consumed r)). cbn [length]. split; [lia|]. replace (S (length shp) - S (consumed r)) with (length shp - consumed r) by lia.
    cbn [fill_ellipsis index_dims]. destruct H as [Hk Hz]. cbv zeta.
    assert (Ez : (if (z <? 0)%Z then (z + Z.of_nat n)%Z else z) = Z.of_nat k).
    { destruct (Z.ltb_spec z 0); lia. }
    rewrite Ez. destruct (Z.leb_spec 0 (Z.of_nat k)); [|lia]. destruct (Z.ltb_spec (Z.of_nat k) (Z.of_nat n)); [|lia]. cbn [andb]. rewrite E. cbn [bind].
    eexists. split; [reflexivity|]. intros e He. rewrite Nat2Z.id. constructor; [split; auto|]. auto.
  - change (consumed (IAll :: r)) with (S (consumed r)). cbn [length]. split; [lia|]. replace (S (length shp) - S (consumed r)) with (length shp - consumed r) by lia.
    cbn [fill_ellipsis index_dims]. rewrite E. cbn [bind]. eexists. split; [reflexivity|]. intros e He. inversion He as [|x ? e' ? Hx He']; subst. cbn [hd tl]. constructor; auto.
  - change (consumed (IRange lo hi :: r)) with (S (consumed r)). cbn [length]. split; [lia|]. replace (S (length shp) - S (consumed r)) with (length shp - consumed r) by lia.
    cbn [fill_ellipsis index_dims]. rewrite E. cbn [bind]. pose proof (indexed_range _ _ _ _ H) as ->. eexists. split; [reflexivity|].
    intros e He. inversion He as [|x ? e' ? Hx He']; subst. cbn [hd tl]. replace (Nat.min lo n) with lo by lia. constructor; auto; lia.
  - clear IHindexed. destruct (indexed_no_dots _ _ _ H) as [ND Hc]. change (consumed (IEllipsis :: r)) with (consumed r). rewrite app_length. split; [lia|].
    cbn [fill_ellipsis]. replace (length q + length shp - consumed r) with (length q) by lia.
    destruct (index_dims_spec _ _ _ _ H ND) as [g [E G]]. pose proof (index_front (length q) q r shp eq_refl) as I. rewrite E in I. destruct I as [g' [E' G']].
    exists g'. split; [exact E'|]. intros e He. unfold valid in He. apply Forall2_app_inv_r in He. destruct He as [x [e' [Hx [He' ->]]]].
    rewrite G' by exact (valid_length _ _ Hx). constructor; [exact Hx|]. now apply G.
Qed.
(** Anything else raises. *)
Lemma index_dims_complete : forall l shp s g, index_dims l shp = Ok (s, g) -> no_dots l /\ consumed l <= length shp /\ indexed false l shp s /\ (consumed l = length shp -> indexed true l shp s).
Proof.
  induction l as [|x l IH]; intros shp s g H.
  - cbn in H. injection H as <- <-. split; [intros x []|]. split; [unfold consumed; simpl; lia|]. split; [constructor|]. intros E. destruct shp; [constructor|discriminate].
  - destruct x; cbn [index_dims] in H; try discriminate.
    + destruct shp as [|n shp]; [discriminate|]. cbv zeta in H. set (k := if (i <? 0)%Z then (i + Z.of_nat n)%Z else i) in H. destruct (_ && _)%bool eqn:B; [|discriminate].
      destruct (index_dims l shp) as [[s' g']|e] eqn:E; [|discriminate]. cbn [bind] in H. injection H as <- <-. destruct (IH _ _ _ E) as [I1 [I2 [I3 I4]]].
      apply andb_prop in B. destruct B as [B1 B2]. apply Z.leb_le in B1. apply Z.ltb_lt in B2.
      assert (NP : names_place i n (Z.to_nat k)) by (unfold k in *; split; destruct (Z.ltb_spec i 0); lia).
      change (consumed (IInt i :: l)) with (S (consumed l)). cbn [length].
      split; [intros y [<-|Hy]; auto|]. split; [lia|]. split; [econstructor; eauto|]. intros Ec. econstructor; eauto.
    + destruct shp as [|n shp]; [discriminate|]. destruct (index_dims l shp) as [[s' g']|e] eqn:E; [|discriminate]. cbn [bind] in H. injection H as <- <-. destruct (IH _ _ _ E) as [I1 [I2 [I3 I4]]].
      change (consumed (IAll :: l)) with (S (consumed l)). cbn [length].
      split; [intros y [<-|Hy]; auto|]. split; [lia|]. split; [constructor; auto|]. intros Ec. constructor; auto.
    + destruct shp as [|n shp]; [discriminate|]. destruct (index_dims l shp) as [[s' g']|e] eqn:E; [|discriminate]. cbn [bind] in H. injection H as <- <-. destruct (IH _ _ _ E) as [I1 [I2 [I3 I4]]].
      change (consumed (IRange lo hi :: l)) with (S (consumed l)). cbn [length].
      split; [intros y [<-|Hy]; auto|]. split; [lia|]. split; [constructor; auto; intros; lia|]. intros Ec. constructor; auto. intros; lia.
    + destruct (index_dims l shp) as [[s' g']|e] eqn:E; [|discriminate]. cbn [bind] in H. injection H as <- <-. destruct (IH _ _ _ E) as [I1 [I2 [I3 I4]]].
      change (consumed (INone :: l)) with (consumed l). split; [intros y [<-|Hy]; auto|]. split; [lia|]. split; [constructor; auto|]. intros Ec. constructor; auto.
Qed.
Lemma dims_front : forall k l shp s g, index_dims (repeat IAll k ++ l) shp = Ok (s, g) -> exists q r s' g', length q = k /\ shp = q ++ r /\ s = q ++ s' /\ index_dims l r = Ok (s', g').
Proof.
  induction k as [|k IH]; intros l shp s g H; cbn [repeat app] in H.
  - exists [], shp, s, g. auto.
  - cbn [index_dims] in H. destruct shp as [|n shp]; [discriminate|]. destruct (index_dims (repeat IAll k ++ l) shp) as [[s' g']|e] eqn:E; [|discriminate]. cbn [bind] in H. injection H as <- <-.
    destruct (IH _ _ _ _ E) as [q [r [s2 [g2 [L [-> [-> E2]]]]]]]. exists (n :: q), r, s2, g2. cbn. auto.
Qed.
Lemma fill_complete : forall l shp s g, consumed l <= length shp -> index_dims (fill_ellipsis (length shp - consumed l) l) shp = Ok (s, g) -> indexed false l shp s.
Proof.
  induction l as [|x l IH]; intros shp s g Hc H.
  - cbn in H. injection H as <- <-. constructor.
  - destruct x; cbn [fill_ellipsis index_dims] in H.
    + change (consumed (IInt i :: l)) with (S (consumed l)) in *. destruct shp as [|n shp]; [cbn in Hc; lia|]. cbn [length] in *. cbv zeta in H.
      set (k := if (i <? 0)%Z then (i + Z.of_nat n)%Z else i) in H. destruct (_ && _)%bool eqn:B; [|discriminate].
      replace (S (length shp) - S (consumed l)) with (length shp - consumed l) in H by lia.
      destruct (index_dims _ shp) as [[s' g']|e] eqn:E; [|discriminate]. cbn [bind] in H. injection H as <- <-.
      apply andb_prop in B. destruct B as [B1 B2]. apply Z.leb_le in B1. apply Z.ltb_lt in B2.
      apply (ix_int _ _ (Z.to_nat k)); [unfold k in *; split; destruct (Z.ltb_spec i 0); lia|]. eapply IH; eauto. lia.
    + change (consumed (IAll :: l)) with (S (consumed l)) in *. destruct shp as [|n shp]; [cbn in Hc; lia|]. cbn [length] in *.
      replace (S (length shp) - S (consumed l)) with (length shp - consumed l) in H by lia.
      destruct (index_dims _ shp) as [[s' g']|e] eqn:E; [|discriminate]. cbn [bind] in H. injection H as <- <-. constructor. eapply IH; eauto. lia.
    + change (consumed (IRange lo hi :: l)) with (S (consumed l)) in *. destruct shp as [|n shp]; [cbn in Hc; lia|]. cbn [length] in *.
      replace (S (length shp) - S (consumed l)) with (length shp - consumed l) in H by lia.
      destruct (index_dims _ shp) as [[s' g']|e] eqn:E; [|discriminate]. cbn [bind] in H. injection H as <- <-. constructor; [intros; lia|]. eapply IH; eauto. lia.
    + change (consumed (INone :: l)) with (consumed l) in *. destruct (index_dims _ shp) as [[s' g']|e] eqn:E; [|discriminate]. cbn [bind] in H. injection H as <- <-. constructor. eapply IH; eauto.
    + change (consumed (IEllipsis :: l)) with (consumed l) in *. destruct (dims_front _ _ _ _ _ H) as [q [r [s' [g' [L [-> [-> E]]]]]]]. rewrite app_length in *.
      destruct (index_dims_complete _ _ _ _ E) as [I1 [I2 [I3 I4]]]. constructor. apply I4. lia.
Qed.
Lemma index_raises : forall l shp e, index_dims l shp = Err e -> e = IndexError.
Proof.
  induction l as [|x l IH]; intros shp e H; [discriminate|].
  destruct x; cbn [index_dims] in H; try (injection H as <-; reflexivity); try (destruct shp as [|n shp]; [injection H as <-; reflexivity|]); cbv zeta in H.
  - destruct (_ && _)%bool; [|injection H as <-; reflexivity]. destruct (index_dims l shp) as [[s' g']|e'] eqn:E; [discriminate|]. cbn [bind] in H. injection H as <-. eapply IH; eauto.
  - destruct (index_dims l shp) as [[s' g']|e'] eqn:E; [discriminate|]. cbn [bind] in H. injection H as <-. eapply IH; eauto.
  - destruct (index_dims l shp) as [[s' g']|e'] eqn:E; [discriminate|]. cbn [bind] in H. injection H as <-. eapply IH; eauto.
  - destruct (index_dims l shp) as [[s' g']|e'] eqn:E; [discriminate|]. cbn [bind] in H. injection H as <-. eapply IH; eauto.
Qed.
Theorem torch_index_documented : forall {A} l (t : ten A),
  (forall s, indexed false l (shape t) s -> exists u, torch_index l t = Ok u /\ shape u = s /\ forall e, valid e s -> exists j, picks false l (shape t) e j /\ el u e = el t j) /\
  ((forall s, ~ indexed false l (shape t) s) -> torch_index l t = Err IndexError).
Proof.
  intros A l t. unfold torch_index, ndim. split.
  - intros s H. destruct (index_fill _ _ _ H) as [Hc [g [E G]]]. destruct (Nat.ltb_spec (length (shape t)) (consumed l)); [lia|]. rewrite E. cbn [bind].
    eexists. split; [reflexivity|]. split; [reflexivity|]. intros e He. exists (g e). split; [auto|reflexivity].
  - intros H. destruct (Nat.ltb_spec (length (shape t)) (consumed l)); [reflexivity|].
    destruct (index_dims _ (shape t)) as [[s g]|e] eqn:E; [|apply index_raises in E; subst; reflexivity]. exfalso. exact (H s (fill_complete _ _ _ _ H0 E)).
Qed.
(** The relation is a function. *)
Lemma picks_valid : forall b l shp e j, picks b l shp e j -> valid j shp.
Proof.
  intros b l shp e j H. induction H; auto.
  - constructor.
  - constructor; auto. apply H.
  - constructor; auto.
  - constructor; auto.
  - apply Forall2_app; auto.
Qed.
Lemma picks_consumed : forall l shp e j, picks true l shp e j -> consumed l = length shp.
Proof.
  intros l shp e j H. remember true as b eqn:Eb. induction H; try discriminate; subst; auto; try (specialize (IHpicks eq_refl)); auto;
    unfold consumed in *; cbn [filter consumes length]; now rewrite IHpicks.
Qed.
Lemma app_same : forall {A} (a b c d : list A), length a = length c -> a ++ b = c ++ d -> a = c /\ b = d.
Proof. intros A a. induction a as [|x a IH]; intros b [|y c] d L E; try discriminate; [auto|]. cbn in *. injection L as L. injection E as <- E. destruct (IH _ _ _ L E) as [-> ->]. auto. Qed.
Lemma picks_functional : forall b l shp e j, picks b l shp e j -> forall j', picks b l shp e j' -> j = j'.
Proof.
  intros b l shp e j H. induction H; intros j' H'; inversion H'; subst; auto.
  - f_equal; auto. destruct H as [K1 K2]. match goal with X : names_place _ _ _ |- _ => destruct X as [K3 K4] end. lia.
  - f_equal; auto.
  - f_equal; auto.
  - match goal with X : picks true r _ _ _ |- _ => pose proof (picks_consumed _ _ _ _ X) as C2 end. pose proof (picks_consumed _ _ _ _ H0) as C1.
    match goal with X : _ ++ _ = q ++ shp |- _ => pose proof (f_equal (@length nat) X) as L; rewrite !app_length in L; apply app_same in X; [destruct X; subst|lia] end.
    match goal with X : _ ++ _ = x ++ e |- _ => apply app_same in X; [destruct X; subst|match goal with Y : valid ?z q |- length ?z = length x => rewrite (valid_length _ _ Y), (valid_length _ _ H); reflexivity end] end.
    f_equal. auto.
Qed.

Section Getitem.
Context {V : Type}.
Variable veq : V -> V -> bool.
Variable anc_unwrap : plate V -> stensor V -> res (stensor V).
Theorem getitem_elements : forall (a : stensor V) items full base, callable veq [a] -> leaves_front items full (length (wide (splates a))) (length (s_event_shape a)) ->
  (forall evc, indexed false items (s_event_shape a) evc -> exists r, getitem veq anc_unwrap a full base = Ok (PT r) /\ splates r = splates a /\ wf r /\ sparents r = [sid a] /\ s_event_shape r = evc /\
     forall s e, in_range s (splates a) -> valid e evc -> exists j, picks false items (s_event_shape a) e j /\ (forall j', picks false items (s_event_shape a) e j' -> j' = j) /\ den r s e = den a s j) /\
  ((forall evc, ~ indexed false items (s_event_shape a) evc) -> getitem veq anc_unwrap a full base = Err IndexError).
Proof.
  intros a items full base HC HL. destruct (getitem_spec veq anc_unwrap a items full base HC HL) as [[r [E [R1 [R2 [R3 R4]]]]]|[e [E R]]].
  - assert (exists s, in_range s (splates a)) as [s0 Hs0].
    { exists (fun _ => 0). intros p Hp. pose proof (proj1 HC) as Hw. inversion Hw as [|? ? Hw' _]; subst. now apply Hw'. }
    destruct (torch_index_documented items (at_sample s0 a)) as [D1 D2]. cbn [at_sample shape] in D1, D2. split.
    + intros evc Hi. exists r. repeat (split; [assumption|]). destruct (D1 _ Hi) as [u [U1 [U2 _]]]. destruct (R4 s0 Hs0) as [t [T1 [T2 _]]].
      rewrite U1 in T1. injection T1 as <-. cbn [at_sample shape] in T2. split; [congruence|]. intros s e Hs He.
      destruct (torch_index_documented items (at_sample s a)) as [D3 _]. destruct (D3 evc Hi) as [u' [U3 [U4 U5]]]. destruct (R4 s Hs) as [t [T3 T4]]. rewrite U3 in T3. injection T3 as <-.
      destruct (U5 e He) as [j [J1 J2]]. exists j. split; [exact J1|]. split; [intros j' J'; exact (picks_functional _ _ _ _ _ J' _ J1)|]. destruct T4 as [T4 T5]. cbn [at_sample shape el] in *. rewrite <- T5 by now rewrite U4. exact J2.
    + intros Hn. destruct (R4 s0 Hs0) as [t [T1 _]]. rewrite D2 in T1 by exact Hn. discriminate.
  - destruct (torch_index_documented items (at_sample (fun _ => 0) a)) as [D1 D2]. cbn [at_sample shape] in D1, D2. split.
    + intros evc Hi. destruct (D1 _ Hi) as [u [U1 _]]. rewrite R in U1. discriminate.
    + intros Hn. rewrite E. specialize (R (fun _ => 0)). rewrite D2 in R by exact Hn. congruence.
Qed.
End Getitem.
