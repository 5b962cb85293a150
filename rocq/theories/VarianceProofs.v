(** storch.variance. *)
From Coq Require Import String List Arith Bool ZArith Lia Permutation Ring.
From Verif Require Import Base Torch Plates Wrap OrderPlates Scalar Reduce ListLemmas IndexLemmas SpecTensor SpecWrap SpecOrder SpecReduce
  WrapProofs AlignProofs CallProofs CallProofs2 OpProofs OrderProofs ReduceProofs ReduceProofs2 PlateEqProofs.
Import ListNotations.

Section Variance.
Context {V : Type}.
Variable veq : V -> V -> bool.
Variable anc_unwrap : plate V -> stensor V -> res (stensor V).
Variable o : sops V.
Hypothesis Hring : is_ring o.
Notation plate := (plate V).
Notation stensor := (stensor V).
Notation N l := (map (@pname V) l).
Let Hring' : ring_theory (o_zero o) (o_one o) (o_add o) (o_mul o) (o_sub o) (o_opp o) (@eq V) := Hring.
Add Ring o_ring : Hring'.

Lemma fill_front : forall n k ix z, length ix = n -> length z = k -> fill (repeat true n ++ repeat false k) z ix = ix ++ z.
Proof.
  induction n as [|n IH]; intros k ix z H1 H2.
  - destruct ix; [|discriminate]. simpl. apply fill_none; [now rewrite repeat_length|]. intros x Hx. now apply repeat_spec in Hx.
  - destruct ix as [|i ix]; [discriminate|]. simpl. f_equal. apply IH; auto.
Qed.

Lemma pick_front : forall n k ev z, length ev = n -> length z = k ->
  pick true (repeat true n ++ repeat false k) (ev ++ z) = ev /\ pick false (repeat true n ++ repeat false k) (ev ++ z) = z.
Proof.
  intros n k ev z H1 H2. rewrite <- !select_pick. rewrite !select_app by (rewrite repeat_length; auto).
  assert (A : forall (b : bool) m x, In x (repeat b m) -> x = b) by (intros b m x Hx; now apply repeat_spec in Hx).
  rewrite (select_all true), (select_none true), (select_none false), (select_all false); try (rewrite repeat_length; auto; fail);
    try (intros x Hx; apply A in Hx; subst; reflexivity).
  split; [apply app_nil_r|reflexivity].
Qed.

(** Summing the first event dimensions. *)
Lemma sum_dims_spec : forall (a : stensor) ev k base, callable veq [a] -> s_event_shape a = ev ++ repeat 1 k -> ev <> [] ->
  exists r, sum_dims veq anc_unwrap o top_ctx (seq (s_plate_dims a) (length ev)) (PT a) base = Ok (PT r) /\
    splates r = splates a /\ s_event_shape r = repeat 1 k /\ wf r /\
    forall s, in_range s (splates a) -> den r s (repeat 0 k) = osum o (map (fun e => den a s (e ++ repeat 0 k)) (indices ev)).
Proof.
  intros a ev k base HC Eev Hne.
  assert (Hw : wf a) by (destruct HC as [H _]; inversion H; auto).
  assert (Hd : s_event_dims a = length ev + k) by (unfold s_event_dims; now rewrite Eev, app_length, repeat_length).
  set (ds := map (fun j => DInt (Z.of_nat (length (wide (splates a)) + j))) (seq 0 (length ev))).
  set (ts := map (fun j => @inr string nat j) (seq 0 (length ev))).
  assert (F : Forall2 (dim_means a) ds ts).
  { unfold ds, ts. assert (G : forall l, (forall j, In j l -> j < s_event_dims a) ->
      Forall2 (dim_means a) (map (fun j => DInt (Z.of_nat (length (wide (splates a)) + j))) l) (map (fun j => @inr string nat j) l)).
    { induction l; intros H; simpl; constructor; [constructor; apply H; simpl; auto|apply IHl; intros; apply H; simpl; auto]. }
    apply G. intros j Hj. apply in_seq in Hj. lia. }
  assert (NDt : NoDup ts). { unfold ts. apply FinFun.Injective_map_NoDup; [intros x y E; now injection E|apply seq_NoDup]. }
  destruct (reduce_with_spec veq anc_unwrap (osum o) a ds ts base HC F NDt) as [r [E [P [Ev [Wr [Pa [St D]]]]]]].
  { unfold ts. destruct ev; [congruence|discriminate]. }
  exists r. split.
  - rewrite <- E. unfold sum_dims, reduce_with.
    assert (Ec : convert_indices a ds = Ok (map Z.of_nat (seq (s_plate_dims a) (length ev)), [])).
    { unfold convert_indices.
      assert (G : forall l, (forall j, In j l -> j < s_event_dims a) ->
        mapM (convert_index a) (map (fun j => DInt (Z.of_nat (length (wide (splates a)) + j))) l)
        = Ok (map (fun j => (Z.of_nat (length (wide (splates a)) + j), [])) l)).
      { induction l as [|j l IH]; intros H; simpl; auto.
        replace (Z.of_nat (s_plate_dims a) <=? Z.of_nat (length (wide (splates a)) + j))%Z with true.
        - simpl. rewrite IH by (intros; apply H; simpl; auto). reflexivity.
        - symmetry. apply Z.leb_le. rewrite (wf_dims a Hw). lia. }
      unfold ds. rewrite G by (intros j Hj; apply in_seq in Hj; lia). cbn [bind]. f_equal. f_equal.
      - rewrite map_map. simpl. rewrite (wf_dims a Hw). rewrite <- (map_map (fun j => length (wide (splates a)) + j) Z.of_nat). f_equal.
        assert (X : forall n b c, map (fun j => b + j) (seq c n) = seq (b + c) n).
        { induction n; intros b c; simpl; auto. rewrite IHn. now rewrite Nat.add_succ_r. }
        rewrite X. now rewrite Nat.add_0_r.
      - clear. induction (seq 0 (length ev)); simpl; auto. }
    rewrite Ec. reflexivity.
  - assert (Hnn : forall x, named ts x = false).
    { intros x. unfold ts, named. clear. induction (seq 0 (length ev)); simpl; auto. }
    assert (Ep : splates r = splates a).
    { rewrite P. transitivity (filter (fun _ : plate => true) (splates a)); [apply filter_ext; intros q; now rewrite Hnn|].
      clear. induction (splates a); simpl; congruence. }
    assert (Em : event_mask a ts = repeat true (length ev) ++ repeat false k).
    { unfold event_mask. rewrite Hd, seq_app, map_app. f_equal.
      - assert (G : forall l, (forall j, In j l -> counted ts j = true) -> map (counted ts) l = repeat true (length l)).
        { induction l; intros H; simpl; auto. rewrite H by (simpl; auto). f_equal. apply IHl. intros; apply H; simpl; auto. }
        rewrite G; [now rewrite seq_length|]. intros j Hj. apply counted_In. unfold ts. apply in_map. exact Hj.
      - assert (G : forall l, (forall j, In j l -> counted ts j = false) -> map (counted ts) l = repeat false (length l)).
        { induction l; intros H; simpl; auto. rewrite H by (simpl; auto). f_equal. apply IHl. intros; apply H; simpl; auto. }
        rewrite G; [now rewrite seq_length|]. intros j Hj. apply not_true_iff_false. intros C. apply counted_In in C.
        unfold ts in C. apply in_map_iff in C. destruct C as [j' [E' Hj']]. injection E' as ->. apply in_seq in Hj. apply in_seq in Hj'. lia. }
    destruct (pick_front (length ev) k ev (repeat 1 k) eq_refl (repeat_length _ _)) as [Pt Pf].
    assert (Er : s_event_shape r = repeat 1 k) by (rewrite Ev, Em, Eev; exact Pf).
    refine (conj Ep (conj Er (conj Wr _))).
    intros s Hs. rewrite D by (rewrite ?Ep, ?Er; auto; apply valid_zeros).
    assert (Erp : reduced_plates a ts = []).
    { unfold reduced_plates. clear -Hnn. induction (wide (splates a)); simpl; auto. now rewrite Hnn. }
    unfold group. rewrite Erp, Em, Eev, Pt. simpl map at 2. simpl length at 1 2. simpl app at 3. apply osum_ext. intros ix Hix.
    simpl set_all. f_equal. apply in_indices in Hix. apply fill_front; [now apply valid_length|apply repeat_length].
Qed.

Lemma weighted_sum_one : forall detach (L : list plate) p f s,
  weighted_sum o detach L [p] f s =
  osum o (map (fun i => o_mul o (f (set_to s (pname p) i)) (wval o detach (weight_at L p (set_to s (pname p) i)))) (seq 0 (pn p))).
Proof.
  intros. unfold weighted_sum. simpl. apply osum_ext. intros i _. unfold oprod, wval. simpl. ring.
Qed.

Lemma weighted_sum_ext : forall detach (L ps : list plate) f g s, NoDup (N ps) ->
  (forall s', (forall x, ~ In x (N ps) -> s' x = s x) -> (forall p, In p ps -> s' (pname p) < pn p) -> f s' = g s') ->
  weighted_sum o detach L ps f s = weighted_sum o detach L ps g s.
Proof. intros detach L ps f g s ND H. unfold weighted_sum. apply sum_over_ext; auto. intros s' A B. now rewrite H. Qed.

Theorem variance_spec : forall v vp args (a : stensor) (ps : list plate) p detach base,
  asks v args a ps -> wf a -> sound veq (splates a) -> resolves a vp p -> In p ps ->
  no_gaps (splates a) -> ~ cyclic (splates a) -> (forall q, In q (splates a) -> weight_fits (splates a) q) ->
  exists r k, variance veq anc_unwrap o top_ctx v vp args detach base = Ok r /\ splates r = [] /\
    s_event_shape r = repeat 1 k /\ ((forall q, In q (splates a) -> ~ padded (splates a) q) -> k = 0) /\
    forall s, den r s (repeat 0 k) = mean_deviation2 o detach a p s.
Proof.
  intros v vp args a ps p detach base HA Hw HS Hvp Hps Hg Hcy Hf.
  destruct (asks_handle v args a ps base HA Hw) as [a' [E [Ap [At [Ae [Aw Ai]]]]]]; try exact anc_unwrap.
  unfold variance. rewrite E. cbn [bind].
  assert (Hp : In p (splates a)) by auto.
  assert (Evp : variance_plate veq ps vp = Ok p).
  { inversion Hvp; subst; simpl.
    - destruct (find (fun q => String.eqb (pname q) (pname p)) ps) as [q|] eqn:Eq.
      + apply find_some in Eq. destruct Eq as [Hq Eq]. apply String.eqb_eq in Eq. f_equal.
        eapply NoDup_map_inj; [apply (wf_names a Hw)| | |exact Eq]; auto.
      + pose proof (find_none _ _ Eq p Hps) as C. simpl in C. rewrite String.eqb_refl in C. discriminate.
    - replace (existsb (fun q => peq veq q p) ps) with true; auto. symmetry. apply existsb_exists. exists p. split; auto. apply peq_refl. }
  rewrite Evp. cbn [bind].
  assert (HS' : sound veq (splates a')) by (rewrite Ap; auto).
  assert (Hp' : In p (splates a')) by (rewrite Ap; auto).
  assert (Hf' : weight_fits (splates a') p) by (rewrite Ap; auto).
  destruct (plate_reduce_step veq anc_unwrap o Hring a' p detach (base + 100) HS' Aw Hp' Hf') as [m [M1 [M2 [M3 [M4 [M5 M6]]]]]].
  rewrite M1. cbn [bind].
  set (k := extra (splates a') a' p) in *.
  assert (HCd : callable veq [a'; m]).
  { apply (sound_callable veq (splates a')); auto. intros t q [<-|[<-|[]]] Hq; [now left|]. rewrite M2 in Hq. apply filter_In in Hq. now left. }
  destruct (op2_spec veq anc_unwrap (o_sub o) a' m (base + 200) (s_event_shape a' ++ repeat 1 k) HCd)
    as [d [D1 [D2 [D3 [D4 [D5 [D6 [D7 D8]]]]]]]].
  { unfold s_event_dims. rewrite M3, app_length, repeat_length.
    replace (Nat.max (length (s_event_shape a')) (length (s_event_shape a') + k)) with (length (s_event_shape a') + k) by lia.
    unfold pad. rewrite app_length, repeat_length, Nat.sub_diag, app_nil_r.
    replace (length (s_event_shape a') + k - length (s_event_shape a')) with k by lia.
    generalize (s_event_shape a' ++ repeat 1 k). induction l; constructor; auto. }
  rewrite D1. cbn [bind].
  rewrite union_sub in D2.
  2:{ intros q Hq. rewrite M2 in Hq. apply in_map. apply filter_In in Hq. tauto. }
  assert (HC1 : callable veq [d]).
  { apply (sound_callable veq (splates a')); auto. intros t q [<-|[]] Hq. rewrite D2 in Hq. now left. }
  destruct (op1_spec veq anc_unwrap (fun x => o_mul o x x) d (base + 210) HC1) as [q2 [Q1 [Q2 [Q3 [Q4 [Q5 [Q6 [Q7 Q8]]]]]]]].
  rewrite Q1. cbn [bind].
  assert (Hdev : forall s e, in_range s (splates a) -> valid e (s_event_shape a) -> den q2 s (e ++ repeat 0 k) = deviation2 o detach a p s e).
  { intros s e Hs He.
    assert (Hve : valid (e ++ repeat 0 k) (s_event_shape a' ++ repeat 1 k)) by (apply valid_app; [now rewrite Ae|apply valid_zeros]).
    rewrite Q8; [|now rewrite D2, Ap|now rewrite D3].
    rewrite D8; [|now rewrite D2, Ap|auto]. rewrite proj_short by (rewrite Ae; now apply valid_length).
    rewrite (proj_valid (s_event_shape a') e) by (now rewrite Ae). rewrite M3, proj_valid by auto.
    rewrite M6; [| |now rewrite Ae].
    2:{ intros q Hq. rewrite M2 in Hq. apply filter_In in Hq. apply Hs. rewrite <- Ap. tauto. }
    unfold deviation2. rewrite weighted_sum_one. 
    assert (Hd : forall s, den a' s e = den a s e) by (intros; unfold den; now rewrite At, Ap).
    cbv zeta. rewrite Hd.
    rewrite (osum_ext o _ (fun i => o_mul o (den a (set_to s (pname p) i) e) (wval o detach (weight_at (splates a) p (set_to s (pname p) i))))).
    - reflexivity.
    - intros i _. now rewrite Hd, Ap. }
  assert (HC2 : callable veq [q2]).
  { apply (sound_callable veq (splates a')); auto. intros t q [<-|[]] Hq. rewrite Q2, D2 in Hq. now left. }
  assert (Hsum : exists w, (if 0 <? s_event_dims a' then sum_dims veq anc_unwrap o top_ctx (seq (s_plate_dims a') (s_event_dims a')) (PT q2) (base + 220)
                            else Ok (PT q2)) = Ok (PT w) /\ splates w = splates a /\ s_event_shape w = repeat 1 k /\ wf w /\
     forall s, in_range s (splates a) -> den w s (repeat 0 k) = osum o (map (deviation2 o detach a p s) (indices (s_event_shape a)))).
  { destruct (Nat.ltb_spec 0 (s_event_dims a')) as [Hlt|Hge].
    - destruct (sum_dims_spec q2 (s_event_shape a) k (base + 220) HC2) as [w [W1 [W2 [W3 [W4 W5]]]]].
      { now rewrite Q3, D3, Ae. } { unfold s_event_dims in Hlt. rewrite Ae in Hlt. intros C. rewrite C in Hlt. simpl in Hlt. lia. }
      assert (Eseq : seq (s_plate_dims a') (s_event_dims a') = seq (s_plate_dims q2) (length (s_event_shape a))).
      { unfold s_event_dims. rewrite Ae. f_equal. rewrite (wf_dims _ Aw), (wf_dims _ Q4), Q2, D2. reflexivity. }
      rewrite Eseq. exists w. rewrite W2, Q2, D2, Ap. refine (conj W1 (conj eq_refl (conj W3 (conj W4 _)))).
      intros s Hs. rewrite W5 by (now rewrite Q2, D2, Ap). apply osum_ext. intros e He. apply Hdev; auto. now apply in_indices.
    - exists q2. rewrite Q2, D2, Q3, D3, Ap. unfold s_event_dims in Hge. rewrite Ae in Hge |- *.
      destruct (s_event_shape a) eqn:Eev; [|simpl in Hge; lia].
      refine (conj eq_refl (conj eq_refl (conj eq_refl (conj Q4 _)))).
      intros s Hs. simpl. unfold osum. simpl. rewrite <- Hdev by (auto; constructor). simpl. ring. }
  destruct Hsum as [w [W1 [W2 [W3 [W4 W5]]]]]. rewrite W1. cbn [bind].
  destruct (reduce_plates_spec veq anc_unwrap o Hring (PT w) [] w (splates w) detach (base + 300)) as [r [k' [R1 [R2 [R3 [R4 [R5 R6]]]]]]]; try (rewrite W2; auto; fail).
  { constructor. } { auto. } { apply (wf_names w W4). }
  exists r, (k + k'). rewrite W2 in *.
  assert (Er : splates r = []).
  { rewrite R2. clear -a. assert (G : forall l : list plate, incl l (splates a) -> filter (fun q => negb (mems (pname q) (N (splates a)))) l = []).
    { induction l as [|x l IH]; intros Hi; simpl; auto. replace (mems (pname x) (N (splates a))) with true; simpl.
      - apply IH. intros y Hy. apply Hi. simpl; auto.
      - symmetry. apply mems_In. apply in_map. apply Hi. simpl; auto. }
    apply G. apply incl_refl. }
  refine (conj R1 (conj Er (conj _ (conj _ _)))).
  - rewrite R3, W3. now rewrite repeat_app.
  - intros Hpd. rewrite R5 by auto. assert (Hx : k = 0); [|lia]. unfold k, extra. rewrite Ap. specialize (Hpd p Hp). unfold padded in Hpd.
    destruct (pweight p); auto. destruct (Nat.eqb_spec (length (wide_names (splates a) wplates)) 1); [contradiction|auto].
  - intros s. rewrite repeat_app. rewrite R6.
    + unfold mean_deviation2. apply weighted_sum_ext; [apply (wf_names a Hw)|]. intros s' _ Hin. apply W5. intros q Hq. auto.
    + rewrite Er. intros q [].
    + rewrite W3. apply valid_zeros.
Qed.

Lemma osum_nonneg : forall le, ordered o le -> forall l, (forall x, In x l -> le (o_zero o) x) -> le (o_zero o) (osum o l).
Proof.
  intros le Ho. unfold osum. induction l as [|x l IH]; intros H; simpl; [apply (le_refl0 _ _ Ho)|].
  apply (le_add _ _ Ho); [apply H; simpl; auto|apply IH; intros; apply H; simpl; auto].
Qed.
Lemma oprod_nonneg : forall le, ordered o le -> forall l, (forall x, In x l -> le (o_zero o) x) -> le (o_zero o) (oprod o l).
Proof.
  intros le Ho. unfold oprod. induction l as [|x l IH]; intros H; simpl; [apply (le_one _ _ Ho)|].
  apply (le_mul _ _ Ho); [apply H; simpl; auto|apply IH; intros; apply H; simpl; auto].
Qed.
Lemma sum_over_nonneg : forall le, ordered o le -> forall ps s (f : assignment -> V), NoDup (N ps) ->
  (forall s', (forall p, In p ps -> s' (pname p) < pn p) -> le (o_zero o) (f s')) -> le (o_zero o) (sum_over o ps f s).
Proof.
  intros le Ho ps s f ND H. 
  assert (G : forall ps s, NoDup (N ps) -> (forall s', (forall p, In p ps -> s' (pname p) < pn p) -> (forall x, ~ In x (N ps) -> s' x = s x) -> le (o_zero o) (f s')) ->
     le (o_zero o) (sum_over o ps f s)).
  { clear -Ho. induction ps as [|p ps IH]; intros s ND H; simpl.
    - apply H; auto. intros p [].
    - simpl in ND. inversion ND as [|? ? Hn ND']; subst. apply osum_nonneg; auto. intros x Hx. apply in_map_iff in Hx.
      destruct Hx as [i [<- Hi]]. apply in_seq in Hi. apply IH; auto. intros s' H1 H2. apply H.
      + intros q [<-|Hq]; auto. rewrite H2 by auto. unfold set_to. rewrite String.eqb_refl. lia.
      + intros y Hy. simpl in Hy. rewrite H2 by tauto. unfold set_to. destruct (String.eqb_spec y (pname p)); subst; tauto. }
  apply G; auto.
Qed.

Theorem mean_deviation2_nonneg : forall le detach (a : stensor) p, ordered o le -> wf a ->
  (forall q, In q (splates a) -> non_negative o le detach (splates a) q) ->
  forall s, le (o_zero o) (mean_deviation2 o detach a p s).
Proof.
  intros le detach a p Ho Hw Hnn s. unfold mean_deviation2, weighted_sum. apply sum_over_nonneg; auto; [apply (wf_names a Hw)|].
  intros s' Hs. apply (le_mul _ _ Ho).
  - apply oprod_nonneg; auto. intros x Hx. apply in_map_iff in Hx. destruct Hx as [q [<- Hq]]. apply Hnn; auto.
  - apply osum_nonneg; auto. intros x Hx. apply in_map_iff in Hx. destruct Hx as [e [<- _]]. apply (le_square _ _ Ho).
Qed.

Lemma weighted_sum_const : forall detach (L : list plate) p c s, normalised o detach L p -> in_range s L ->
  weighted_sum o detach L [p] (fun _ => c) s = c.
Proof.
  intros detach L p c s Hn Hs. specialize (Hn s Hs). rewrite weighted_sum_one in *.
  transitivity (o_mul o c (osum o (map (fun i => o_mul o (o_one o) (wval o detach (weight_at L p (set_to s (pname p) i)))) (seq 0 (pn p))))).
  - rewrite (osum_mul_l o Hring). apply osum_ext. intros i _. ring.
  - rewrite Hn. ring.
Qed.

Lemma set_to_in_range : forall (L : list plate) p s i, NoDup (N L) -> In p L -> in_range s L -> i < pn p -> in_range (set_to s (pname p) i) L.
Proof.
  intros L p s i ND Hp Hs Hi q Hq. unfold set_to. destruct (String.eqb_spec (pname q) (pname p)) as [e|]; auto.
  replace q with p; auto. eapply NoDup_map_inj; eauto.
Qed.

Lemma deviation2_ext : forall detach (a b : stensor) p s e, wf a -> In p (splates a) -> splates b = splates a -> in_range s (splates a) ->
  (forall s', in_range s' (splates a) -> o_sub o (den b s' e) (den b s e) = o_sub o (den a s' e) (den a s e)) ->
  normalised o detach (splates a) p -> deviation2 o detach b p s e = deviation2 o detach a p s e.
Proof.
  intros detach a b p s e Hw Hp Ep Hs H Hn. unfold deviation2. rewrite Ep. cbv zeta.
  assert (G : forall c : stensor, o_sub o (den c s e) (weighted_sum o detach (splates a) [p] (fun s' => den c s' e) s) =
     o_opp o (weighted_sum o detach (splates a) [p] (fun s' => o_sub o (den c s' e) (den c s e)) s)).
  { intros c. rewrite <- (weighted_sum_const detach (splates a) p (den c s e) s Hn Hs) at 1.
    rewrite !weighted_sum_one.
    transitivity (o_opp o (o_add o (osum o (map (fun i => o_mul o (den c (set_to s (pname p) i) e) (wval o detach (weight_at (splates a) p (set_to s (pname p) i)))) (seq 0 (pn p))))
       (o_mul o (o_opp o (o_one o)) (osum o (map (fun i => o_mul o (den c s e) (wval o detach (weight_at (splates a) p (set_to s (pname p) i)))) (seq 0 (pn p))))))).
    - ring.
    - f_equal. rewrite (osum_mul_l o Hring), <- (osum_add o Hring). apply osum_ext. intros i _. ring. }
  rewrite !G.
  assert (E : weighted_sum o detach (splates a) [p] (fun s' => o_sub o (den b s' e) (den b s e)) s =
              weighted_sum o detach (splates a) [p] (fun s' => o_sub o (den a s' e) (den a s e)) s).
  { rewrite !weighted_sum_one. apply osum_ext. intros i Hi. apply in_seq in Hi. rewrite H; auto. apply set_to_in_range; auto; [apply (wf_names a Hw)|lia]. }
  now rewrite E.
Qed.

Theorem mean_deviation2_shift : forall detach (a b : stensor) p c s, wf a -> In p (splates a) -> splates b = splates a ->
  s_event_shape b = s_event_shape a -> normalised o detach (splates a) p ->
  (forall s' e, in_range s' (splates a) -> valid e (s_event_shape a) -> den b s' e = o_add o (den a s' e) c) ->
  mean_deviation2 o detach b p s = mean_deviation2 o detach a p s.
Proof.
  intros detach a b p c s Hw Hp Ep Ee Hn H. unfold mean_deviation2. rewrite Ep, Ee. apply weighted_sum_ext; [apply (wf_names a Hw)|].
  intros s' _ Hs. apply osum_ext. intros e He. apply in_indices in He. apply deviation2_ext; auto.
  intros s'' Hs''. rewrite !H by auto. ring.
Qed.

Theorem mean_deviation2_constant : forall detach (a : stensor) p s, wf a -> In p (splates a) -> normalised o detach (splates a) p ->
  (forall s' s'' e, in_range s' (splates a) -> in_range s'' (splates a) -> (forall x, x <> pname p -> s' x = s'' x) ->
     valid e (s_event_shape a) -> den a s' e = den a s'' e) ->
  mean_deviation2 o detach a p s = o_zero o.
Proof.
  intros detach a p s Hw Hp Hn H. unfold mean_deviation2.
  rewrite (weighted_sum_ext detach (splates a) (splates a) _ (fun _ => o_zero o)); [|apply (wf_names a Hw)|].
  - unfold weighted_sum. transitivity (sum_over o (splates a) (fun _ => o_zero o) s).
    + apply sum_over_ext; [exact anc_unwrap|apply (wf_names a Hw)|]. intros. ring.
    + clear -Hring. revert s. induction (splates a) as [|q l IH]; intros s; simpl; auto.
      transitivity (osum o (map (fun _ : nat => o_zero o) (seq 0 (pn q)))); [apply osum_ext; auto|apply (osum_zero o Hring)].
  - intros s' _ Hs. transitivity (osum o (map (fun _ : list nat => o_zero o) (indices (s_event_shape a)))); [apply osum_ext|apply (osum_zero o Hring)].
    intros e He. apply in_indices in He. unfold deviation2. cbv zeta.
    assert (Em : weighted_sum o detach (splates a) [p] (fun s'' => den a s'' e) s' = den a s' e).
    { rewrite <- (weighted_sum_const detach (splates a) p (den a s' e) s' Hn Hs). rewrite !weighted_sum_one.
      apply osum_ext. intros i Hi. apply in_seq in Hi. f_equal. apply H; auto.
      - apply set_to_in_range; auto; [apply (wf_names a Hw)|lia].
      - intros x Hx. unfold set_to. destruct (String.eqb_spec x (pname p)); congruence. }
    rewrite Em. ring.
Qed.

Lemma mems_has : forall (l : list plate) x, mems x (N l) = has l x.
Proof. intros l x. unfold mems, has. induction l as [|p l IH]; simpl; auto. now rewrite IH, String.eqb_sym. Qed.

Lemma reduce_plates_top : forall v args (a : stensor) (ps : list plate) detach base, asks v args a ps -> wf a -> sound veq (splates a) ->
  NoDup (N ps) -> no_gaps ps -> ~ cyclic ps -> (forall p, In p ps -> weight_fits (splates a) p) ->
  exists r k, reduce_plates veq anc_unwrap o top_ctx v args detach base = Ok r /\
    splates r = filter (fun q => negb (has ps (pname q))) (splates a) /\
    s_event_shape r = s_event_shape a ++ repeat 1 k /\ wf r /\ ((forall p, In p ps -> ~ padded (splates a) p) -> k = 0) /\
    forall s e, in_range s (splates r) -> valid e (s_event_shape a) ->
      den r s (e ++ repeat 0 k) = weighted_sum o detach (splates a) ps (fun s' => den a s' e) s.
Proof.
  intros v args a ps detach base H1 H2 H3 H4 H5 H6 H7.
  destruct (reduce_plates_spec veq anc_unwrap o Hring v args a ps detach base H1 H2 H3 H4 H5 H6 H7) as [r [k [R1 [R2 R3]]]].
  exists r, k. split; auto. split; auto. rewrite R2. apply filter_ext. intros q. now rewrite mems_has.
Qed.

End Variance.
