(** Samples: their plates, parents and elements; weightings that only count the true samples. *)
From Coq Require Import String List Arith Bool Lia Ring_theory.
From Verif Require Import Base Torch Plates Wrap OrderPlates Scalar Reduce Inference Sampling ListLemmas IndexLemmas SpecTensor SpecWrap
  SpecOrder SpecReduce SpecSampling WrapProofs AlignProofs CallProofs CallProofs2 OpProofs InferenceProofs ReduceProofs ReduceProofs2 RejectProofs VarianceProofs.
Import ListNotations.

Section SamplingProofs.
Context {V : Type}.
Variable veq : V -> V -> bool.
Variable anc_unwrap : plate V -> stensor V -> res (stensor V).
Variable recip : nat -> V.
Notation plate := (plate V).
Notation stensor := (stensor V).
Notation N l := (map (@pname V) l).

Lemma collect_params_plates : forall ps parents plates rg,
  snd (fst (collect_params veq ps parents plates rg))
  = fold_left (fun pl t => add_plates veq pl (splates t)) (param_tensors ps) plates.
Proof. induction ps as [|[a r|r] ps IH]; intros; simpl; auto. Qed.

Lemma collect_params_grad : forall ps parents plates rg,
  snd (collect_params veq ps parents plates rg) = rg || existsb needs_grad ps.
Proof.
  induction ps as [|[a r|r] ps IH]; intros; simpl; [now rewrite orb_false_r| |]; rewrite IH, orb_assoc; reflexivity.
Qed.

Lemma add_parent_in : forall parents p x, In x (add_parent parents p) <-> In x parents \/ x = p.
Proof.
  intros parents p x. unfold add_parent. destruct (existsb (Nat.eqb p) parents) eqn:E.
  - apply existsb_exists in E as [y [Hy E]]. apply Nat.eqb_eq in E. subst y. split; auto. intros [H| ->]; auto.
  - rewrite in_app_iff. simpl. intuition.
Qed.
Lemma add_parent_nodup : forall parents p, NoDup parents -> NoDup (add_parent parents p).
Proof.
  intros parents p ND. unfold add_parent. destruct (existsb (Nat.eqb p) parents) eqn:E; auto.
  apply NoDup_app_intro; auto.
  - repeat constructor. intros [].
  - intros x Hx [<-|[]]. assert (existsb (Nat.eqb p) parents = true); [|congruence].
    apply existsb_exists. exists p. split; auto. apply Nat.eqb_refl.
Qed.

Lemma collect_params_parents : forall ps parents plates rg, NoDup parents ->
  let l := fst (fst (collect_params veq ps parents plates rg)) in
  NoDup l /\ forall x, In x l <-> In x parents \/ In x (map sid (param_tensors ps)).
Proof.
  induction ps as [|[a r|r] ps IH]; intros parents plates rg ND; simpl.
  - split; auto. intros x. intuition.
  - destruct (IH (add_parent parents (sid a)) (add_plates veq plates (splates a)) (rg || r)) as [D X].
    { now apply add_parent_nodup. }
    split; auto. intros x. rewrite X, add_parent_in. intuition.
  - apply IH; auto.
Qed.

Lemma add_plate_keeps : forall (plates : list plate) p x, In x (N plates) -> In x (N (add_plate veq plates p)).
Proof. intros. unfold add_plate. destruct (pin veq p plates); auto. rewrite map_app. apply in_app_iff. auto. Qed.
Lemma add_plate_new : forall (plates : list plate) p, In (pname p) (N (add_plate veq plates p)).
Proof.
  intros. unfold add_plate. destruct (pin veq p plates) eqn:E.
  - unfold pin, inb in E. apply existsb_exists in E as [q [Hq E]]. apply peq_name in E. rewrite <- E. now apply in_map.
  - rewrite map_app. apply in_app_iff. simpl. auto.
Qed.
Lemma add_plates_names : forall new (plates : list plate) x, In x (N plates) \/ In x (N new) -> In x (N (add_plates veq plates new)).
Proof.
  induction new as [|p new IH]; intros plates x H; simpl.
  - destruct H as [H|[]]; auto.
  - apply IH. destruct H as [H|[<-|H]]; auto; left; [now apply add_plate_keeps|apply add_plate_new].
Qed.
Lemma fold_plates_names : forall ts (plates : list plate) x, In x (N plates) \/ (exists t, In t ts /\ In x (N (splates t))) ->
  In x (N (fold_left (fun pl t => add_plates veq pl (splates t)) ts plates)).
Proof.
  induction ts as [|t ts IH]; intros plates x H; simpl.
  - destruct H as [H|[t [[] _]]]; auto.
  - apply IH. destruct H as [H|[u [[<-|Hu] H]]].
    + left. apply add_plates_names. auto.
    + left. apply add_plates_names. auto.
    + right. eauto.
Qed.

(** A parameter already carries a plate of the name. *)
Lemma sample_name_taken : forall name n mc weighting post params parents0 plates0 id,
  (In name (N plates0) \/ exists t, In t (param_tensors params) /\ In name (N (splates t))) ->
  method_sample veq recip name n mc weighting post params parents0 plates0 id = Err ValueError.
Proof.
  intros name n mc weighting post params parents0 plates0 id H. unfold method_sample.
  pose proof (collect_params_plates params parents0 plates0 false) as P.
  destruct (collect_params veq params parents0 plates0 false) as [[parents plates] rg]. simpl in P.
  rewrite (named name plates); auto. rewrite P. now apply fold_plates_names.
Qed.

Lemma find_none : forall name (l : list plate), ~ In name (N l) -> find (fun p => String.eqb (pname p) name) l = None.
Proof.
  intros name l H. destruct (find _ l) eqn:E; auto. apply find_some in E as [Hp E]. apply String.eqb_eq in E.
  exfalso. apply H. rewrite <- E. now apply in_map.
Qed.

(** The sample. *)
Lemma sample_spec : forall name n mc weighting params id t size ev,
  callable veq (param_tensors params) ->
  (forall u, In u (param_tensors params) -> ~ In name (N (splates u))) ->
  mc n = Ok t -> 1 <= size -> shape t = size :: map pn (wide (all_plates (param_tensors params))) ++ ev ->
  let w := match weighting with Some f => WTorch (f size) | None => WTorch (tscalar (recip size)) end in
  let p := mkPlate PlainPlate name size w (all_plates (param_tensors params)) in
  exists x, method_sample veq recip name n mc weighting None params [] [] id = Ok (x, existsb needs_grad params) /\
    sid x = id /\ wf x /\ splates x = p :: all_plates (param_tensors params) /\ s_stochastic x = true /\
    s_event_shape x = ev /\
    NoDup (sparents x) /\ (forall i, In i (sparents x) <-> In i (map sid (param_tensors params))) /\
    forall s e, in_range s (splates x) ->
      den x s e = el t (s name :: map (fun q => s (pname q)) (wide (all_plates (param_tensors params))) ++ e).
Proof.
  intros name n mc weighting params id t size ev Hc Hfresh Hmc Hsize Hs w p.
  set (ts := param_tensors params) in *. unfold method_sample.
  pose proof (collect_params_plates params [] [] false) as P.
  pose proof (collect_params_grad params [] [] false) as G.
  destruct (collect_params_parents params [] [] false (NoDup_nil nat)) as [PD PX].
  destruct (collect_params veq params [] [] false) as [[parents plates] rg]. simpl in P, G, PD, PX. fold ts in P, PX.
  destruct (all_plates_facts veq anc_unwrap ts Hc) as [AI [AD AX]].
  assert (EP : plates = all_plates ts).
  { rewrite P. destruct Hc as [Hwf [HA Hpl]]. destruct (folded_spec veq anc_unwrap ts [] (flat_map splates ts)) as [E _]; auto.
    - intros x []. - constructor. - intros u Hu x Hx. apply in_flat_map. eauto. }
  subst plates rg.
  assert (Hno : ~ In name (N (all_plates ts))).
  { intros H. apply AX in H as [u [Hu H]]. now apply (Hfresh u). }
  rewrite EP. rewrite (not_named name) by auto. unfold monte_carlo. rewrite (find_none name) by auto.
  rewrite Hmc. cbn [bind]. rewrite Hs.
  set (t' := if size =? 1 then squeeze0 t else t).
  set (q := new_plate recip name size (all_plates ts) None).
  assert (Hpos : forall p0, In p0 (all_plates ts) -> 1 <= pn p0).
  { intros p0 Hp0. apply AI in Hp0. apply in_flat_map in Hp0 as [u [Hu Hp0]]. destruct Hc as [Hwf _].
    rewrite Forall_forall in Hwf. now apply (wf_pos u (Hwf u Hu)). }
  assert (Hsh : forall p0, pn p0 = size -> shape t' = map pn (wide (p0 :: all_plates ts)) ++ ev).
  { intros p0 Hp0. unfold t'. unfold wide. cbn [filter]. rewrite Hp0. fold (wide (all_plates ts)).
    destruct (Nat.eqb_spec size 1) as [E|E].
    - subst size. unfold squeeze0. rewrite Hs. simpl. rewrite E. reflexivity.
    - destruct (Nat.ltb_spec 1 size); [|lia]. rewrite Hs. simpl. now rewrite Hp0. }
  destruct (mk_tensor_good id t' parents (q :: all_plates ts) true ev) as [x [E [A1 [A2 [A3 [A4 [A5 [A6 A7]]]]]]]].
  { simpl. constructor; auto. }
  { intros p0 [<-|Hp0]; auto. }
  { now apply Hsh. }
  rewrite E. cbn [bind].
  assert (Hel : forall s e, (size = 1 -> s name = 0) ->
     el t' (map (fun q0 : plate => s (pname q0)) (wide (p :: all_plates ts)) ++ e)
     = el t (s name :: map (fun q0 : plate => s (pname q0)) (wide (all_plates ts)) ++ e)).
  { intros s e H0. unfold t', wide. cbn [filter p pn]. fold (wide (all_plates ts)). destruct (Nat.eqb_spec size 1) as [Z|Z].
    - rewrite (H0 Z). subst size. unfold squeeze0. rewrite Hs. simpl. reflexivity.
    - destruct (Nat.ltb_spec 1 size); [|lia]. reflexivity. }
  destruct weighting as [f|].
  - exists (set_plates x (reweigh (WTorch (f (pn q))) q :: all_plates ts)). rewrite A3.
    change (reweigh (WTorch (f (pn q))) q) with p.
    cbn [set_plates sid st splates s_plate_dims s_event_shape sparents s_stochastic].
    split; [reflexivity|]. split; [auto|]. split.
    { destruct A7 as [W1 W2 W3 W4]. rewrite A3 in *. constructor; [exact W1| | |].
      2: { cbn [set_plates splates st s_event_shape]. rewrite A2, A6. now apply Hsh. }
      2: { cbn [set_plates splates s_plate_dims]. rewrite W4. unfold wide. cbn [filter q p new_plate pn]. destruct (1 <? size); reflexivity. }
      intros p0 [<-|Hp0]; [exact Hsize|auto]. }
    split; [reflexivity|]. split; [auto|]. split; [auto|]. rewrite A4. split; [auto|]. split.
    { intros i. rewrite PX. simpl. intuition. }
    intros s e Hr. unfold den. cbn [set_plates st splates]. rewrite A2. apply Hel. intros Z.
    assert (s (pname p) < pn p) by (apply Hr; left; auto). simpl in *. lia.
  - exists x. split; [reflexivity|]. split; [auto|]. split; [auto|]. rewrite A3. split; [reflexivity|]. split; [auto|]. split; [auto|].
    rewrite A4. split; [auto|]. split.
    { intros i. rewrite PX. simpl. intuition. }
    intros s e Hr. unfold den. rewrite A2, A3. change q with p. apply Hel. intros Z.
    assert (s (pname p) < pn p) by (apply Hr; left; auto). simpl in *. lia.
Qed.

(** With post_sample: a second tensor on top of the sample. *)
Lemma sample_post : forall name n mc weighting f params parents0 plates0 id x rg,
  method_sample veq recip name n mc weighting None params parents0 plates0 id = Ok (x, rg) -> wf x ->
  (forall u, shape (f u) = shape u) ->
  exists y, method_sample veq recip name n mc weighting (Some f) params parents0 plates0 id = Ok (y, false) /\
    sid y = id + 1 /\ wf y /\ splates y = splates x /\ s_stochastic y = true /\ s_event_shape y = s_event_shape x /\
    sparents y = [sid x] /\ st y = f (st x).
Proof.
  intros name n mc weighting f params parents0 plates0 id x rg H Hw Hf. unfold method_sample in *.
  destruct (collect_params veq params parents0 plates0 false) as [[parents plates] rg'].
  destruct (existsb _ plates); [discriminate|].
  destruct (monte_carlo recip name n mc parents plates id) as [[x0 p]|]; [|discriminate]. cbn [bind] in *.
  injection H as H <-. rewrite H.
  destruct (mk_tensor_good (id + 1) (f (st x)) [sid x] (splates x) true (s_event_shape x)) as [y [E [A1 [A2 [A3 [A4 [A5 [A6 A7]]]]]]]].
  { apply Hw. } { apply (wf_pos x Hw). } { rewrite Hf. apply (wf_shape x Hw). }
  exists y. rewrite E. cbn [bind]. auto 10.
Qed.

(** Reducing a plate whose weights only count the true samples. *)
Variable o : sops V.
Hypothesis Hring : is_ring o.
Let Hring' : ring_theory (o_zero o) (o_one o) (o_add o) (o_mul o) (o_sub o) (o_opp o) (@eq V) := Hring.
Add Ring o_ring : Hring'.

Lemma osum_app : forall l m, osum o (l ++ m) = o_add o (osum o l) (osum o m).
Proof. induction l as [|x l IH]; intros m; simpl; [ring|]. rewrite IH. ring. Qed.
Lemma osum_zeros : forall {A} (f : A -> V) l, (forall x, In x l -> f x = o_zero o) -> osum o (map f l) = o_zero o.
Proof.
  intros A f. induction l as [|x l IH]; intros H; simpl; auto.
  rewrite H by (left; auto). rewrite IH by (intros; apply H; right; auto). ring.
Qed.
Lemma osum_scale : forall {A} (f : A -> V) c l, osum o (map (fun x => o_mul o c (f x)) l) = o_mul o c (osum o (map f l)).
Proof. intros A f c. induction l as [|x l IH]; simpl; [ring|]. rewrite IH. ring. Qed.

Lemma true_samples_mean : forall (a : stensor) p detach k m base,
  wf a -> sound veq (splates a) -> In p (splates a) -> (forall q, above q p -> pname q <> pname p) ->
  2 <= k -> 1 <= m -> pn p = k * m -> pweight p = WTorch (true_samples recip (o_zero o) k (pn p)) ->
  o_det o (o_zero o) = o_zero o ->
  exists r, reduce_plates veq anc_unwrap o top_ctx (PT a) [ByName (pname p)] detach base = Ok r /\
    splates r = filter (fun q => negb (String.eqb (pname q) (pname p))) (splates a) /\ wf r /\
    s_event_shape r = s_event_shape a /\
    forall s e, in_range s (splates r) -> valid e (s_event_shape a) ->
      den r s e = o_mul o (if detach then o_det o (recip m) else recip m)
                          (osum o (map (fun i => den a (set_to s (pname p) i) e) (seq 0 m))).
Proof.
  intros a p detach k m base Hw Hso Hp Hab Hk Hm Hn Hwt Hdet.
  assert (Hn2 : 2 <= pn p) by nia.
  destruct (reduce_plates_top veq anc_unwrap o Hring (PT a) [ByName (pname p)] a [p] detach base) as [r [j [E [A1 [A2 [A3 [A4 A5]]]]]]]; auto.
  - constructor; [discriminate|]. repeat constructor. exact Hp.
  - repeat constructor. intros [].
  - intros q [<-|[]]. right. intros q Hq [H|[]]. now apply (Hab q).
  - intros [c [Hne [Hi Hc]]]. destruct c as [|q c]; [congruence|]. destruct (Hc q (or_introl eq_refl)) as [q' [Hq' Hpar]].
    assert (q = p) by (destruct (Hi q (or_introl eq_refl)) as [<-|[]]; auto).
    assert (q' = p) by (destruct (Hi q' Hq') as [<-|[]]; auto). subst q q'.
    unfold parent_of in Hpar. apply in_map_iff in Hpar as [u [Eu Hu]]. apply (Hab u); auto. now apply A_parent.
  - intros q [<-|[]]. unfold weight_fits. rewrite Hwt. right. split; [lia|]. reflexivity.
  - assert (J : j = 0).
    { apply A4. intros q [<-|[]]. unfold padded. rewrite Hwt. auto. }
    subst j. simpl in A2. rewrite app_nil_r in A2. exists r. split; [exact E|]. split.
    { rewrite A1. apply filter_ext. intros q. unfold has. simpl. rewrite orb_false_r. f_equal. apply String.eqb_sym. }
    split; [exact A3|]. split; [exact A2|].
    intros s e Hr He. specialize (A5 s e Hr He). simpl in A5. rewrite app_nil_r in A5. rewrite A5.
    unfold weighted_sum. simpl.
    assert (Hdiv : pn p / k = m) by (rewrite Hn, Nat.mul_comm; apply Nat.div_mul; lia).
    replace (pn p) with (m + (pn p - m)) at 1 by nia. rewrite seq_app, map_app, osum_app.
    rewrite (osum_zeros _ (seq (0 + m) (pn p - m))).
    + rewrite <- osum_scale.
      replace (osum o (map (fun i : nat => o_mul o (if detach then o_det o (recip m) else recip m) (den a (set_to s (pname p) i) e)) (seq 0 m)))
        with (o_add o (osum o (map (fun i : nat => o_mul o (if detach then o_det o (recip m) else recip m) (den a (set_to s (pname p) i) e)) (seq 0 m))) (o_zero o)) by ring.
      f_equal. f_equal. apply map_ext_in. intros i Hi. apply in_seq in Hi.
      unfold weight_at. rewrite Hwt. cbn [true_samples shape el nth]. rewrite Hdiv.
      assert (Z : set_to s (pname p) i (pname p) = i) by (unfold set_to; now rewrite String.eqb_refl).
      rewrite Z. destruct (Nat.ltb_spec i m); [|lia]. destruct detach; ring.
    + intros i Hi. apply in_seq in Hi. unfold weight_at. rewrite Hwt. cbn [true_samples shape el nth]. rewrite Hdiv.
      assert (Z : set_to s (pname p) i (pname p) = i) by (unfold set_to; now rewrite String.eqb_refl).
      rewrite Z. destruct (Nat.ltb_spec i m); [lia|].
      destruct detach; rewrite ?Hdet; ring.
Qed.

End SamplingProofs.
