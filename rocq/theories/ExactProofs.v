(** Programs whose variables are all sampled with Expect compute the expectation of the cost. *)
From Coq Require Import String List Arith Bool ZArith Lia Permutation Ring.
From Verif Require Import Base Torch Plates Wrap OrderPlates Scalar Reduce Graph Inference Sampling Surrogate Enumerate ExpectMethod ListLemmas IndexLemmas SpecTensor SpecWrap
  SpecOrder SpecReduce SpecGraph SpecSampling SpecSurrogate SpecMixed SpecEnumerate SpecExact WrapProofs AlignProofs CallProofs CallProofs2 OpProofs OrderProofs ReduceProofs ReduceProofs2
  VarianceProofs PlateEqProofs GraphProofs EnumerateProofs InferenceProofs SamplingProofs SurrogateProofs SurrogateProofs2 SurrogateProofs3 MixedProofs.
Import ListNotations.

Section Exact.
Context {V : Type}.
Variable veq : V -> V -> bool.
Variable anc_unwrap : plate V -> stensor V -> res (stensor V).
Variable o : sops V.
Hypothesis Hring : is_ring o.
Variable o_exp : V -> V.
Variable recip : nat -> V.
Notation plate := (plate V).
Notation stensor := (stensor V).
Notation evar := (@evar V).
Notation N l := (map (@pname V) l).
Let Hring' : ring_theory (o_zero o) (o_one o) (o_add o) (o_mul o) (o_sub o) (o_opp o) (@eq V) := Hring.
Add Ring o_ring : Hring'.

Lemma same_name_NoDup : forall (l : list plate) p q, NoDup (N l) -> In p l -> In q l -> pname p = pname q -> p = q.
Proof.
  induction l as [|a l IH]; intros p q ND Hp Hq E; [destruct Hp|]. simpl in ND. inversion ND as [|? ? Hn ND']; subst.
  destruct Hp as [<-|Hp], Hq as [<-|Hq]; auto; exfalso; apply Hn; [rewrite E|rewrite <- E]; now apply in_map.
Qed.
Lemma one_callable : forall a : stensor, wf a -> plain (splates a) -> callable veq [a].
Proof.
  intros a Wa Hp. split; [fwf|]. simpl. rewrite app_nil_r. split; auto. intros p q Hp' Hq E.
  rewrite (same_name_NoDup _ p q (wf_names a Wa) Hp' Hq E). split; auto. apply peq_refl.
Qed.

Lemma wide_perm : forall l m : list plate, Permutation l m -> Permutation (wide l) (wide m).
Proof.
  intros l m H. unfold wide. induction H; simpl; auto; try (destruct (1 <? pn x)); try (destruct (1 <? pn y)); auto; try constructor; eauto using Permutation_trans.
Qed.
(** The log-probability of all components. *)
Lemma weighting_spec : forall (x : stensor) lp ev f base, wf x -> plain (splates x) -> has_log_prob x lp ev f ->
  exists w, enumerate_weighting veq anc_unwrap o o_exp lp x base = Ok (WStorch (sid w) (st w) (N (splates w))) /\
    wf w /\ Permutation (splates w) (splates x) /\ s_event_shape w = [] /\
    forall s, in_range s (splates x) -> den w s [] = o_exp (osum o (map (f s) (indices ev))).
Proof.
  intros x lp ev f base Wx Px Hl.
  assert (Hr : relabelled x x) by (constructor; auto).
  destruct (Hl x base Hr) as [t [E1 [Wt [Pt [Et Dt]]]]].
  assert (HC : callable veq [t]).
  { apply one_callable; auto. intros q Hq. apply Px. eapply Permutation_in; eauto. }
  assert (Epd : s_plate_dims x = s_plate_dims t).
  { rewrite (wf_dims x Wx), (wf_dims t Wt). apply Permutation_length. now apply wide_perm, Permutation_sym. }
  assert (En' : ndim (st t) = s_plate_dims t + length ev).
  { unfold ndim. rewrite (wf_shape t Wt), app_length, map_length, (wf_dims t Wt), Et. reflexivity. }
  assert (G : exists r, (if s_plate_dims t <? ndim (st t)
           then sum_dims veq anc_unwrap o top_ctx (seq (s_plate_dims x) (ndim (st t) - s_plate_dims x)) (PT t) (base + 1) else Ok (PT t)) = Ok (PT r) /\
           wf r /\ splates r = splates t /\ s_event_shape r = [] /\ forall s, in_range s (splates x) -> den r s [] = osum o (map (f s) (indices ev))).
  { rewrite En', Epd. destruct ev as [|n ev].
    - simpl length. rewrite Nat.add_0_r, Nat.ltb_irrefl. exists t. split; [reflexivity|]. split; [exact Wt|]. split; [reflexivity|]. split; [exact Et|].
      intros s Hs. rewrite Dt by (auto; constructor). unfold osum. simpl. ring.
    - replace (s_plate_dims t <? s_plate_dims t + length (n :: ev)) with true by (symmetry; apply Nat.ltb_lt; simpl; lia).
      replace (s_plate_dims t + length (n :: ev) - s_plate_dims t) with (length (n :: ev)) by lia.
      destruct (sum_dims_spec veq anc_unwrap o t (n :: ev) 0 (base + 1) HC) as [r [R1 [R2 [R3 [R4 R5]]]]].
      { now rewrite app_nil_r. } { discriminate. }
      exists r. split; [exact R1|]. split; [exact R4|]. split; [exact R2|]. split; [exact R3|]. intros s Hs. change (@nil nat) with (repeat 0 0). rewrite (R5 s).
      + f_equal. apply map_ext_in. intros e He. simpl. rewrite app_nil_r. apply Dt; auto. now apply in_indices.
      + apply (in_range_perm s (splates x)); auto. now apply Permutation_sym. }
  destruct G as [r [G1 [G2 [G3 [G4 G5]]]]].
  assert (HCr : callable veq [r]).
  { apply one_callable; auto. rewrite G3. intros q Hq. apply Px. eapply Permutation_in; eauto. }
  destruct (op1_spec veq anc_unwrap o_exp r (base + 4) HCr) as [w [W1 [W2 [W3 [W4 [_ [_ [_ W5]]]]]]]].
  exists w. unfold enumerate_weighting. rewrite E1. cbn [bind as_tensor]. rewrite G1. cbn [bind]. rewrite W1. cbn [bind as_tensor].
  split; [reflexivity|]. split; [exact W4|]. split; [rewrite W2, G3; exact Pt|]. split; [congruence|].
  intros s Hs. rewrite W5.
  - f_equal. now apply G5.
  - rewrite G3. apply (in_range_perm s (splates x)); auto. now apply Permutation_sym.
  - rewrite G4. constructor.
Qed.

Lemma wide_names_map : forall (L l : list plate), (forall q, In q l -> size_in L (pname q) = pn q) -> wide_names L (N l) = N (wide l).
Proof.
  intros L. induction l as [|q l IH]; intros H; auto. unfold wide_names, wide in *. simpl. rewrite (H q) by (simpl; auto).
  destruct (1 <? pn q); simpl; rewrite IH by (intros; apply H; simpl; auto); reflexivity.
Qed.

(** The plate of a sample: its weight at [s] is [W s]. *)
Definition weighs (p : plate) (W : assignment -> V) : Prop :=
  forall L, (forall q, In q (p :: pparents p) -> size_in L (pname q) = pn q) -> (forall q, In q (pparents p) -> In (pname q) (N L)) ->
  weight_fits L p /\ forall s, in_range s (p :: pparents p) -> weight_at L p s = W s.

Lemma count_pos : forall v : evar, var_ok v -> 1 <= count (ev_sizes v).
Proof. intros v [_ [-> |[d [-> Hd]]] _]; simpl; lia. Qed.
Lemma size_wide : forall v : evar, var_ok v -> 2 <= ev_options v ^ count (ev_sizes v).
Proof.
  intros v Hv. pose proof (count_pos v Hv). destruct Hv as [H2 _ _].
  apply Nat.le_trans with (ev_options v ^ 1); [simpl; lia|]. apply Nat.pow_le_mono_r; lia.
Qed.
Lemma row_nth : forall v : evar, var_ok v -> forall t e b, length t = count (ev_sizes v) -> valid e (ev_sizes v) -> row_at t (b ++ e) = nth (last e 0) t 0.
Proof.
  intros v [_ Hs _] t e b HL He. destruct Hs as [E|[d [E Hd]]]; rewrite E in *; simpl in HL.
  - inversion He; subst. destruct t as [|a [|? ?]]; try discriminate. reflexivity.
  - rewrite Nat.mul_1_r in HL. inversion He as [|i n e' l Hi He']; subst. inversion He'; subst. cbn [last].
    unfold row_at. destruct t as [|a [|a' t]]; simpl in *; try lia.
    + destruct i; [reflexivity|lia].
    + now rewrite last_last.
Qed.

Lemma expect_sample_spec : forall (v : evar) xs id base (G : stensor -> (assignment -> list nat -> V) -> Prop),
  let ts := param_tensors (ev_params v xs) in let Q := all_plates ts in
  var_ok v -> callable veq ts -> incl (plates_of ts) (plates_of xs) -> ~ In (ev_name v) (N (plates_of xs)) -> closed Q ->
  (forall q, In q (plates_of xs) -> 1 < pn q) ->
  (forall x p, new_sample v xs x p Q -> exists f, has_log_prob x (ev_lp v xs) (ev_sizes v) f /\
     forall x' p', new_sample v xs x' p' Q -> (forall s e, den x' s e = den x s e) -> N (splates x') = N (splates x) -> map pn (splates x') = map pn (splates x) -> G x' f) ->
  exists x p f rg, expect_sample veq anc_unwrap o o_exp recip (ev_name v) (ev_options v) (ev_budget v) (ev_value v) (ev_sizes v) (ev_lp v xs) (ev_params v xs) [] [] id base = Ok (x, rg) /\
    new_sample v xs x p Q /\ G x f /\ weighs p (fun s => o_exp (osum o (map (f s) (indices (ev_sizes v))))) /\
    forall s, in_range s (splates x) -> shows v x s (nth (s (ev_name v)) (tuples (ev_options v) (count (ev_sizes v))) []).
Proof.
  intros v xs id base G ts Q Hv Hc Hi Hfresh Hcl Hw Hlp. unfold expect_sample.
  pose proof (collect_params_plates veq (ev_params v xs) [] [] false) as P.
  destruct (collect_params veq (ev_params v xs) [] [] false) as [[parents plates] rg]. simpl in P. fold ts in P.
  destruct (all_plates_facts veq anc_unwrap ts Hc) as [AI [AD AX]].
  assert (EP : plates = Q).
  { rewrite P. destruct Hc as [Hwf [HA Hpl]]. destruct (folded_spec veq anc_unwrap ts [] (flat_map splates ts)) as [E _]; auto.
    - intros x []. - constructor. - intros u Hu x Hx. apply in_flat_map. eauto. }
  clear P. subst plates. fold Q in AI, AD, AX.
  assert (HQ : incl Q (plates_of xs)) by (intros q Hq; apply Hi, AI, Hq).
  assert (Hno : ~ In (ev_name v) (N Q)).
  { intros H. apply Hfresh. apply in_map_iff in H. destruct H as [q [<- H]]. apply in_map. auto. }
  rewrite (not_named (ev_name v)) by auto.
  assert (EW : wide Q = Q) by (apply filter_all; intros q Hq; apply Nat.ltb_lt; auto).
  assert (EM : mdp Q = Q) by exact EW.
  rewrite EM. unfold enumerate_sample.
  pose proof (enumerate_one (ev_options v) (ev_budget v) (map pn Q) (ev_sizes v) (vo_options v Hv) (vo_sizes v Hv) _ eq_refl) as EN.
  rewrite map_length in EN. rewrite EN. clear EN.
  fold (count (ev_sizes v)). set (amt := ev_options v ^ count (ev_sizes v)).
  assert (Eb : (ev_budget v <? amt) = false) by (apply Nat.ltb_ge, (vo_budget v Hv)). rewrite Eb. cbn [bind].
  pose proof (size_wide v Hv) as Hamt. fold amt in Hamt.
  set (p0 := new_plate recip (ev_name v) amt Q None).
  match goal with |- context [mk_tensor id ?t parents (p0 :: Q) true] => set (tt0 := t) end.
  destruct (mk_tensor_good id tt0 parents (p0 :: Q) true (ev_sizes v)) as [x0 [E [A1 [A2 [A3 [A4 [A5 [A6 A7]]]]]]]].
  { simpl. constructor; auto. } { intros q [<-|Hq]; [simpl; lia|apply HQ, Hw in Hq; lia]. }
  { simpl. replace (1 <? amt) with true by (symmetry; apply Nat.ltb_lt; lia). cbn [map app]. f_equal. fold (wide Q). now rewrite EW. }
  rewrite E. cbn [bind].
  assert (Hshow : forall x, st x = st x0 -> N (wide (splates x)) = ev_name v :: N Q -> forall s, s (ev_name v) < amt ->
     shows v x s (nth (s (ev_name v)) (tuples (ev_options v) (count (ev_sizes v))) [])).
  { intros x Ex Nx s Hs. pose proof (tuples_length (ev_options v) (count (ev_sizes v))) as TL. fold amt in TL.
    assert (Hj : joint (ev_options v) (count (ev_sizes v)) (nth (s (ev_name v)) (tuples (ev_options v) (count (ev_sizes v))) [])).
    { apply tuples_joint, nth_In. lia. }
    split; [exact Hj|]. intros e He. unfold den. rewrite Ex, A2.
    replace (map (fun p => s (pname p)) (wide (splates x))) with (map s (N (wide (splates x)))) by now rewrite map_map. rewrite Nx. unfold tt0. cbn [map app el hd tl]. f_equal.
    rewrite (nth_error_nth' _ [] (n := s (ev_name v))) by lia. apply (row_nth v Hv); auto. apply Hj. }
  assert (Hpl : plain (p0 :: Q)).
  { intros q [<-|Hq]; [reflexivity|]. destruct Hc as [_ [_ Hpl]]. apply Hpl. now apply AI. }
  assert (Wide0 : forall q : plate, pn q = amt -> wide (q :: Q) = q :: Q).
  { intros q Eq. unfold wide. simpl. rewrite Eq. replace (1 <? amt) with true by (symmetry; apply Nat.ltb_lt; lia). f_equal. exact EW. }
  assert (N0 : new_sample v xs x0 p0 Q).
  { constructor; auto. intros s Hs. eexists. apply Hshow; auto. rewrite A3, Wide0; auto. rewrite A3 in Hs. exact (Hs p0 (or_introl eq_refl)). }
  destruct (Hlp x0 p0 N0) as [f [Hf HG]].
  destruct (weighting_spec x0 (ev_lp v xs) (ev_sizes v) f base A7) as [w [W1 [W2 [W3 [W4 W5]]]]]; [now rewrite A3|exact Hf|].
  rewrite W1. cbn [bind]. rewrite A3.
  set (p := reweigh (WStorch (sid w) (st w) (N (splates w))) p0). set (x := set_plates x0 (p :: Q)).
  assert (Nx : new_sample v xs x p Q).
  { constructor; auto.
    - destruct A7 as [B1 B2 B3 B4]. rewrite A3 in *. constructor; [exact B1| | |].
      + intros q [<-|Hq]; [simpl; lia|]. apply B2. now right.
      + unfold x. cbn [set_plates splates st s_event_shape]. rewrite B3. rewrite !Wide0 by reflexivity. reflexivity.
      + unfold x. cbn [set_plates splates s_plate_dims]. rewrite B4. now rewrite !Wide0.
    - intros s Hs. eexists. apply Hshow; auto. unfold x. cbn [set_plates splates]. rewrite Wide0 by reflexivity. reflexivity.
      exact (Hs p (or_introl eq_refl)). }
  assert (Dx : forall s e, den x s e = den x0 s e).
  { intros s e. unfold den, x. cbn [set_plates splates st]. rewrite A3. rewrite !Wide0 by reflexivity. reflexivity. }
  exists x, p, f, rg. split; [reflexivity|]. split; [exact Nx|]. split.
  { apply (HG x p Nx Dx); unfold x; cbn [set_plates splates]; now rewrite A3. }
  split.
  - intros L HL Hpar. change (pparents p) with Q in *.
    assert (Psz : forall q, In q (splates w) -> size_in L (pname q) = pn q).
    { intros q Hq. apply (Permutation_in _ W3) in Hq. rewrite A3 in Hq. destruct Hq as [<-|Hq]; [exact (HL p (or_introl eq_refl))|apply HL; now right]. }
    assert (Hwn : wide_names L (N (splates w)) = N (wide (splates w))) by now apply wide_names_map.
    assert (Hnm : forall y, In y (N (splates w)) <-> In y (ev_name v :: N Q)).
    { intros y. rewrite A3 in W3. assert (Pn := Permutation_map (@pname V) W3). split; apply Permutation_in; [exact Pn|now apply Permutation_sym]. }
    split.
    + unfold weight_fits. change (pweight p) with (WStorch (V:=V) (sid w) (st w) (N (splates w))). cbn iota.
      split; [simpl; lia|]. split; [exact (wf_names w W2)|]. split; [apply Hnm; left; reflexivity|]. split.
      { intros y Hy. apply Hnm in Hy. destruct Hy as [<-|Hy]; [left; reflexivity|right; exact Hy]. }
      split; [exact Hpar|]. rewrite Hwn. rewrite (wf_shape w W2), W4, app_nil_r, map_map. apply map_ext_in. intros q Hq. symmetry. apply Psz. unfold wide in Hq. apply filter_In in Hq. tauto.
    + intros s Hs. unfold weight_at. change (pweight p) with (WStorch (V:=V) (sid w) (st w) (N (splates w))). cbn iota. rewrite Hwn.
      rewrite <- W5.
      * unfold den. rewrite app_nil_r, map_map. reflexivity.
      * rewrite A3. intros q [<-|Hq]; [exact (Hs p (or_introl eq_refl))|apply Hs; now right].
  - intros s Hs. apply Hshow; auto. unfold x. cbn [set_plates splates]. rewrite Wide0 by reflexivity. reflexivity. exact (Hs p (or_introl eq_refl)).
Qed.
(** ** All samples of a program *)
Notation LP := (list (list nat) -> list nat -> nat -> V).
Record item : Type := mkItem { it_v : evar; it_lp : LP; it_x : stensor; it_p : plate; it_Q : list plate }.
Record fact (pre : list item) (d : item) : Prop := {
  fa_var : var_ok (it_v d);
  fa_new : new_sample (it_v d) (map it_x pre) (it_x d) (it_p d) (it_Q d);
  fa_shows : forall s, in_range s (splates (it_x d)) -> shows (it_v d) (it_x d) s (nth (s (pname (it_p d))) (tuples (ev_options (it_v d)) (count (ev_sizes (it_v d)))) []);
  fa_weight : exists W, weighs (it_p d) W /\
    forall s us t, in_range s (splates (it_x d) ++ plates_of (map it_x pre)) -> all_show (map it_v pre) (map it_x pre) s us -> shows (it_v d) (it_x d) s t ->
    W s = o_exp (osum o (map (fun e => it_lp d us e (nth (last e 0) t 0)) (indices (ev_sizes (it_v d)))))
}.
Definition good (ds : list item) : Prop := forall pre d post, ds = pre ++ d :: post -> fact pre d.

Lemma good_nil : good [].
Proof. intros [|? ?] d post H; discriminate. Qed.
Lemma good_snoc : forall ds d, good ds -> fact ds d -> good (ds ++ [d]).
Proof.
  intros ds d Hg Hf pre d' post E. destruct post as [|q post] using rev_ind.
  - apply app_inj_tail in E. destruct E as [-> ->]. exact Hf.
  - clear IHpost. rewrite app_comm_cons, app_assoc in E. apply app_inj_tail in E. destruct E as [E _]. exact (Hg _ _ _ E).
Qed.
Lemma good_prefix : forall ds es, good (ds ++ es) -> good ds.
Proof. intros ds es H pre d post E. apply (H pre d (post ++ es)). rewrite E, <- app_assoc. reflexivity. Qed.
Lemma good_last : forall ds d, good (ds ++ [d]) -> fact ds d.
Proof. intros ds d H. exact (H ds d [] eq_refl). Qed.

Lemma good_plates : forall ds, good ds -> forall q, In q (plates_of (map it_x ds)) <-> In q (map it_p ds).
Proof.
  induction ds as [|d ds IH] using rev_ind; intros Hg q; [reflexivity|].
  pose proof (good_last _ _ Hg) as [_ Hn _ _]. specialize (IH (good_prefix _ _ Hg) q). unfold plates_of in *.
  rewrite !map_app, flat_map_app, !in_app_iff. cbn [map flat_map]. rewrite app_nil_r, (ns_plates _ _ _ _ _ Hn). simpl.
  pose proof (ns_incl _ _ _ _ _ Hn q) as HI. unfold plates_of in HI. tauto.
Qed.
Lemma good_NoDup : forall ds, good ds -> NoDup (N (map it_p ds)).
Proof.
  induction ds as [|d ds IH] using rev_ind; intros Hg; [constructor|].
  pose proof (good_last _ _ Hg) as [_ Hn _ _]. specialize (IH (good_prefix _ _ Hg)). rewrite !map_app. apply NoDup_app_intro; auto.
  - repeat constructor. intros [].
  - intros y Hy [<-|[]]. apply (ns_fresh _ _ _ _ _ Hn). apply in_map_iff in Hy. destruct Hy as [q [E Hq]]. rewrite <- E. apply in_map. now apply good_plates; [apply good_prefix in Hg|].
Qed.
Lemma good_names : forall ds, good ds -> N (map it_p ds) = map (fun d => ev_name (it_v d)) ds.
Proof.
  induction ds as [|d ds IH] using rev_ind; intros Hg; [reflexivity|]. rewrite !map_app, IH by exact (good_prefix _ _ Hg). f_equal.
  simpl. now rewrite (ns_name _ _ _ _ _ (fa_new _ _ (good_last _ _ Hg))).
Qed.
Lemma good_wide : forall ds, good ds -> forall q, In q (map it_p ds) -> 1 < pn q.
Proof.
  intros ds Hg q Hq. apply in_map_iff in Hq. destruct Hq as [d [<- Hd]]. apply in_split in Hd. destruct Hd as [pre [post E]].
  destruct (Hg pre d post E) as [Hv Hn _ _]. rewrite (ns_size _ _ _ _ _ Hn). pose proof (size_wide _ Hv). lia.
Qed.
Lemma combine_map : forall {A B C} (f : A -> B) (g : A -> C) l, combine (map f l) (map g l) = map (fun a => (f a, g a)) l.
Proof. induction l as [|a l IH]; simpl; auto. now rewrite IH. Qed.
Lemma map_eq_mid : forall {A B} (f : A -> B) l pre b post, map f l = pre ++ b :: post ->
  exists l1 a l2, l = l1 ++ a :: l2 /\ map f l1 = pre /\ f a = b /\ map f l2 = post.
Proof.
  intros A B f l. induction l as [|x l IH]; intros [|c pre] b post H; try discriminate; injection H as H1 H2.
  - exists [], x, l. auto.
  - destruct (IH _ _ _ H2) as [l1 [a [l2 [-> [E1 [E2 E3]]]]]]. exists (x :: l1), a, l2. simpl. repeat split; auto. congruence.
Qed.
Lemma good_drawn : forall ds, good ds -> drawn (map it_v ds) (map it_x ds).
Proof.
  intros ds Hg. split; [now rewrite !map_length|]. intros pre v x post E. rewrite combine_map in E. apply map_eq_mid in E.
  destruct E as [l1 [d [l2 [-> [<- [E2 _]]]]]]. injection E2 as <- <-. exists (it_p d), (it_Q d).
  pose proof (fa_new _ _ (Hg l1 d l2 eq_refl)) as H. now rewrite map_map.
Qed.

Definition vl_of (d : item) : evar * LP := (it_v d, it_lp d).
Definition vars_ok (done vl : list (evar * LP)) : Prop :=
  forall pre v lp post, vl = pre ++ (v, lp) :: post -> var_ok v /\ conditional veq (map fst (done ++ pre)) v lp.

Lemma samples_spec : forall vl ds base, good ds -> NoDup (map (fun d => ev_name (it_v d)) ds ++ map (fun vl => ev_name (fst vl)) vl) ->
  vars_ok (map vl_of ds) vl ->
  exists ds', map vl_of ds' = vl /\ good (ds ++ ds') /\
    expect_samples veq anc_unwrap o o_exp recip (map fst vl) (map it_x ds) base = Ok (map it_x (ds ++ ds')).
Proof.
  induction vl as [|[v lp] vl IH]; intros ds base Hg ND Hok.
  - exists []. rewrite app_nil_r. auto.
  - destruct (Hok [] v lp vl eq_refl) as [Hv Hc]. rewrite app_nil_r, map_map in Hc. change (map (fun x => fst (vl_of x)) ds) with (map it_v ds) in Hc.
    destruct (Hc (map it_x ds) (good_drawn ds Hg)) as [C1 [C2 [C3 C4]]].
    assert (Hfr : ~ In (ev_name v) (N (plates_of (map it_x ds)))).
    { intros H. apply in_map_iff in H. destruct H as [q [Eq Hq]]. apply good_plates in Hq; auto. apply (in_map (@pname V)) in Hq. rewrite good_names in Hq by auto.
      simpl in ND. apply NoDup_remove_2 in ND. apply ND. rewrite <- Eq. apply in_app_iff. now left. }
    destruct (expect_sample_spec v (map it_x ds) (length (map it_x ds)) (base + 10 * length (map it_x ds))
      (fun x f => forall s us t e, in_range s (splates x ++ plates_of (map it_x ds)) -> all_show (map it_v ds) (map it_x ds) s us -> shows v x s t -> valid e (ev_sizes v) ->
        f s e = lp us e (nth (last e 0) t 0)) Hv C1 C2 Hfr C3) as [x [p [f [rg [E1 [E2 [E3 [E4 E5]]]]]]]].
    { intros q Hq. apply (good_wide ds Hg). now apply good_plates. }
    { intros x p Hn. destruct (C4 x p Hn) as [f [F1 F2]]. exists f. split; [exact F1|]. intros x' p' Hn' Hd HN Hsz s us t e Hs Hus Ht He.
      apply (F2 s us t e); auto.
      - intros q Hq. apply in_app_iff in Hq. destruct Hq as [Hq|Hq]; [|apply Hs, in_app_iff; now right].
        rewrite (ns_plates _ _ _ _ _ Hn) in Hq. destruct Hq as [<-|Hq].
        + rewrite (ns_name _ _ _ _ _ Hn), (ns_size _ _ _ _ _ Hn), <- (ns_name _ _ _ _ _ Hn'), <- (ns_size _ _ _ _ _ Hn'). apply Hs. rewrite (ns_plates _ _ _ _ _ Hn'). now left.
        + apply Hs. rewrite (ns_plates _ _ _ _ _ Hn'). right. apply in_app_iff. now left.
      - destruct Ht as [T1 T2]. split; [exact T1|]. intros e' He'. rewrite <- Hd. auto. }
    set (d := mkItem v lp x p (all_plates (param_tensors (ev_params v (map it_x ds))))).
    assert (Hf : fact ds d).
    { constructor; auto.
      - intros s Hs. simpl. rewrite (ns_name _ _ _ _ _ E2). apply E5. exact Hs.
      - eexists. split; [exact E4|]. intros s us t Hs Hus Ht. cbn beta. cbn [it_v it_lp d]. f_equal. f_equal. apply map_ext_in. intros e He. apply E3; auto. now apply in_indices. }
    pose proof (good_snoc ds d Hg Hf) as Hg'.
    destruct (IH (ds ++ [d]) base Hg') as [ds' [D1 [D2 D3]]].
    { rewrite map_app, <- app_assoc. exact ND. }
    { intros pre v' lp' post E. destruct (Hok ((v, lp) :: pre) v' lp' post) as [X1 X2]; [simpl; now rewrite E|]. split; [exact X1|].
      replace (map vl_of (ds ++ [d]) ++ pre) with (map vl_of ds ++ (v, lp) :: pre) by (rewrite map_app, <- app_assoc; reflexivity). exact X2. }
    exists (d :: ds'). split; [simpl; now rewrite D1|]. rewrite <- app_assoc in D2, D3. split; [exact D2|].
    cbn [map fst expect_samples]. rewrite E1. cbn [bind]. rewrite map_app in D3. exact D3.
Qed.
(** ** The plates of a program *)
Section Plates.
Variable ds : list item.
Hypothesis Hg : good ds.
Variable FP : list plate.
Hypothesis HFP : forall q, In q FP <-> In q (map it_p ds).
Hypothesis NDF : NoDup (N FP).

Lemma item_of : forall q, In q FP -> exists pre d post, ds = pre ++ d :: post /\ it_p d = q /\ fact pre d.
Proof.
  intros q Hq. apply HFP, in_map_iff in Hq. destruct Hq as [d [E Hd]]. apply in_split in Hd. destruct Hd as [pre [post Eds]].
  exists pre, d, post. split; [exact Eds|]. split; [exact E|]. exact (Hg _ _ _ Eds).
Qed.
Lemma parents_before : forall pre d post q, ds = pre ++ d :: post -> In q (pparents (it_p d)) -> In q (map it_p pre).
Proof.
  intros pre d post q E Hq. pose proof (fa_new _ _ (Hg _ _ _ E)) as Hn. rewrite (ns_parents _ _ _ _ _ Hn) in Hq.
  apply (ns_incl _ _ _ _ _ Hn) in Hq. apply good_plates in Hq; auto. apply (good_prefix pre (d :: post)). now rewrite <- E.
Qed.
Lemma parents_FP : forall p q, In p FP -> In q (pparents p) -> In q FP.
Proof.
  intros p q Hp Hq. destruct (item_of p Hp) as [pre [d [post [E [<- _]]]]]. apply HFP. rewrite E, map_app. apply in_app_iff. left. exact (parents_before _ _ _ _ E Hq).
Qed.
Lemma above_FP : forall a p, above a p -> In p FP -> In a FP.
Proof. intros a p H. induction H as [a p H|a q p H Ha IH]; intros Hp; [exact (parents_FP _ _ Hp H)|]. apply IH. exact (parents_FP _ _ Hp H). Qed.
Lemma ancestry_FP : forall a, ancestry FP a -> In a FP.
Proof. intros a [H|[q [Hq H]]]; auto. exact (above_FP _ _ H Hq). Qed.

Lemma FP_sound : sound veq FP.
Proof.
  constructor.
  - split; [exact NDF|]. split.
    + intros p Hp. destruct (item_of p Hp) as [pre [d [post [E [<- Hf]]]]]. pose proof (fa_new _ _ Hf) as Hn. rewrite (ns_parents _ _ _ _ _ Hn).
      pose proof (wf_names _ (ns_wf _ _ _ _ _ Hn)) as W. rewrite (ns_plates _ _ _ _ _ Hn) in W. simpl in W. now inversion W.
    + intros p q Hp Hq E. rewrite (same_name_NoDup FP p q NDF (ancestry_FP _ Hp) (ancestry_FP _ Hq) E). apply peq_refl.
  - intros p q Hp Hq E. now rewrite (same_name_NoDup FP p q NDF (ancestry_FP _ Hp) (ancestry_FP _ Hq) E).
  - intros p Hp. apply ancestry_FP in Hp. destruct (item_of p Hp) as [pre [d [post [E [<- Hf]]]]]. exact (ns_class _ _ _ _ _ (fa_new _ _ Hf)).
  - intros p Hp. apply ancestry_FP, HFP in Hp. pose proof (good_wide ds Hg p Hp). lia.
Qed.
Lemma FP_acyclic : ~ cyclic FP.
Proof.
  intros [c [Hne [Hi Hc]]].
  assert (G : forall pre post, ds = pre ++ post -> forall q, In q c -> ~ In q (map it_p pre)).
  { induction pre as [|d pre IH] using rev_ind; intros post E q Hq Hin; [destruct Hin|]. rewrite <- app_assoc in E. simpl in E.
    specialize (IH _ E). rewrite map_app in Hin. apply in_app_iff in Hin. destruct Hin as [Hin|[<-|[]]]; [now apply (IH q)|].
    destruct (Hc _ Hq) as [p [Hp Hpar]]. unfold parent_of in Hpar. apply in_map_iff in Hpar. destruct Hpar as [q' [E' Hq']].
    pose proof (parents_before _ _ _ _ E Hq') as Hb. apply (IH p Hp). replace p with q'; auto.
    apply (same_name_NoDup FP q' p NDF); auto. apply HFP. rewrite E, map_app. apply in_app_iff. now left. }
  destruct c as [|q c]; [congruence|]. apply (G ds [] (eq_sym (app_nil_r ds)) q); [now left|]. apply HFP, Hi. now left.
Qed.
Lemma size_FP : forall q, In q FP -> size_in FP (pname q) = pn q.
Proof.
  intros q Hq. unfold size_in. destruct (find (fun p => String.eqb (pname p) (pname q)) FP) as [p|] eqn:E.
  - apply find_some in E. destruct E as [E1 E2]. apply String.eqb_eq in E2. now rewrite (same_name_NoDup FP p q NDF E1 Hq E2).
  - exfalso. pose proof (List.find_none _ _ E q Hq) as H. simpl in H. rewrite String.eqb_refl in H. discriminate.
Qed.
Lemma weighs_FP : forall p W, In p FP -> weighs p W -> weight_fits FP p /\ forall s, in_range s (p :: pparents p) -> weight_at FP p s = W s.
Proof.
  intros p W Hp HW. apply HW.
  - intros q [<-|Hq]; apply size_FP; auto. exact (parents_FP _ _ Hp Hq).
  - intros q Hq. apply in_map. exact (parents_FP _ _ Hp Hq).
Qed.
Lemma FP_ok : plates_ok veq FP.
Proof.
  constructor; [exact FP_sound|exact FP_acyclic|]. intros p Hp. destruct (item_of p Hp) as [pre [d [post [E [<- Hf]]]]].
  destruct (fa_weight _ _ Hf) as [W [HW _]]. apply (weighs_FP _ W); auto.
Qed.
Lemma FP_over : forall pre d post, ds = pre ++ d :: post -> over FP (it_x d).
Proof.
  intros pre d post E. pose proof (fa_new _ _ (Hg _ _ _ E)) as Hn.
  assert (Hp : In (it_p d) FP) by (apply HFP; rewrite E, map_app; apply in_app_iff; right; now left).
  constructor; [exact (ns_wf _ _ _ _ _ Hn)| |].
  - rewrite (ns_plates _ _ _ _ _ Hn). intros q [<-|Hq]; auto. apply (parents_FP (it_p d)); auto. now rewrite (ns_parents _ _ _ _ _ Hn).
  - rewrite (ns_plates _ _ _ _ _ Hn). intros p q [<-|Hp'] Hq.
    + right. apply in_map. now rewrite (ns_parents _ _ _ _ _ Hn) in Hq.
    + right. exact (ns_closed _ _ _ _ _ Hn p q Hp' Hq).
Qed.
End Plates.

(** ** Sums over outcomes *)
Hypothesis exp_add : forall x y, o_exp (o_add o x y) = o_mul o (o_exp x) (o_exp y).
Hypothesis exp_zero : o_exp (o_zero o) = o_one o.

Lemma nth_map_seq : forall (g : nat -> V) n k d, k < n -> nth k (map g (seq 0 n)) d = g k.
Proof. intros g n k d H. rewrite (nth_indep _ d (g 0)) by (now rewrite map_length, seq_length). rewrite map_nth, seq_nth by auto. reflexivity. Qed.
Lemma tuples_expected : forall e (gs : list (nat -> V)) f,
  osum o (map (fun t => o_mul o (o_exp (osum o (map (fun p => snd p (fst p)) (combine t gs)))) (f t)) (tuples e (length gs)))
  = expected o (map (fun g => map (fun k => o_exp (g k)) (seq 0 e)) gs) f.
Proof.
  intros e. induction gs as [|g gs IH]; intros f; cbn [length tuples map expected].
  - cbn [map osum fold_right combine]. unfold osum. simpl. rewrite exp_zero. ring.
  - rewrite map_length, seq_length.
    assert (G : forall l, (forall k, In k l -> k < e) ->
      osum o (map (fun t => o_mul o (o_exp (osum o (map (fun p => snd p (fst p)) (combine t (g :: gs))))) (f t)) (flat_map (fun v => map (cons v) (tuples e (length gs))) l))
      = osum o (map (fun k => o_mul o (nth k (map (fun k => o_exp (g k)) (seq 0 e)) (o_zero o)) (expected o (map (fun g => map (fun k => o_exp (g k)) (seq 0 e)) gs) (fun t => f (k :: t)))) l)).
    { induction l as [|k l IHl]; intros Hl; [reflexivity|]. cbn [flat_map map]. rewrite map_app, (SamplingProofs.osum_app o Hring), IHl by (intros; apply Hl; now right).
      rewrite (osum_cons o). f_equal. rewrite (nth_map_seq (fun k => o_exp (g k))) by (apply Hl; now left). rewrite <- IH, (osum_mul_l o Hring), map_map.
      apply (osum_ext o). intros t _. cbn [combine map]. rewrite (osum_cons o). cbn [fst snd]. rewrite exp_add. ring. }
    apply G. intros k Hk. apply in_seq in Hk. lia.
Qed.
Lemma NoDup_app_inv : forall {A} (l m : list A), NoDup (l ++ m) -> NoDup l /\ NoDup m /\ forall a, In a l -> ~ In a m.
Proof.
  induction l as [|x l IH]; intros m H; simpl in H; [repeat split; auto; constructor|]. inversion H as [|? ? Hn ND]; subst. destruct (IH m ND) as [H1 [H2 H3]].
  rewrite in_app_iff in Hn. repeat split; auto; [constructor; tauto|]. intros a [<-|Ha] Hm; [tauto|]. exact (H3 a Ha Hm).
Qed.
Lemma components : forall (v : evar) (h : list nat -> nat -> V) t, var_ok v -> length t = count (ev_sizes v) ->
  map (fun e => h e (nth (last e 0) t 0)) (indices (ev_sizes v)) = map (fun p => snd p (fst p)) (combine t (map h (indices (ev_sizes v)))).
Proof.
  intros v h t [_ Hs _] HL. destruct Hs as [E|[d [E Hd]]]; rewrite E in *; simpl in HL.
  - destruct t as [|a [|? ?]]; try discriminate. reflexivity.
  - rewrite Nat.mul_1_r in HL. assert (Ei : indices [d] = map (fun i => [i]) (seq 0 d)).
    { cbn [indices]. clear. induction (seq 0 d) as [|a l IH]; [reflexivity|]. cbn [flat_map map app] in *. now rewrite IH. }
    rewrite Ei, !map_map. cbn [last].
    replace (combine t) with (@combine nat (nat -> V) (map (fun i => nth i t 0) (seq 0 (length t)))) by (rewrite nth_seq_map; reflexivity).
    rewrite HL, combine_map, map_map. reflexivity.
Qed.
Lemma indices_count : forall v : evar, var_ok v -> length (indices (ev_sizes v)) = count (ev_sizes v).
Proof.
  intros v [_ Hs _]. destruct Hs as [-> |[d [-> Hd]]]; [reflexivity|]. cbn [indices count fold_right]. rewrite Nat.mul_1_r.
  transitivity (length (seq 0 d)); [|apply seq_length]. induction (seq 0 d) as [|a l IH]; simpl; auto.
Qed.
Lemma shows_ext : forall (v : evar) (x : stensor) s s' t, (forall q, In q (splates x) -> s (pname q) = s' (pname q)) -> shows v x s t -> shows v x s' t.
Proof.
  intros v x s s' t H [H1 H2]. split; auto. intros e He. rewrite <- H2 by auto. symmetry. apply den_ext. intros q Hq. apply H. unfold wide in Hq. apply filter_In in Hq. tauto.
Qed.
Lemma all_show_ext : forall (vars : list evar) xs s s' us, (forall q, In q (plates_of xs) -> s (pname q) = s' (pname q)) ->
  all_show vars xs s us -> all_show vars xs s' us.
Proof.
  induction vars as [|v vars IH]; intros [|x xs] s s' [|t us] H Hs; simpl in *; auto. destruct Hs as [H1 H2]. split.
  - apply (shows_ext v x s s'); auto. intros q Hq. apply H. apply in_app_iff. now left.
  - apply (IH xs s s'); auto. intros q Hq. apply H. apply in_app_iff. now right.
Qed.
Lemma all_show_snoc : forall (vars : list evar) xs s us v x t, all_show vars xs s us -> shows v x s t -> all_show (vars ++ [v]) (xs ++ [x]) s (us ++ [t]).
Proof.
  induction vars as [|v' vars IH]; intros [|x' xs] s [|t' us] v x t H Hs; simpl in *; auto; try tauto. destruct H. auto.
Qed.
Lemma sum_over_scale : forall ps c (f : assignment -> V) s, sum_over o ps (fun s => o_mul o c (f s)) s = o_mul o c (sum_over o ps f s).
Proof.
  induction ps as [|p ps IH]; intros c f s; simpl; auto. rewrite (osum_mul_l o Hring). apply (osum_ext o). intros i _. apply IH.
Qed.

Section Sum.
Variable ds : list item.
Hypothesis Hg : good ds.
Variable FP : list plate.
Hypothesis HFP : forall q, In q FP <-> In q (map it_p ds).
Hypothesis NDF : NoDup (N FP).
Variable c : stensor.
Variable F : list (list nat) -> V.
Hypothesis HF : forall s us, in_range s (plates_of (map it_x ds)) -> all_show (map it_v ds) (map it_x ds) s us -> den c s [] = F us.

Lemma chain_sum : forall post pre s us, ds = pre ++ post -> in_range s (map it_p pre) -> all_show (map it_v pre) (map it_x pre) s us ->
  sum_over o (map it_p post) (fun s' => o_mul o (oprod o (map (fun p => weight_at FP p s') (map it_p post))) (den c s' [])) s
  = exact o o_exp (map vl_of post) us F.
Proof.
  induction post as [|d post IH]; intros pre s us E Hr Hus.
  - rewrite app_nil_r in E. subst pre. cbn [map sum_over exact]. rewrite <- (HF s us); auto.
    + unfold oprod. simpl. ring.
    + intros q Hq. apply Hr. now apply good_plates.
  - pose proof (Hg _ _ _ E) as Hf. destruct Hf as [Hv Hn Hsh [W [HW HW2]]].
    set (p := it_p d) in *. set (v := it_v d) in *. set (x := it_x d) in *.
    assert (Hgp : good pre) by (apply (good_prefix pre (d :: post)); now rewrite <- E).
    assert (ND : NoDup (N (map it_p pre) ++ pname p :: N (map it_p post))).
    { pose proof (good_NoDup ds Hg) as H. rewrite E, !map_app in H. exact H. }
    assert (HpF : In p FP) by (apply HFP; rewrite E, map_app; apply in_app_iff; right; now left).
    destruct (weighs_FP ds Hg FP HFP NDF p W HpF HW) as [_ HWat].
    cbn [map sum_over]. unfold vl_of at 1. cbn [exact]. fold v p.
    set (T := tuples (ev_options v) (count (ev_sizes v))) in *.
    assert (TL : length T = pn p) by (unfold T; rewrite tuples_length; symmetry; exact (ns_size _ _ _ _ _ Hn)).
    transitivity (osum o (map (fun i => o_mul o (o_exp (osum o (map (fun e => it_lp d us e (nth (last e 0) (nth i T []) 0)) (indices (ev_sizes v)))))
        (exact o o_exp (map vl_of post) (us ++ [nth i T []]) F)) (seq 0 (pn p)))).
    { apply (osum_ext o). intros i Hi. apply in_seq in Hi. set (s1 := set_to s (pname p) i).
      assert (Off : forall q, In q (map it_p pre) -> pname q <> pname p /\ ~ In (pname q) (N (map it_p post))).
      { intros q Hq. apply (in_map (@pname V)) in Hq. apply NoDup_app_inv in ND. split.
        - intros Ep. apply (proj2 (proj2 ND) (pname q) Hq). left. congruence.
        - intros Ip. apply (proj2 (proj2 ND) (pname q) Hq). now right. }
      assert (Hpp : ~ In (pname p) (N (map it_p post))).
      { apply NoDup_app_inv in ND. destruct ND as [_ [ND _]]. now inversion ND. }
      assert (Hat : forall s', (forall y, ~ In y (N (map it_p post)) -> s' y = s1 y) ->
        in_range s' (map it_p pre) /\ s' (pname p) = i /\ all_show (map it_v pre) (map it_x pre) s' us /\ in_range s' (splates x) /\ shows v x s' (nth i T [])).
      { intros s' H.
        assert (Eq : forall q, In q (map it_p pre) -> s' (pname q) = s (pname q)).
        { intros q Hq. destruct (Off q Hq) as [O1 O2]. rewrite H by auto. unfold s1, set_to. destruct (String.eqb_spec (pname q) (pname p)); [contradiction|reflexivity]. }
        assert (Ep : s' (pname p) = i) by (rewrite H by auto; unfold s1, set_to; now rewrite String.eqb_refl).
        assert (R1 : in_range s' (map it_p pre)) by (intros q Hq; rewrite Eq by auto; now apply Hr).
        assert (R2 : in_range s' (splates x)).
        { rewrite (ns_plates _ _ _ _ _ Hn). intros q [<-|Hq]; [fold p; lia|]. apply R1. apply good_plates; auto. exact (ns_incl _ _ _ _ _ Hn q Hq). }
        split; [exact R1|]. split; [exact Ep|]. split.
        { apply (all_show_ext _ _ s s'); auto. intros q Hq. symmetry. apply Eq. now apply good_plates. }
        split; [exact R2|]. specialize (Hsh s' R2). fold p in Hsh. rewrite Ep in Hsh. exact Hsh. }
      rewrite <- (IH (pre ++ [d]) s1 (us ++ [nth i T []])).
      - rewrite <- sum_over_scale. apply (sum_over_ext anc_unwrap).
        { apply NoDup_app_inv in ND. destruct ND as [_ [ND _]]. now inversion ND. }
        intros s' H1 H2. destruct (Hat s' H1) as [A1 [A2 [A3 [A4 A5]]]].
        cbn [map oprod]. unfold oprod. cbn [fold_right]. fold (oprod o). rewrite HWat.
        + rewrite (HW2 s' us (nth i T [])); auto; [ring|]. intros q Hq. apply in_app_iff in Hq. destruct Hq as [Hq|Hq]; [now apply A4|]. apply A1. now apply good_plates.
        + rewrite (ns_parents _ _ _ _ _ Hn). rewrite (ns_plates _ _ _ _ _ Hn) in A4. exact A4.
      - rewrite E, <- app_assoc. reflexivity.
      - destruct (Hat s1) as [A1 [A2 [A3 [A4 A5]]]]; auto. rewrite map_app. intros q Hq. apply in_app_iff in Hq. destruct Hq as [Hq|[<-|[]]]; [now apply A1|]. fold p. lia.
      - destruct (Hat s1) as [A1 [A2 [A3 [A4 A5]]]]; auto. rewrite !map_app. apply all_show_snoc; auto. }
    rewrite <- TL.
    rewrite <- (map_map (fun i => nth i T []) (fun t => o_mul o (o_exp (osum o (map (fun e => it_lp d us e (nth (last e 0) t 0)) (indices (ev_sizes v)))))
        (exact o o_exp (map vl_of post) (us ++ [t]) F))). rewrite nth_seq_map.
    pose proof (tuples_expected (ev_options v) (map (it_lp d us) (indices (ev_sizes v))) (fun t => exact o o_exp (map vl_of post) (us ++ [t]) F)) as X.
    rewrite map_length, (indices_count v Hv), map_map in X. rewrite <- X. apply (osum_ext o). intros t Ht. apply tuples_joint in Ht. f_equal. f_equal. f_equal.
    apply (components v (it_lp d us) t Hv). apply Ht.
Qed.
End Sum.
Theorem expect_exact : evaluates o o_exp -> forall (vl : list (evar * LP)) cost F base,
  NoDup (map (fun p => ev_name (fst p)) vl) ->
  (forall pre v lp post, vl = pre ++ (v, lp) :: post -> var_ok v /\ conditional veq (map fst pre) v lp) ->
  cost_ok (map fst vl) cost F ->
  exists enough, forall fuel, enough <= fuel ->
  exists t, expect_program veq anc_unwrap o o_exp recip fuel (map fst vl) cost base = Ok t /\ shape t = [] /\ el t [] = exact o o_exp vl [] F.
Proof.
  intros Hev vl cost F base ND Hok Hcost.
  destruct (samples_spec vl [] base good_nil ND) as [ds [D1 [Hg D2]]]; [intros pre v lp post E; exact (Hok pre v lp post E)|].
  cbn [app map] in Hg, D2. set (xs := map it_x ds) in *.
  assert (Ev : map fst vl = map it_v ds) by (rewrite <- D1, map_map; reflexivity).
  assert (Hd : drawn (map fst vl) xs) by (rewrite Ev; now apply good_drawn).
  destruct (Hcost xs Hd) as [C1 [C2 [C3 [C4 C5]]]]. set (c := cost xs) in *.
  assert (HFP : forall q, In q (splates c) <-> In q (map it_p ds)).
  { intros q. rewrite <- (good_plates ds Hg q). split; auto. }
  pose proof (wf_names c C1) as NDF.
  set (k := length (map fst vl)). set (nodes := expect_nodes (map fst vl) xs c).
  assert (Ek : nodes k = mkNode c "cost"%string None).
  { unfold nodes, expect_nodes. rewrite (proj2 (nth_error_None (map fst vl) k)) by (unfold k; lia). reflexivity. }
  assert (Hov : over (splates c) c).
  { split; [exact C1|apply incl_refl|]. intros p q Hp Hq. apply in_map. exact (parents_FP ds Hg (splates c) HFP p q Hp Hq). }
  assert (Hwide : wide (splates c) = splates c).
  { apply filter_all. intros q Hq. apply Nat.ltb_lt. apply (good_wide ds Hg). now apply HFP. }
  assert (Hset : mixed_setup veq anc_unwrap o o_exp nodes (expect_graph k) k (splates c) [] (fun _ _ => o_zero o)).
  { constructor.
    - exact (FP_ok ds Hg (splates c) HFP NDF).
    - rewrite Ek. exact Hov.
    - rewrite Ek. exact C4.
    - rewrite Ek. cbn [nd_t]. rewrite Hwide. intros p Hp. left. intros q Hq. apply in_map. exact (parents_FP ds Hg (splates c) HFP p q Hp Hq).
    - constructor.
    - intros a _. destruct (nth_error (map fst vl) a) as [v|] eqn:E1.
      + destruct (nth_error ds a) as [d|] eqn:E2.
        * right. assert (E3 : nth_error xs a = Some (it_x d)) by (unfold xs; now apply map_nth_error).
          assert (En : exists n, nodes a = mkNode (it_x d) (ev_name v) (Some (n, ev_lp v (firstn a xs), true, Some expect_method))) by (eexists; unfold nodes, expect_nodes; rewrite E1, E3; reflexivity).
          destruct En as [n En]. split; [|split].
          { apply (Sc_path nodes k a n (ev_lp v (firstn a xs)) expect_method false); [now rewrite En|reflexivity]. }
          { rewrite En. cbn [nd_t]. apply nth_error_split in E2. destruct E2 as [pre [post [E2 _]]]. exact (FP_over ds Hg (splates c) HFP pre d post E2). }
          left. exists n, (ev_lp v (firstn a xs)), expect_method. split; [now rewrite En|reflexivity].
        * exfalso. apply nth_error_None in E2. assert (a < length (map fst vl)) by (apply nth_error_Some; congruence). rewrite Ev, map_length in H. lia.
      + left. apply Sc_det. unfold nodes, expect_nodes. now rewrite E1.
    - intros a [].
    - intros a []. }
  assert (Hist : history (map (fun i => seq 0 i) (seq 0 (S k)))).
  { intros i p Hp. destruct (lt_dec i (S k)) as [Hi|Hi].
    - rewrite (nth_indep _ [] (seq 0 0)) in Hp by (now rewrite map_length, seq_length). rewrite (map_nth (fun i => seq 0 i)), seq_nth in Hp by auto. apply in_seq in Hp. lia.
    - rewrite nth_overflow in Hp by (rewrite map_length, seq_length; lia). destruct Hp. }
  destruct (quiet_loss (S := unit) veq anc_unwrap o Hring o_exp Hev nodes (expect_graph k) (seq 0 (S k)) [k] (fun _ => splates c) tt base) as [en Hen].
  { pose proof (built_closed_par _ _ Hist (all_built _ Hist)) as H. rewrite map_length, seq_length in H. exact H. }
  { intros a [<-|[]]. apply in_seq. lia. } { discriminate. }
  { intros a [<-|[]]. exact Hset. }
  exists en. intros fuel Hf. destruct (Hen fuel Hf) as [t [T1 [T2 T3]]]. exists t. split; [|split; [exact T2|]].
  - unfold expect_program. change (@nil stensor) with (map it_x []). cbn [map]. rewrite D2. cbn [bind]. exact T1.
  - rewrite T3. cbn [map]. rewrite Ek. cbn [nd_t]. rewrite (osum_cons o). replace (osum o []) with (o_zero o) by reflexivity.
    rewrite <- D1. rewrite <- (chain_sum ds Hg (splates c) HFP NDF c F) with (pre := []) (s := fun _ => 0).
    + assert (HP : Permutation (splates c) (map it_p ds)).
      { apply NoDup_Permutation; [now apply (NoDup_map_inv (@pname V))| |exact HFP]. apply (NoDup_map_inv (@pname V)). now apply good_NoDup. }
      unfold weighted_sum. rewrite (sum_over_perm o Hring _ _ _ _ HP NDF).
      * match goal with |- o_add o ?a (o_zero o) = _ => transitivity a; [ring|] end.
        apply (sum_over_ext anc_unwrap); [now apply good_NoDup|]. intros s _ _. f_equal. apply (oprod_perm o Hring). now apply Permutation_map.
      * intros s s' H. f_equal; [|now apply den_ext_fun]. exact (wprod_ext o false (splates c) _ s s' H).
    + rewrite Ev in C5. exact C5.
    + reflexivity.
    + intros q [].
    + exact I.
Qed.
End Exact.
