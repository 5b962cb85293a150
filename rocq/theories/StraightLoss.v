(** Straight-line programs meet what the theorems about the score function ask for. *)
From Coq Require Import String List Arith Bool Lia Permutation Relations.Relation_Operators.
From Verif Require Import Base Torch Plates Wrap Scalar Inference Graph Surrogate Sampling Straight ListLemmas IndexLemmas SpecTensor SpecWrap SpecOrder
  SpecReduce SpecGraph SpecSurrogate SpecSampling SpecProgram WrapProofs PlateEqProofs AlignProofs CallProofs CallProofs2 OpProofs CallN
  InferenceProofs SamplingProofs OrderProofs ReduceProofs2 SurrogateProofs GraphProofs ProgramProofs ProgramProofs2 StraightCall StraightProofs SpecStraight.
Import ListNotations.
Open Scope nat_scope.

Section Loss.
Context {V S : Type}.
Variable veq : V -> V -> bool.
Variable anc_unwrap : plate V -> stensor V -> res (stensor V).
Variable recip : nat -> V.
Variable o : sops V.
Variable o_exp : V -> V.
Notation plate := (plate V).
Notation stensor := (stensor V).
Notation N l := (map (@pname V) l).
Variable prog : list (line V).
Hypothesis Hok : straight_ok o o_exp prog.
Notation PL i := (nth i (plates_of recip prog) []).
Notation ND i := (nth i (needs prog) []).
Notation VAL s r i := (nth i (values o s r prog) (scalar0 o)).
Notation pg := (sampling o recip prog).
Notation dflt := (no_tensor o).

Let ND_eq' : forall i x, nth_error prog i = Some x -> ND i = let l := nodup Nat.eq_dec (flat_map (fun a => ND a) (args_of x)) in if is_draw x then i :: l else l := ND_eq o o_exp prog Hok.
Let args_lt' := args_lt o o_exp prog Hok.
Let ND_lt' : forall i b, In b (ND i) -> b <= i /\ In b (draws_of prog) := ND_lt o o_exp prog Hok.
Let ND_arg' : forall i x a b, nth_error prog i = Some x -> In a (args_of x) -> In b (ND a) -> In b (ND i) := ND_arg o o_exp prog Hok.
Let VAL_local' : forall s s' r r' i, (forall p, In p (PL i) -> data_name prog (pname p) -> s (pname p) = s' (pname p)) -> (forall b, In b (ND i) -> r b = r' b) -> VAL s r i = VAL s' r' i
  := VAL_local anc_unwrap recip o o_exp prog Hok.
Let arg_in_PL' : forall i x a p, nth_error prog i = Some x -> In a (args_of x) -> In p (PL a) -> In p (PL i) := arg_in_PL anc_unwrap recip o o_exp prog Hok.

Lemma draws_in : forall a, In a (draws_of prog) <-> exists x, nth_error prog a = Some x /\ is_draw x = true.
Proof.
  intros a. unfold draws_of. rewrite filter_In. split.
  - intros [_ H]. destruct (nth_error prog a) as [x|]; [|discriminate]. eauto.
  - intros [x [Hx H]]. rewrite Hx. split; auto. apply in_seq. assert (a < length prog) by (apply nth_error_Some; congruence). lia.
Qed.
Lemma ND_self : forall a, In a (draws_of prog) -> In a (ND a).
Proof. intros a H. apply draws_in in H. destruct H as [x [Hx D]]. rewrite (ND_eq' a x Hx). cbv zeta. rewrite D. simpl; auto. Qed.
Lemma ND_split : forall i x b, nth_error prog i = Some x -> In b (ND i) -> b = i \/ exists a, In a (args_of x) /\ In b (ND a).
Proof.
  intros i x b Hx Hb. rewrite (ND_eq' i x Hx) in Hb. cbv zeta in Hb.
  assert (G : In b (nodup Nat.eq_dec (flat_map (fun a => ND a) (args_of x))) -> exists a, In a (args_of x) /\ In b (ND a)).
  { intros H. now apply nodup_In, in_flat_map in H. }
  destruct (is_draw x); auto. destruct Hb as [<-|Hb]; auto.
Qed.
Lemma ND_some : forall i b, In b (ND i) -> exists x, nth_error prog i = Some x.
Proof.
  intros i b H. destruct (nth_error prog i) as [x|] eqn:Hx; eauto. apply nth_error_None in Hx. rewrite nth_overflow in H by (unfold needs; now rewrite scan_length). destruct H.
Qed.
Lemma ND_trans : forall i b c, In b (ND i) -> In c (ND b) -> In c (ND i).
Proof.
  induction i as [i IH] using lt_wf_ind. intros b c Hb Hc. destruct (ND_some i b Hb) as [x Hx].
  destruct (ND_split i x b Hx Hb) as [->|[a [Ha Hb']]]; auto. eapply ND_arg'; eauto.
Qed.
Lemma ND_plates : forall i b p, In b (ND i) -> In p (PL b) -> In p (PL i).
Proof.
  induction i as [i IH] using lt_wf_ind. intros b p Hb Hp. destruct (ND_some i b Hb) as [x Hx].
  destruct (ND_split i x b Hx Hb) as [->|[a [Ha Hb']]]; auto. eapply arg_in_PL'; eauto.
Qed.

Hypothesis Hskip : no_skips recip prog.
Lemma PL_gaps : forall c, no_gaps (wide (PL c)).
Proof.
  intros c p Hp. apply filter_In in Hp. destruct Hp as [Hp Hw]. apply Nat.ltb_lt in Hw.
  destruct (PL_from anc_unwrap recip o o_exp prog Hok c p Hp) as [d [_ [x [name [Hx [_ E]]]]]]. subst p. cbn [pn own] in Hw.
  destruct (Hskip d x Hx Hw) as [H|H]; [left|right].
  - intros q Hq. apply in_map. apply filter_In. split; [exact (PL_parents anc_unwrap recip o o_exp prog Hok c _ q Hp Hq)|]. apply Nat.ltb_lt. apply H. exact Hq.
  - intros a Ha. assert (Q : In a (joined (plates_of recip prog) (args_of x))).
    { remember (own recip prog x name) as p eqn:Ep. destruct Ha as [a p Ha|a q p Hq Ha]; subst p; [exact Ha|]. cbn [pparents own] in Hq.
      apply (joined_in anc_unwrap recip prog) in Hq. destruct Hq as [b [Hb Hq]].
      apply (arg_in_Q anc_unwrap recip o o_exp prog Hok d x b a Hx Hb). apply (PL_ancestry anc_unwrap recip o o_exp prog Hok b). right. exists q. split; [exact Hq|exact Ha]. }
    intros C. apply in_map_iff in C. destruct C as [a' [E C]]. apply filter_In in C. destruct C as [C W]. apply Nat.ltb_lt in W.
    assert (Ac : In a (PL c)) by (apply (PL_ancestry anc_unwrap recip o o_exp prog Hok c); right; eexists; split; [exact Hp|exact Ha]).
    rewrite (made_PL anc_unwrap recip o o_exp prog Hok c c a' a C Ac E) in W. specialize (H a Q). lia.
Qed.

(** The graph of a run. *)
Section Run.
Variable w : @world nat.
Variable env : list stensor.
Hypothesis Hg : good recip o prog w (length prog) env.

Lemma parents_at : forall i j, i < length prog -> (In j (nth i (map sparents env) []) <-> exists x, nth_error prog i = Some x /\ In j (args_of x)).
Proof.
  intros i j Hi. destruct Hg as [L G]. rewrite <- (ta_parents _ _ _ _ _ _ (G i Hi)).
  change (@nil nat) with (sparents dflt). rewrite (map_nth (@sparents V)). tauto.
Qed.
Lemma env_history : history (map sparents env).
Proof.
  intros i j H. destruct (Nat.lt_ge_cases i (length prog)) as [L|L].
  - apply parents_at in H; auto. destruct H as [x [Hx Hj]]. eapply args_lt'; eauto.
  - rewrite nth_overflow in H by (rewrite map_length; destruct Hg; lia). destruct H.
Qed.
Lemma graph_built : built (map sparents env) (graph env).
Proof.
  pose proof (all_built _ env_history) as B. unfold graph.
  assert (E : forall (l : list stensor) h, fold_left (fun h x => construct (sparents x) h) l h = fold_left (fun h ps => construct ps h) (map sparents l) h).
  { induction l as [|x l IH]; intros h; [reflexivity|]. cbn [map fold_left]. apply IH. }
  rewrite E. exact B.
Qed.
Lemma graph_step : forall i j, i < length prog -> (follows (h_parents (graph env)) false i j <-> exists x, nth_error prog i = Some x /\ In j (args_of x)).
Proof.
  intros i j Hi. rewrite <- (parents_at i j Hi), <- (built_par _ _ i graph_built). split.
  - intros [d [Hd _]]. apply in_map_iff. exists (j, d). auto.
  - intros H. apply in_map_iff in H. destruct H as [[j' d] [E H]]. cbn in E. subst j'. exists d. split; auto. discriminate.
Qed.
Lemma graph_closed : closed_under (h_parents (graph env)) (seq 0 (length prog)).
Proof. pose proof (built_closed_par _ _ env_history graph_built) as H. rewrite map_length in H. destruct Hg as [L _]. now rewrite L in H. Qed.
Lemma reach_needs : forall c a, c < length prog -> (reachable (h_parents (graph env)) false c a /\ In a (draws_of prog) <-> In a (ND c)).
Proof.
  intros c a Hc. split.
  - intros [H D]. induction H as [c|c b a Hcb Hba IH]; [now apply ND_self|]. apply graph_step in Hcb; auto. destruct Hcb as [x [Hx Hb]].
    eapply ND_arg'; eauto. apply IH; auto. exact (args_len o o_exp prog Hok c x b Hx Hb).
  - intros H. split; [|now destruct (ND_lt' c a H)]. revert a H Hc. induction c as [c IH] using lt_wf_ind. intros a H Hc. destruct (ND_some c a H) as [x Hx].
    destruct (ND_split c x a Hx H) as [->|[b [Hb Ha]]]; [constructor|]. apply (rt1n_trans _ _ c b); [apply graph_step; eauto|].
    pose proof (args_lt' c x b Hx Hb). apply IH; auto. lia.
Qed.
Lemma reach_lt : forall c a, c < length prog -> reachable (h_parents (graph env)) false c a -> a < length prog.
Proof.
  intros c a Hc H. induction H as [c|c b a Hcb Hba IH]; auto. apply IH. apply graph_step in Hcb; auto. destruct Hcb as [x [Hx Hb]]. exact (args_len o o_exp prog Hok c x b Hx Hb).
Qed.

(** Which tensors get a term. *)
Variable bl : nat -> option (@baseline V S).
Notation nodes := (node (S := S) veq anc_unwrap o o_exp bl (map fst prog) env).
Definition graded (a : nat) : bool := match nth_error prog a with Some (Draw _ _ _ _ g _, _) => g | _ => false end.
Lemma graded_draw : forall a, graded a = true -> In a (draws_of prog).
Proof. intros a H. apply draws_in. unfold graded in H. destruct (nth_error prog a) as [[[]]|]; try discriminate. eexists. split; reflexivity. Qed.
Lemma node_scored : forall c a, a < length prog -> scored nodes c a (graded a).
Proof.
  intros c a Ha. unfold graded. destruct (nth_error prog a) as [x|] eqn:Hx; [|apply nth_error_None in Hx; lia].
  assert (Hf : nth_error (map fst prog) a = Some (fst x)) by (now apply map_nth_error).
  destruct x as [[name t|name n sizes args grad lp|fn args] m]; cbn [fst] in Hf.
  - apply Sc_det. unfold node. rewrite Hf. reflexivity.
  - destruct grad.
    + assert (E : nd_sto (nodes a) = Some (n, log_prob_of veq anc_unwrap lp (map (fun b => nth b env dflt) args), true, Some (score_method veq anc_unwrap o o_exp (bl a))))
        by (unfold node; rewrite Hf; reflexivity).
      exact (Sc_path nodes c a n _ (score_method veq anc_unwrap o o_exp (bl a)) false E eq_refl).
    + eapply Sc_not; [unfold node; rewrite Hf; reflexivity|auto].
  - apply Sc_det. unfold node. rewrite Hf. reflexivity.
Qed.
Lemma scored_graded : forall c a b, a < length prog -> scored nodes c a b -> b = graded a.
Proof.
  intros c a b Ha H. pose proof (node_scored c a Ha) as G.
  inversion H as [E1|n lp r m E1 E2|n lp m b' E1 E2]; inversion G as [E3|n' lp' r' m' E3 E4|n' lp' m' b'' E3 E4]; try congruence; subst.
  - rewrite E1 in E3. injection E3; intros; subst. destruct E2; discriminate.
  - rewrite E1 in E3. injection E3; intros; subst. destruct E4; discriminate.
Qed.
Lemma node_tensor : forall a, nd_t (nodes a) = nth a env dflt.
Proof. intros a. unfold node. destruct (nth_error (map fst prog) a) as [[]|]; reflexivity. Qed.
Lemma node_over : forall c a, a < length prog -> incl (PL a) (PL c) -> over (PL c) (nd_t (nodes a)).
Proof.
  intros c a Ha Hi. rewrite node_tensor. destruct Hg as [_ G]. specialize (G a Ha). constructor; [apply G| |]; rewrite (ta_plates _ _ _ _ _ _ G).
  - exact Hi.
  - apply (PL_closed anc_unwrap recip o o_exp prog Hok a).
Qed.

(** The log-probability of a variable. *)
Lemma draw_log_prob : forall a name n sizes args grad lp m value evl g, nth_error prog a = Some (Draw name n sizes args grad lp, MDraw m value evl g) ->
  has_log_prob (nth a env dflt) (log_prob_of veq anc_unwrap lp (map (fun b => nth b env dflt) args)) evl
    (fun s => el (g (evened (mkten sizes (el (value (along pg w s a))) :: named o (values o s (along pg w s) prog) args)))).
Proof.
  intros a name n sizes args grad lp m value evl g Hx b base [Wb Pb Eb Db].
  assert (La : a < length prog) by (apply nth_error_Some; congruence).
  assert (Ga : good recip o prog w a (firstn a env)).
  { destruct Hg as [L G]. split; [rewrite firstn_length; lia|]. intros i Hi. rewrite nth_firstn_lt by auto. apply G. lia. }
  assert (Hargs : forall j, In j args -> j < a) by (intros j Hj; exact (args_lt' a _ j Hx Hj)).
  assert (Et : map (fun b => nth b env dflt) args = map (fun b => nth b (firstn a env) dflt) args) by (symmetry; apply map_nth_firstn; exact Hargs).
  rewrite Et. set (ts := map (fun b => nth b (firstn a env) dflt) args) in *.
  pose proof (proj2 Hg a La) as T.
  assert (TE : s_event_shape (nth a env dflt) = sizes) by (rewrite (ta_event _ _ _ _ _ _ T), Hx; reflexivity).
  pose proof (picked_callable veq anc_unwrap recip o o_exp prog Hok w a (firstn a env) Ga args Hargs) as HC. fold ts in HC.
  assert (HPb : forall p, In p (splates b) -> In p (PL a)).
  { intros p Hp. rewrite <- (ta_plates _ _ _ _ _ _ T). exact (Permutation_in _ (Permutation_sym Pb) Hp). }
  assert (HPt : forall t p, In t ts -> In p (splates t) -> In p (PL a)).
  { intros t p Ht Hp. destruct (picked_ta recip o prog w a (firstn a env) Ga args Hargs t Ht) as [j [J1 [_ J3]]].
    rewrite (ta_plates _ _ _ _ _ _ J3) in Hp. exact (arg_in_PL' a _ j p Hx J1 Hp). }
  assert (HCb : callable veq (b :: ts)).
  { destruct HC as [C1 [C2 C3]]. assert (X : forall p, In p (flat_map splates (b :: ts)) -> In p (PL a)).
    { intros p Hp. cbn [flat_map] in Hp. apply in_app_or in Hp. destruct Hp as [Hp|Hp]; auto. apply in_flat_map in Hp. destruct Hp as [t [Ht Hp]]. eauto. }
    split; [constructor; auto|]. split.
    - intros p q Hp Hq E. apply X in Hp. apply X in Hq. rewrite (made_PL anc_unwrap recip o o_exp prog Hok a a p q Hp Hq E). split; auto. apply (peq_refl veq).
    - intros p Hp. apply X in Hp. exact (PL_plain anc_unwrap recip o o_exp prog Hok a p Hp). }
  assert (EP : all_plates (b :: ts) = splates b).
  { unfold all_plates. cbn [fold_left]. rewrite union_nil_l by assumption. assert (G : forall l, (forall t p, In t l -> In p (splates t) -> In p (PL a)) ->
      fold_left (fun acc t => union acc (splates t)) l (splates b) = splates b); [|apply G; exact HPt].
    induction l as [|t l IH]; intros H; [reflexivity|]. cbn [fold_left]. rewrite union_sub; [apply IH; intros; eapply H; simpl; eauto|].
    intros q Hq. apply in_map. apply (Permutation_in _ Pb). rewrite (ta_plates _ _ _ _ _ _ T). exact (H t q (or_introl eq_refl) Hq). }
  assert (Hlead : leading (evened_shapes (map s_event_shape (b :: ts))) evl g lp).
  { cbn [map]. rewrite Eb, TE. unfold ts. rewrite (picked_events recip o prog w a (firstn a env) Ga args Hargs) by lia.
    exact (proj1 (proj2 (proj2 (proj2 Hok a _ Hx)))). }
  destruct (call_leading veq anc_unwrap (b :: ts) evl g lp base) as [r [R1 [R2 [R3 [R4 [R5 [R6 R7]]]]]]]; auto; [discriminate|].
  exists r. unfold log_prob_of. fold ts. split; [exact R1|]. split; [exact R4|]. split; [rewrite R2, EP; now apply Permutation_sym|]. split; [exact R3|].
  intros s e Hs He. rewrite EP in R7. rewrite R7 by (auto; exact (in_range_perm s _ _ Pb Hs)).
  rewrite (ta_plates _ _ _ _ _ _ T) in Hs.
  assert (EM : max_event (b :: ts) = maxl (map rank (mkten sizes (el (value (along pg w s a))) :: named o (values o s (along pg w s) prog) args))).
  { rewrite max_event_maxl. f_equal. cbn [map]. unfold rank at 1. cbn [shape]. rewrite Eb, TE. f_equal.
    rewrite map_map. unfold ts, named. rewrite !map_map. apply map_ext_in. intros j Hj. unfold rank.
    pose proof (VAL_shape o o_exp prog Hok s (along pg w s) j ltac:(specialize (Hargs j Hj); lia)) as Es. cbv beta in Es. rewrite Es.
    rewrite (ta_event _ _ _ _ _ _ (proj2 Ga j (Hargs j Hj))). reflexivity. }
  unfold evened. rewrite <- EM. destruct Hlead as [_ Hext]. apply Hext; auto.
  - rewrite map_map. cbn [shape slice]. now rewrite <- (evened_map (b :: ts)).
  - cbn [map]. constructor.
    + unfold teq, slice, padded_to, rank. cbn [shape el]. rewrite Eb, TE. split; auto. intros i Hi. unfold s_event_dims. rewrite Eb, TE.
      assert (Hv : valid (firstn (length sizes) i) sizes) by (eapply valid_firstn_pad; eauto).
      rewrite Db; [|rewrite (ta_plates _ _ _ _ _ _ T); exact Hs|rewrite TE; exact Hv].
      rewrite (ta_den _ _ _ _ _ _ T s); [|exact Hs|rewrite Hx; exact Hv].
      pose proof (VAL_eq o o_exp prog Hok s (along pg w s) a _ Hx) as Ev. cbv beta in Ev. rewrite Ev. reflexivity.
    + unfold ts. apply (picked_slice recip o o_exp prog Hok w a (firstn a env) Ga args Hargs s); [|lia].
      intros j p Hj Hp. apply Hs. exact (arg_in_PL' a _ j p Hx Hj Hp).
Qed.

Lemma setup : forall c, c < length prog -> event_of (nth c prog (Call (fun _ => Err TypeError) [], MData)) = [] ->
  score_setup veq anc_unwrap o o_exp nodes (graph env) c (PL c) (filter graded (ND c)) bl
    (fun a s => pg_logp pg a s (along pg w s)).
Proof.
  intros c Hc Hev. pose proof (PL_ok veq anc_unwrap recip o o_exp prog Hok c) as HPok.
  assert (HT : tensor_at recip o prog w c (nth c env dflt)) by (apply Hg; auto).
  assert (Hplates : splates (nd_t (nodes c)) = PL c) by (rewrite node_tensor; apply HT).
  assert (Hin : forall a, In a (filter graded (ND c)) -> In a (ND c) /\ graded a = true /\ a < length prog).
  { intros a H. apply filter_In in H. destruct H as [H1 H2]. destruct (ND_lt' c a H1). repeat split; auto. lia. }
  constructor.
  - exact HPok.
  - apply node_over; auto. apply incl_refl.
  - rewrite node_tensor, (ta_event _ _ _ _ _ _ HT). destruct (nth_error prog c) as [x|] eqn:Hx; auto. now rewrite (nth_error_nth _ _ _ Hx) in Hev.
  - rewrite Hplates. apply PL_gaps.
  - apply NoDup_filter. apply (ND_nodup o o_exp prog Hok c).
  - intros a. rewrite filter_In. rewrite <- (reach_needs c a Hc). split.
    + intros [[H1 H2] H3]. split; auto. rewrite <- H3. apply node_scored. eapply reach_lt; eauto.
    + intros [H1 H2]. pose proof (reach_lt c a Hc H1) as L. rewrite (scored_graded c a true L H2). repeat split; auto. apply graded_draw. symmetry. exact (scored_graded c a true L H2).
  - intros a H. exists (graded a). apply node_scored. eapply reach_lt; eauto.
  - intros a H. destruct (Hin a H) as [H1 [_ H3]]. apply node_over; auto. intros p Hp. eapply ND_plates; eauto.
  - intros a H. destruct (Hin a H) as [H1 [H2 H3]]. unfold graded in H2. destruct (nth_error prog a) as [x|] eqn:Hx; [|discriminate].
    destruct x as [[name t|name n sizes args grad lp|fn args] m]; try discriminate. subst grad.
    pose proof (proj2 (proj2 Hok a _ Hx)) as HL. destruct m as [|m value evl g|ev g]; try contradiction.
    exists n, (log_prob_of veq anc_unwrap lp (map (fun b => nth b env dflt) args)), (score_method veq anc_unwrap o o_exp (bl a)), evl,
      (fun s => el (g (evened (mkten sizes (el (value (along pg w s a))) :: named o (values o s (along pg w s) prog) args)))).
    split; [unfold node; rewrite (map_nth_error fst _ _ Hx); reflexivity|]. split; [reflexivity|]. split.
    + rewrite node_tensor. eapply draw_log_prob; eauto.
    + intros s _. cbn [pg_logp sampling]. rewrite Hx. reflexivity.
  - intros p Hp. left. now rewrite Hplates.
Qed.
End Run.
End Loss.
