(** The batch-average baseline keeps the gradient unbiased (C24). *)
From Coq Require Import String List Arith Bool ZArith Lia Permutation Ring.
From Verif Require Import Base Torch Plates Wrap OrderPlates Scalar Reduce Graph Surrogate SpecTensor SpecWrap SpecOrder SpecReduce SpecGraph
  SpecSurrogate SpecProgram ListLemmas OrderProofs ReduceProofs ReduceProofs2 VarianceProofs SurrogateProofs SurrogateProofs2 SurrogateProofs3
  ProgramProofs ProgramProofs2 ProgramProofs3 ProgramProofs4.
Import ListNotations.

Section Batch.
Context {V S X : Type}.
Variable veq : V -> V -> bool.
Variable anc_unwrap : plate V -> stensor V -> res (stensor V).
Variable o : sops V.
Hypothesis Hring : is_ring o.
Variable o_exp : V -> V.
Variable o_divn : V -> nat -> V.
Notation plate := (plate V).
Notation world := (@world X).
Notation N l := (map (@pname V) l).
Hypothesis Hev : evaluates o o_exp.
Hypothesis Hexp : forall x y, o_exp (o_add o x y) = o_mul o (o_exp x) (o_exp y).
Hypothesis Hfirst : first_order o.

(** What the batch average is, for cost [c] with plates [cp]. *)
Definition batch_value (FP cp pl : list plate) (p : plate) (c : stensor V) (s : assignment) : V :=
  o_divn (others o (fun s' => o_det o (weighted_sum o true FP (filter (fun q => negb (has (wide pl) (pname q))) (wide cp)) (fun s'' => den c s'' []) s')) p s) (pn p - 1).

Lemma weighted_ext_fun : forall detach (L ps : list plate) f, ext f -> ext (weighted_sum o detach L ps f).
Proof.
  intros detach L ps f Hf. unfold weighted_sum. apply sum_over_ext_fun. intros s s' H. f_equal; [|now apply Hf]. exact (wprod_ext o detach L ps s s' H).
Qed.

Lemma batch_gives : forall FP (nodes : nat -> @snode V S) c a p n lp m, sound veq FP -> over FP (nd_t (nodes c)) -> over FP (nd_t (nodes a)) ->
  In p (splates (nd_t (nodes a))) -> In p (splates (nd_t (nodes c))) -> 1 < pn p -> nd_name (nodes a) = pname p ->
  nd_sto (nodes a) = Some (n, lp, true, Some m) -> n = pn p ->
  closed (kept (nd_t (nodes c)) (splates (nd_t (nodes a)))) ->
  baseline_gives o FP nodes c a (batch_average veq anc_unwrap o o_divn)
    (fun sg bp bf sg' => sg' = sg /\ bp = kept (nd_t (nodes c)) (splates (nd_t (nodes a))) /\
       bf = batch_value FP (splates (nd_t (nodes c))) (splates (nd_t (nodes a))) p (nd_t (nodes c))).
Proof.
  intros FP nodes c a p n lp m HS Hc Ha Hp Hpc Hn Hname Hsto En Hcl np rc nm n' lp' sg base Hr Hav Hnm r m' E.
  rewrite Hsto in E. injection E as <- <- <- <-.
  set (ct := nd_t (nodes c)) in *. set (at_ := nd_t (nodes a)) in *.
  assert (Ik : incl (kept ct (splates at_)) FP).
  { intros x Hx. apply filter_In in Hx. destruct Hc as [_ Ic _]. apply Ic, Hx. }
  assert (Pk : In p (kept ct (splates at_))).
  { apply filter_In. split; auto. apply negb_true_iff. destruct (has (foreign ct (splates at_)) (pname p)) eqn:Eh; auto. exfalso.
    apply has_names in Eh. apply in_map_iff in Eh. destruct Eh as [q [Eq Hq]]. apply filter_In in Hq. destruct Hq as [_ Hq].
    apply negb_true_iff in Hq. assert (Hh : has (wide (splates at_)) (pname q) = true); [|congruence].
    apply has_names. rewrite Eq. apply in_map. apply filter_In. split; auto. now apply Nat.ltb_lt. }
  destruct (batch_average_spec veq anc_unwrap o Hring o_divn FP rc (kept ct (splates at_))
     (fun s => weighted_sum o true FP (foreign ct (splates at_)) (fun s' => den ct s' []) s) p (mkSample np (nd_name (nodes a)) n lp)
     ("_b_" ++ nd_name (nodes a) ++ "_" ++ nm)%string sg base HS) as [b [B1 B2]]; auto.
  - apply weighted_ext_fun. apply den_ext_fun.
  - exists b, (kept ct (splates at_)), (batch_value FP (splates ct) (splates at_) p ct), sg.
    split; [exact B1|]. split; [exact B2|]. split; [exact Ik|]. split; [exact Hcl|]. split; [|auto].
    destruct Hc as [Wc _ _]. apply NoDup_map_filter. apply (wf_names _ Wc).
Qed.

Lemma batch_independent : forall (pg : program V X) FP T anc cost cp a p s (ct : world -> stensor V),
  program_ok o o_exp pg -> (forall w : world, sound veq FP /\ incl cp FP /\ NoDup (N cp)) -> depends_on o o_exp pg FP T anc cost -> In a T ->
  (forall w s, in_range s FP -> den (ct w) s [] = cost s (along pg w s)) ->
  In p (pg_plates pg a) -> 1 < pn p -> in_range s FP ->
  independent pg a (map (fun q => s (pname q)) (pg_plates pg a)) (fun w => batch_value FP cp (pg_plates pg a) p (ct w) s).
Proof.
  intros pg FP T anc cost cp a p s ct Hpg HSs Hdep HaT Hden Hp Hn Hs.
  assert (Ha : In a (pg_vars pg)) by (apply (dp_vars _ _ _ _ _ _ _ Hdep a HaT)).
  assert (HpF : In p FP) by (apply (dp_plates _ _ _ _ _ _ _ Hdep a p HaT Hp)).
  assert (Ech : forall b (t : assignment) x, In x (N (pg_plates pg b)) -> choice pg b (map (fun q => t (pname q)) (pg_plates pg b)) x = t x).
  { intros b t x. unfold choice. generalize (pg_plates pg b). intros l Hx. induction l as [|q l IH]; [contradiction|]. simpl. unfold set_to.
    destruct (String.eqb_spec x (pname q)) as [-> |E]; [reflexivity|]. destruct Hx as [Hx|Hx]; [congruence|]. now apply IH. }
  exists (fun b j => negb (has (pg_plates pg b) (pname p) && (choice pg b j (pname p) =? s (pname p)))).
  split; [|split].
  - apply negb_false_iff. apply andb_true_iff. split; [apply has_names; now apply in_map|]. apply Nat.eqb_eq. apply Ech. now apply in_map.
  - intros b j c Hb HK Hc. apply negb_true_iff in HK. apply negb_true_iff. apply andb_false_iff.
    destruct (has (pg_plates pg c) (pname p)) eqn:Eh; [right|now left]. apply has_names in Eh.
    pose proof (po_nested _ _ _ Hpg b c Hb Hc _ Eh) as Hbn. apply andb_false_iff in HK.
    destruct HK as [HK|HK]; [apply has_names in Hbn; congruence|]. rewrite Ech by exact Eh. exact HK.
  - intros w w' Hw. destruct (HSs w) as [HS [Icp Hcpn]]. unfold batch_value. f_equal. unfold others. apply osum_ext. intros i Hi. apply filter_In in Hi. destruct Hi as [Hi Hi'].
    apply in_seq in Hi. apply negb_true_iff in Hi'. apply Nat.eqb_neq in Hi'. f_equal.
    set (fo := filter (fun q => negb (has (wide (pg_plates pg a)) (pname q))) (wide cp)).
    assert (Ifo : incl fo FP) by (intros q Hq; apply filter_In in Hq; destruct Hq as [Hq _]; apply filter_In in Hq; apply Icp; tauto).
    assert (NDfp : NoDup (N FP)) by exact (HND veq FP HS).
    assert (NDfo : NoDup (N fo)).
    { apply NoDup_map_filter. apply NoDup_map_filter. exact Hcpn. }
    assert (Npfo : ~ In (pname p) (N fo)).
    { intros C. apply in_map_iff in C. destruct C as [q [Eq Hq]]. apply filter_In in Hq. destruct Hq as [_ Hq].
      apply negb_true_iff in Hq. assert (Hh : has (wide (pg_plates pg a)) (pname q) = true); [|congruence].
      apply has_names. rewrite Eq. apply in_map. apply filter_In. split; auto. now apply Nat.ltb_lt. }
    apply (weighted_sum_ext anc_unwrap o); auto. intros s' A B.
    assert (Es' : s' (pname p) = i) by (rewrite (A _ Npfo); unfold set_to; now rewrite String.eqb_refl).
    assert (R' : in_range s' FP).
    { intros q Hq. destruct (in_dec string_dec (pname q) (N fo)) as [Hin|Hin].
      - apply in_map_iff in Hin. destruct Hin as [q' [Eq Hq']]. assert (q' = q) by (apply (NoDup_map_inj (@pname V) FP); auto). subst q'. now apply B.
      - rewrite A by auto. unfold set_to. destruct (String.eqb_spec (pname q) (pname p)) as [Eq|Nq].
        + assert (q = p) by (apply (NoDup_map_inj (@pname V) FP); auto). subst q. lia.
        + now apply Hs. }
    rewrite !Hden by exact R'. apply (dp_cost _ _ _ _ _ _ _ Hdep). intros b Hb. unfold along. apply Hw.
    apply negb_true_iff. apply andb_false_iff.
    destruct (has (pg_plates pg b) (pname p)) eqn:Eh; [right|now left]. apply has_names in Eh. rewrite Ech by exact Eh.
    rewrite Es'. now apply Nat.eqb_neq.
Qed.

(** The batch-average baseline does not change the expected loss, up to first order. *)
Theorem batch_unbiased : forall (pg : program V X) (nodes : world -> nat -> @snode V S) h univ costs FP T anc bl cp q cost sg base,
  program_ok o o_exp pg -> costs <> [] -> closed_under (h_parents h) univ -> incl costs univ ->
  (forall w c, In c costs -> score_setup veq anc_unwrap o o_exp (nodes w) h c (FP c) (anc c) bl (fun a s => pg_logp pg a s (along pg w s)) /\
     splates (nd_t (nodes w c)) = cp c /\
     (forall a, In a (anc c) -> splates (nd_t (nodes w a)) = pg_plates pg a) /\
     forall s, in_range s (FP c) -> den (nd_t (nodes w c)) s [] = cost c s (along pg w s)) ->
  (forall c, In c costs -> depends_on o o_exp pg (FP c) (T c) (anc c) (cost c)) ->
  (forall c a f, In c costs -> In a (anc c) -> bl a = Some f ->
     f = batch_average veq anc_unwrap o o_divn /\ In (q a) (pg_plates pg a) /\ In (q a) (cp c) /\ 1 < pn (q a)) ->
  (forall w c a, In c costs -> In a (anc c) -> bl a <> None -> nd_name (nodes w a) = pname (q a) /\
     (forall n lp m, nd_sto (nodes w a) = Some (n, lp, true, Some m) -> n = pn (q a)) /\
     closed (kept (nd_t (nodes w c)) (pg_plates pg a))) ->
  exists loss : world -> V,
    (forall w, exists enough, forall fuel, enough <= fuel ->
       exists t, backward_value veq anc_unwrap o o_exp fuel h (nodes w) costs sg base = Ok t /\ shape t = [] /\ el t [] = loss w) /\
    forall w r, sampled o o_exp pg w loss =
      osum o (map (fun c => weighted_sum o false (FP c) (FP c) (fun s => mean o o_exp pg s r (cost c s)) (fun _ => 0)) costs).
Proof.
  intros pg nodes h univ costs FP T anc bl cp q cost sg base Hpg Hne Hu Hi Hss Hdep Hbl Hbw.
  apply (baseline_unbiased veq anc_unwrap o Hring o_exp Hev Hexp Hfirst pg nodes h univ costs FP T anc bl
    (fun c a => filter (fun p => negb (has (filter (fun p => negb (has (wide (pg_plates pg a)) (pname p))) (wide (cp c))) (pname p))) (cp c))
    (fun c a w => batch_value (FP c) (cp c) (pg_plates pg a) (q a) (nd_t (nodes w c))) cost sg base); auto.
  - intros w c Hc. destruct (Hss w c Hc) as [A [B [C D]]]. auto.
  - intros w c a f Hc Ha E. destruct (Hss w c Hc) as [A [B [C D]]]. destruct (Hbl c a f Hc Ha E) as [-> [B1 [B2 B3]]]. destruct (Hbw w c a Hc Ha) as [B4 [B5 B6]]; [congruence|].
    destruct A as [S1 S2 S3 S4 S5 S6 S7 S8 S9 S10]. destruct (S9 a Ha) as [n [lp [m [ev [g [X1 _]]]]]].
    pose proof (batch_gives (FP c) (nodes w) c a (q a) n lp m (po_sound _ _ S1) S2 (S8 a Ha)) as G.
    rewrite (C a Ha), B in G. unfold kept, foreign in G, B6. rewrite B in G, B6. apply G; auto. now apply (B5 n lp m).
  - intros c a s Hc Ha E Hs. destruct (bl a) as [f|] eqn:Ef; [|congruence].
    destruct (Hbl c a f Hc Ha Ef) as [_ [B1 [B2 B3]]].
    apply (batch_independent pg (FP c) (T c) (anc c) (cost c) (cp c) a (q a) s (fun w => nd_t (nodes w c))); auto.
    + intros w. destruct (Hss w c Hc) as [A [B _]]. destruct A as [S1 S2]. destruct S2 as [W2 I2 _]. rewrite <- B.
      split; [apply (po_sound _ _ S1)|]. split; [exact I2|apply (wf_names _ W2)].
    + apply (dp_anc _ _ _ _ _ _ _ (Hdep c Hc) a Ha).
    + intros w s' Hs'. destruct (Hss w c Hc) as [_ [_ [_ D']]]. now apply D'.
Qed.
End Batch.
