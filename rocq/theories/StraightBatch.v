(** Straight-line programs with batch-average baselines. *)
From Coq Require Import String List Arith Bool Lia.
From Verif Require Import Base Torch Plates Wrap Scalar Inference Graph Surrogate Sampling Straight SpecTensor SpecWrap SpecOrder SpecGraph SpecSurrogate SpecReduce SpecProgram
  PlateEqProofs ReduceProofs2 VarianceProofs SurrogateProofs SurrogateProofs3 ProgramProofs2 ProgramProofs5 StraightProofs StraightLoss StraightMean SpecStraight.
Import ListNotations.
Open Scope nat_scope.

Section Batch.
Context {V S : Type}.
Variable veq : V -> V -> bool.
Variable anc_unwrap : plate V -> stensor V -> res (stensor V).
Variable recip : nat -> V.
Variable o : sops V.
Hypothesis Hring : is_ring o.
Variable o_exp : V -> V.
Variable o_divn : V -> nat -> V.
Hypothesis Hev : evaluates o o_exp.
Hypothesis Hexp : forall x y, o_exp (o_add o x y) = o_mul o (o_exp x) (o_exp y).
Hypothesis Hfirst : first_order o.
Hypothesis Hrecip : forall n, 1 <= n -> osum o (repeat (recip n) n) = o_one o.
Notation plate := (plate V).
Notation N l := (map (@pname V) l).

Lemma same_graph : forall prog w w' env env', good recip o prog w (length prog) env -> good recip o prog w' (length prog) env' -> graph env = graph env'.
Proof.
  intros prog w w' env env' [L G] [L' G'].
  assert (E : map sparents env = map sparents env').
  { apply (nth_ext _ _ [] []); [rewrite !map_length; congruence|]. intros n Hn. rewrite map_length, L in Hn.
    change (@nil nat) with (sparents (no_tensor o)). rewrite !(map_nth (@sparents V)).
    rewrite (ta_list _ _ _ _ _ _ (G n Hn)), (ta_list _ _ _ _ _ _ (G' n Hn)). reflexivity. }
  assert (F : forall (l : list (stensor V)) h, fold_left (fun h x => construct (sparents x) h) l h = fold_left (fun h ps => construct ps h) (map sparents l) h).
  { induction l as [|x l IH]; intros h; [reflexivity|]. cbn [map fold_left]. apply IH. }
  unfold graph. rewrite !F. now rewrite E.
Qed.

Lemma kept_closed : forall prog, straight_ok o o_exp prog -> forall c a t, splates t = nth c (plates_of recip prog) [] -> no_orphans recip prog c a ->
  closed (kept t (nth a (plates_of recip prog) [])).
Proof.
  intros prog Hok c a t EP Ho. set (PL := fun c => nth c (plates_of recip prog) []).
  fold (PL a). fold (PL c) in EP. intros p p' Hp Hp'. unfold kept, foreign in *. rewrite EP in *.
    apply filter_In in Hp. destruct Hp as [Hp Hk].
    assert (Hp2 : In p' (PL c)) by (exact (PL_parents anc_unwrap recip o o_exp prog Hok c p p' Hp Hp')).
    apply in_map. apply filter_In. split; [exact Hp2|].
    assert (Hnames : forall (l : list plate) n, has l n = true <-> In n (N l)) by (intros; apply has_names).
    destruct (has (filter (fun p => negb (has (wide (PL a)) (pname p))) (wide (PL c))) (pname p')) eqn:Ef; [|reflexivity]. exfalso.
    apply Hnames, in_map_iff in Ef. destruct Ef as [p2 [E2 F2]]. apply filter_In in F2. destruct F2 as [F2 F3]. apply filter_In in F2. destruct F2 as [F2 W2]. apply Nat.ltb_lt in W2.
    assert (p2 = p') by (apply (made_PL anc_unwrap recip o o_exp prog Hok c c); auto). subst p2.
    assert (In p' (PL a)).
    { destruct (Nat.lt_ge_cases (pn p) 2) as [L|L].
      - apply (Ho p p'); auto.
      - apply negb_true_iff in Hk.
        assert (Wp : In p (wide (PL c))) by (apply filter_In; split; [exact Hp|apply Nat.ltb_lt; lia]).
        destruct (has (wide (PL a)) (pname p)) eqn:Ea.
        + apply Hnames, in_map_iff in Ea. destruct Ea as [p3 [E3 F4]]. apply filter_In in F4. destruct F4 as [F4 _].
          assert (p3 = p) by (apply (made_PL anc_unwrap recip o o_exp prog Hok a c); auto). subst p3.
          exact (PL_parents anc_unwrap recip o o_exp prog Hok a p p' F4 Hp').
        + assert (X : has (filter (fun p => negb (has (wide (PL a)) (pname p))) (wide (PL c))) (pname p) = true).
          { apply Hnames, in_map. apply filter_In. split; [exact Wp|]. now rewrite Ea. }
          congruence. }
    assert (X : has (wide (PL a)) (pname p') = true) by (apply Hnames, in_map; apply filter_In; split; [assumption|apply Nat.ltb_lt; exact W2]).
    rewrite X in F3. discriminate.
Qed.

Theorem straight_batch : forall (prog : list (line V)) (bl : nat -> option (@baseline V S)) costs (sg : S) base,
  straight_ok o o_exp prog -> no_skips recip prog -> costs <> [] ->
  (forall c, In c costs -> exists x, nth_error prog c = Some x /\ event_of x = []) ->
  (forall a x, nth_error prog a = Some x -> is_draw x = true ->
     bl a = None \/ bl a = Some (batch_average veq anc_unwrap o o_divn) /\ 2 <= size_of x /\ forall c, In c costs -> In a (nth c (needs prog) []) -> no_orphans recip prog c a) ->
  exists loss : world -> V,
    (forall w, exists enough, forall fuel, enough <= fuel ->
       exists t, script veq anc_unwrap recip o o_exp bl fuel (drawn_in o prog w) (map fst prog) costs sg base = Ok t /\ shape t = [] /\ el t [] = loss w) /\
    forall w, sampled o o_exp (sampling o recip prog) w loss = expected o o_exp recip prog [] (total_cost o costs).
Proof.
  intros prog bl costs sg base Hok Hskip Hne Hc Hbl.
  set (envs := fun w => match run veq anc_unwrap recip (drawn_in o prog w) (map fst prog) [] with Ok e => e | Err _ => [] end).
  assert (Hr : forall w, run veq anc_unwrap recip (drawn_in o prog w) (map fst prog) [] = Ok (envs w) /\ good recip o prog w (length prog) (envs w)).
  { intros w. destruct (runs veq anc_unwrap recip o o_exp prog Hok w) as [e [E G]]. unfold envs. rewrite E. auto. }
  assert (Hlt : forall c, In c costs -> c < length prog) by (intros c H; destruct (Hc c H) as [x [Hx _]]; apply nth_error_Some; congruence).
  set (h := graph (envs (fun _ _ => 0))).
  assert (Hh : forall w, graph (envs w) = h) by (intros w; exact (same_graph prog w _ _ _ (proj2 (Hr w)) (proj2 (Hr _)))).
  set (PL := fun c => nth c (plates_of recip prog) []).
  set (q := fun a => hd (mkPlate PlainPlate EmptyString 0 (WTorch (tscalar (o_zero o))) []) (PL a)).
  set (nodes := fun w => node (S := S) veq anc_unwrap o o_exp bl (map fst prog) (envs w)).
  assert (En : forall w a, nd_t (nodes w a) = nth a (envs w) (no_tensor o)).
  { intros w a. unfold nodes, node. destruct (nth_error (map fst prog) a) as [[]|]; reflexivity. }
  assert (Hin : forall c a, In a (filter (graded prog) (nth c (needs prog) [])) -> In a (nth c (needs prog) []) /\ In a (draws_of prog) /\ a < length prog).
  { intros c a H. apply filter_In in H. destruct H as [H _]. destruct (ND_lt o o_exp prog Hok c a H) as [_ D]. split; auto. split; auto.
    apply draws_in in D. destruct D as [x [Hx _]]. apply nth_error_Some. congruence. }
  assert (Hq : forall a x, nth_error prog a = Some x -> is_draw x = true -> In (q a) (PL a) /\ pn (q a) = size_of x /\
    forall w, nd_name (nodes w a) = pname (q a) /\ forall n lp r m, nd_sto (nodes w a) = Some (n, lp, r, m) -> n = size_of x).
  { intros a x Hx D. destruct x as [[name t|name n sizes args grad lp|fn args] m]; try discriminate. unfold q, PL.
    assert (E := PL_eq recip o o_exp prog Hok a _ Hx). cbv beta in E. cbn [name_of fst] in E. rewrite E.
    split; [now left|]. split; [reflexivity|]. intros w. unfold nodes, node. rewrite (map_nth_error fst _ _ Hx). cbn [fst]. split; [reflexivity|].
    intros n' lp' r' m' E'. cbn in E'. injection E' as <- _ _ _. reflexivity. }
  destruct (batch_unbiased veq anc_unwrap o Hring o_exp o_divn Hev Hexp Hfirst (sampling o recip prog) nodes h (seq 0 (length prog)) costs PL
    (fun c => nth c (needs prog) []) (fun c => filter (graded prog) (nth c (needs prog) [])) bl PL q (cost_at o prog) sg base) as [loss [L1 L2]].
  - exact (sampling_ok anc_unwrap recip o o_exp prog Hok).
  - exact Hne.
  - rewrite <- (Hh (fun _ _ => 0)). exact (graph_closed recip o o_exp prog Hok (fun _ _ => 0) _ (proj2 (Hr _))).
  - intros c H. apply in_seq. specialize (Hlt c H). lia.
  - intros w c H. destruct (Hr w) as [_ G]. destruct (Hc c H) as [x [Hx Ex]]. pose proof (Hlt c H) as Lc. pose proof (proj2 G c Lc) as T. split; [|split; [|split]].
    + rewrite <- (Hh w). apply setup; auto. now rewrite (nth_error_nth _ _ _ Hx).
    + rewrite En. apply T.
    + intros a Ha. rewrite En. exact (ta_plates _ _ _ _ _ _ (proj2 G a (proj2 (proj2 (Hin c a Ha))))).
    + intros s Hs. rewrite En. rewrite (ta_den _ _ _ _ _ _ T s []); [reflexivity|exact Hs|]. rewrite Hx, Ex. constructor.
  - intros c H. exact (dependence anc_unwrap recip o o_exp prog Hok c).
  - intros c a f H Ha Eb. destruct (Hin c a Ha) as [H1 [H2 H3]]. apply draws_in in H2. destruct H2 as [x [Hx D]].
    destruct (Hbl a x Hx D) as [Z|[Z [Hn Ho]]]; [congruence|]. rewrite Z in Eb. injection Eb as <-. destruct (Hq a x Hx D) as [Q1 [Q2 Q3]].
    split; [reflexivity|]. split; [exact Q1|]. split; [exact (ND_plates anc_unwrap recip o o_exp prog Hok c a _ H1 Q1)|]. rewrite Q2. lia.
  - intros w c a H Ha Eb. destruct (Hin c a Ha) as [H1 [H2 H3]]. apply draws_in in H2. destruct H2 as [x [Hx D]].
    destruct (Hbl a x Hx D) as [Z|[Z [Hn Ho]]]; [congruence|]. destruct (Hq a x Hx D) as [Q1 [Q2 Q3]]. destruct (Q3 w) as [Q4 Q5].
    split; [exact Q4|]. split; [intros n lp m E; rewrite Q2; exact (Q5 n lp true (Some m) E)|].
    destruct (Hr w) as [_ G]. pose proof (ta_plates _ _ _ _ _ _ (proj2 G c (Hlt c H))) as EP.
    apply (kept_closed prog Hok c a); auto. now rewrite En.
  - exists loss. split.
    + intros w. destruct (L1 w) as [enough H]. exists enough. intros fuel Hf. destruct (H fuel Hf) as [t [T1 T2]]. exists t. split; [|exact T2].
      unfold script. rewrite (proj1 (Hr w)). cbn [bind]. rewrite (Hh w). exact T1.
    + intros w. rewrite (L2 w (fun _ => 0)). exact (total anc_unwrap recip o Hring o_exp Hrecip prog Hok costs (fun _ => 0) (fun _ => 0)).
Qed.

(** The value of the loss. *)
Theorem straight_value : forall (prog : list (line V)) (bl : nat -> option (@baseline V S)) costs (sg : S) base,
  straight_ok o o_exp prog -> no_skips recip prog -> costs <> [] ->
  (forall c, In c costs -> exists x, nth_error prog c = Some x /\ event_of x = []) ->
  (forall a x, nth_error prog a = Some x -> is_draw x = true ->
     bl a = None \/ bl a = Some (batch_average veq anc_unwrap o o_divn) /\ 2 <= size_of x /\ forall c, In c costs -> In a (nth c (needs prog) []) -> no_orphans recip prog c a) ->
  forall w, exists enough, forall fuel, enough <= fuel ->
  exists t, script veq anc_unwrap recip o o_exp bl fuel (drawn_in o prog w) (map fst prog) costs sg base = Ok t /\ shape t = [] /\
    o_det o (el t []) = o_det o (osum o (map (fun c => let PL := nth c (plates_of recip prog) [] in
      weighted_sum o false PL PL (fun s => el (nth c (values o s (along (sampling o recip prog) w s) prog) (scalar0 o)) []) (fun _ => 0)) costs)).
Proof.
  intros prog bl costs sg base Hok Hskip Hne Hc Hbl w.
  destruct (runs veq anc_unwrap recip o o_exp prog Hok w) as [env [E G]].
  assert (Hlt : forall c, In c costs -> c < length prog) by (intros c H; destruct (Hc c H) as [x [Hx _]]; apply nth_error_Some; congruence).
  set (nodes := node (S := S) veq anc_unwrap o o_exp bl (map fst prog) env).
  set (PL := fun c => nth c (plates_of recip prog) []).
  assert (En : forall a, nd_t (nodes a) = nth a env (no_tensor o)).
  { intros a. unfold nodes, node. destruct (nth_error (map fst prog) a) as [[]|]; reflexivity. }
  assert (Hset : forall c, In c costs -> score_setup veq anc_unwrap o o_exp nodes (graph env) c (PL c) (filter (graded prog) (nth c (needs prog) [])) bl
      (fun a s => pg_logp (sampling o recip prog) a s (along (sampling o recip prog) w s))).
  { intros c H. destruct (Hc c H) as [x [Hx Ex]]. apply setup; auto. now rewrite (nth_error_nth _ _ _ Hx). }
  destruct (score_backward veq anc_unwrap o Hring o_exp Hev nodes (graph env) (seq 0 (length prog)) costs PL
    (fun c => filter (graded prog) (nth c (needs prog) [])) bl (fun a s => pg_logp (sampling o recip prog) a s (along (sampling o recip prog) w s)) sg base) as [enough H].
  - exact (graph_closed recip o o_exp prog Hok w env G).
  - intros c H. apply in_seq. specialize (Hlt c H). lia.
  - exact Hne.
  - intros c H. split; [now apply Hset|]. exact (PL_closed anc_unwrap recip o o_exp prog Hok c).
  - intros c a f H Ha Eb. pose proof (Hset c H) as S0. destruct S0 as [S1 S2 S3 S4 S5 S6 S7 S8 S9 S10].
    assert (Ha' := Ha). apply filter_In in Ha'. destruct Ha' as [H1 _]. destruct (ND_lt o o_exp prog Hok c a H1) as [Lac D]. apply draws_in in D. destruct D as [x [Hx D]].
    assert (La : a < length prog) by (apply nth_error_Some; congruence).
    destruct (Hbl a x Hx D) as [Z|[Z [Hn Ho]]]; [congruence|]. rewrite Z in Eb. injection Eb as <-.
    destruct (S9 a Ha) as [n [lp [m [ev [g [X1 _]]]]]].
    assert (Epa : splates (nd_t (nodes a)) = PL a) by (rewrite En; apply (proj2 G a La)).
    assert (Epc : splates (nd_t (nodes c)) = PL c) by (rewrite En; apply (proj2 G c (Hlt c H))).
    destruct x as [[name t|name n' sizes args grad lp'|fn args] mm]; try discriminate.
    set (x := (Draw name n' sizes args grad lp', mm)) in *.
    assert (EQ := PL_eq recip o o_exp prog Hok a x Hx). cbv beta in EQ. cbn [name_of fst x] in EQ. fold (PL a) in EQ.
    set (p := own recip prog x name) in *.
    assert (Hp : In p (PL a)) by (rewrite EQ; now left).
    pose proof (batch_gives veq anc_unwrap o Hring o_divn (PL c) nodes c a p n lp m (po_sound _ _ S1) S2 (S8 a Ha)) as B.
    rewrite Epa, Epc in B.
    assert (B' := B Hp (ND_plates anc_unwrap recip o o_exp prog Hok c a p H1 Hp)). clear B.
    assert (Hname : nd_name (nodes a) = name) by (unfold nodes, node; rewrite (map_nth_error fst _ _ Hx); reflexivity).
    assert (Hsize : n = n') by (revert X1; unfold nodes, node; rewrite (map_nth_error fst _ _ Hx); cbn [fst nd_sto x]; intros X1; now injection X1 as <- _ _ _).
    specialize (B' ltac:(cbn [p own pn size_of fst x] in *; lia) Hname X1 Hsize).
    assert (K : closed (kept (nd_t (nodes c)) (PL a))) by (apply (kept_closed prog Hok c a); [rewrite En; apply (proj2 G c (Hlt c H))|now apply Ho]).
    specialize (B' K). intros np rc nm n0 lp0 sg0 b0 R1 R2 R3 r m0 R4. destruct (B' np rc nm n0 lp0 sg0 b0 R1 R2 R3 r m0 R4) as [b [bp [bf [sg' [Q1 [Q2 [Q3 [Q4 [Q5 _]]]]]]]]].
    exists b, bp, bf, sg'. auto 10.
  - intros c p H Hp. left. rewrite En. rewrite (ta_plates _ _ _ _ _ _ (proj2 G c (Hlt c H))). exact Hp.
  - exists enough. intros fuel Hf. destruct (H fuel Hf) as [t [T1 [T2 T3]]]. exists t. split; [|split; [exact T2|]].
    + unfold script. rewrite E. cbn [bind]. exact T1.
    + rewrite T3. f_equal. f_equal. apply map_ext_in. intros c Hc'. cbv zeta. destruct (Hc c Hc') as [x [Hx Ex]]. pose proof (proj2 G c (Hlt c Hc')) as T.
      rewrite En, (ta_plates _ _ _ _ _ _ T). apply (weighted_sum_ext anc_unwrap); [apply (PL_nodup anc_unwrap recip o o_exp prog Hok c)|].
      intros s Hs1 Hs2. rewrite (ta_den _ _ _ _ _ _ T s []); [reflexivity|intros p Hp; exact (Hs2 p Hp)|]. cbv beta; rewrite Hx, Ex. constructor.
Qed.
End Batch.
