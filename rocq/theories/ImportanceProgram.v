(** The expected loss of programs whose variables are drawn from proposals. *)
From Coq Require Import String List Arith Bool ZArith Lia Permutation Ring.
From Verif Require Import Base Torch Plates Wrap OrderPlates Scalar Reduce Graph Surrogate ListLemmas IndexLemmas SpecTensor SpecWrap
  SpecOrder SpecReduce SpecGraph SpecSurrogate SpecProgram SpecImportanceMethod WrapProofs OpProofs OrderProofs ReduceProofs ReduceProofs2
  VarianceProofs SurrogateProofs SurrogateProofs2 SurrogateProofs3 ProgramProofs ProgramProofs2.
Import ListNotations.
Open Scope nat_scope.

Section ImportanceProgram.
Context {V S X : Type}.
Variable veq : V -> V -> bool.
Variable anc_unwrap : plate V -> stensor V -> res (stensor V).
Variable o : sops V.
Hypothesis Hring : is_ring o.
Variable o_exp : V -> V.
Hypothesis Hev : evaluates o o_exp.
Hypothesis Hexp : forall x y, o_exp (o_add o x y) = o_mul o (o_exp x) (o_exp y).
Variable o_div : V -> V -> V.
Variables o_num recip : nat -> V.
Hypothesis Hdv : divides o o_exp o_div o_num recip.
Notation plate := (plate V).
Notation N l := (map (@pname V) l).
Let Hring' : ring_theory (o_zero o) (o_one o) (o_add o) (o_mul o) (o_sub o) (o_opp o) (@eq V) := Hring.
Add Ring o_ring : Hring'.
Notation path := (@path X).
Notation world := (@world X).
Notation det := (o_det o).
Notation ratio := (ratio o o_exp o_div o_num).

Lemma ratio_prob : forall n lp lq, 1 <= n -> o_mul o (det (o_exp lq)) (ratio n lp lq) = o_mul o (recip n) (det (o_exp lp)).
Proof.
  intros n lp lq Hn. unfold SpecImportanceMethod.ratio. rewrite <- (ev_mul _ _ Hev), (dv_ratio _ _ _ _ _ Hdv n lp lq Hn), (ev_mul _ _ Hev), (dv_det _ _ _ _ _ Hdv). reflexivity.
Qed.

Variable pg : program V X.
Variable lq : nat -> assignment -> path -> V.
Notation pq := (proposed pg lq).
Hypothesis Hpg : program_ok o o_exp pg.
Hypothesis Hpq : program_ok o o_exp pq.
Variable cnt : nat -> nat.

Notation R a s r := (ratio (cnt a) (pg_logp pg a s r) (lq a s r)).

(** The ratios turn an expectation over the proposals into one over the program. *)
Lemma ratio_boxes : forall anc vs s r (f : path -> V), incl vs (pg_vars pg) -> topological pg vs -> (forall a, In a vs -> 1 <= cnt a) ->
  (forall a r, In a vs -> ~ In a anc -> det (o_exp (pg_logp pg a s r)) = o_exp (pg_logp pg a s r)) ->
  det_from o o_exp pq vs s r (fun r => o_mul o (oprod o (map (fun a => R a s r) vs))
    (o_mul o (oprod o (map (fun a => box o o_exp (pg_logp pg a s r)) (inside anc vs))) (f r))) =
  o_mul o (oprod o (map (fun a => recip (cnt a)) vs)) (mean_from o o_exp pg vs s r f).
Proof.
  intros anc vs. induction vs as [|a vs IH]; intros s r f Hi Ht Hc Hfree; [cbn; ring|].
  assert (Ha : In a (pg_vars pg)) by (apply Hi; now left).
  destruct (Ht [] a vs eq_refl) as [Hna Hd].
  assert (IH' : forall r, _) by (intros r0; apply (IH s r0 f); [intros b Hb; apply Hi; now right|exact (topological_tail _ _ _ Ht)|intros b Hb; apply Hc; now right|intros b r1 Hb; apply Hfree; now right]).
  cbn [ProgramProofs.det_from mean_from]. rewrite (osum_mul_l o Hring). apply osum_ext. intros x _. cbn [pg_support proposed].
  set (B := if in_dec Nat.eq_dec a anc then box o o_exp (pg_logp pg a s (put r a x)) else o_one o).
  assert (HB : o_mul o (det (o_exp (pg_logp pg a s (put r a x)))) B = o_exp (pg_logp pg a s (put r a x))).
  { unfold B. destruct (in_dec Nat.eq_dec a anc) as [Hanc|Hanc]; [apply (det_box o Hring o_exp Hev Hexp)|]. rewrite Hfree by (auto; now left). ring. }
  rewrite (det_from_off o o_exp pq vs s _ _ (fun r0 => o_mul o (o_mul o (R a s (put r a x)) B)
    (o_mul o (oprod o (map (fun a => R a s r0) vs)) (o_mul o (oprod o (map (fun a => box o o_exp (pg_logp pg a s r0)) (inside anc vs))) (f r0))))).
  - rewrite (det_from_mul o Hring), IH'. unfold SpecProgram.prob. cbn [pg_logp proposed].
    transitivity (o_mul o (o_mul o (o_mul o (det (o_exp (lq a s (put r a x)))) (R a s (put r a x))) B)
      (o_mul o (oprod o (map (fun a => recip (cnt a)) vs)) (mean_from o o_exp pg vs s (put r a x) f))); [ring|].
    rewrite ratio_prob by (apply Hc; now left). change (oprod o (map (fun b => recip (cnt b)) (a :: vs))) with (o_mul o (recip (cnt a)) (oprod o (map (fun b => recip (cnt b)) vs))).
    generalize (mean_from o o_exp pg vs s (put r a x) f) (oprod o (map (fun b => recip (cnt b)) vs)). intros M O. rewrite <- HB at 2. ring.
  - intros r' H'. assert (Dp : forall b, In b (pg_deps pg a) -> put r a x b = r' b).
    { intros b Hb. symmetry. apply H'. intros C. apply (Hd b); auto. now right. }
    assert (Vp : put r a x a = r' a) by (symmetry; now apply H').
    assert (E1 : pg_logp pg a s r' = pg_logp pg a s (put r a x)) by (symmetry; apply (po_local _ _ _ Hpg a s s); auto).
    assert (E2 : lq a s r' = lq a s (put r a x)) by (symmetry; exact (proj2 (po_local _ _ _ Hpq a s s (put r a x) r' Ha (fun _ _ => eq_refl) Dp) Vp)).
    change (oprod o (map (fun b => R b s r') (a :: vs))) with (o_mul o (R a s r') (oprod o (map (fun b => R b s r') vs))). rewrite E1, E2. unfold B.
    cbn [inside filter]. fold (inside anc vs). destruct (in_dec Nat.eq_dec a anc); [|ring].
    change (oprod o (map (fun b => box o o_exp (pg_logp pg b s r')) (a :: inside anc vs))) with
      (o_mul o (box o o_exp (pg_logp pg a s r')) (oprod o (map (fun b => box o o_exp (pg_logp pg b s r')) (inside anc vs)))). rewrite E1. ring.
Qed.

(** Where a run starts does not matter: every variable of [T] is drawn. *)
Lemma mean_start : forall T s r r' (f : path -> V), closed_vars pg T -> (forall r r', same_on T r r' -> f r = f r') ->
  mean_from o o_exp pg (inside T (pg_vars pg)) s r f = mean_from o o_exp pg (inside T (pg_vars pg)) s r' f.
Proof.
  intros T s r r' f HT Hf.
  assert (G : forall vs r r', (forall a, In a T -> ~ In a vs -> r a = r' a) -> incl vs T -> topological pg vs ->
    mean_from o o_exp pg vs s r f = mean_from o o_exp pg vs s r' f).
  { induction vs as [|a vs IH]; intros r0 r1 H Hi Ht; simpl; [apply Hf; intros a Ha; apply H; auto|].
    assert (HaT : In a T) by (apply Hi; now left). destruct (Ht [] a vs eq_refl) as [Hna Hdp].
    assert (D : forall b, In b (pg_deps pg a) -> r0 b = r1 b).
    { intros b Hb. apply H; [apply (proj2 HT a HaT b Hb)|]. intros C. apply (Hdp b C Hb). }
    assert (HaV := proj1 HT a HaT).
    rewrite (proj1 (po_local _ _ _ Hpg a s s r0 r1 HaV (fun p _ => eq_refl) D)). apply osum_ext. intros x _. f_equal.
    - unfold SpecProgram.prob. f_equal. apply (po_local _ _ _ Hpg a s s); auto; [|now rewrite !put_same].
      intros b Hb. unfold put. destruct (b =? a); auto.
    - apply IH; [|intros b Hb; apply Hi; now right|exact (topological_tail _ _ _ Ht)].
      intros b HbT Hb. unfold put. destruct (Nat.eqb_spec b a); [reflexivity|]. apply H; auto. simpl. intuition. }
  apply G; [|apply inside_incl|apply (vars_topological o o_exp pg Hpg)]. intros a Ha Hn. exfalso. apply Hn. apply filter_In. split; [apply (proj1 HT _ Ha)|].
  destruct (in_dec Nat.eq_dec a T); auto.
Qed.

(** The expectation, over the proposals, of a weighted and boxed cost at one choice of samples. *)
Lemma ratio_mean : forall FP T anc cost s w r0, depends_on o o_exp pg FP T anc cost -> NoDup T -> NoDup anc -> (forall a, In a T -> 1 <= cnt a) -> in_range s FP ->
  sampled o o_exp pq w (fun w => o_mul o (oprod o (map (fun a => R a s (along pg w s)) T))
    (o_mul o (box o o_exp (osum o (map (fun a => pg_logp pg a s (along pg w s)) anc))) (cost s (along pg w s)))) =
  o_mul o (oprod o (map (fun a => recip (cnt a)) T)) (mean o o_exp pg s r0 (cost s)).
Proof.
  intros FP T anc cost s w r0 Hd HndT Hnd Hc Hs. unfold sampled, mean. change (sites pq) with (sites_of pq (pg_vars pg)).
  assert (HT : closed_vars pg T) by (split; [apply (dp_vars _ _ _ _ _ _ _ Hd)|apply (dp_closed _ _ _ _ _ _ _ Hd)]).
  assert (HTq : closed_vars pq T) by exact HT.
  assert (Hcost : forall r r', same_on T r r' -> cost s r = cost s r') by (intros r r'; apply (dp_cost _ _ _ _ _ _ _ Hd)).
  assert (Loc : forall r r', same_on T r r' -> forall a, In a T -> pg_logp pg a s r = pg_logp pg a s r' /\ lq a s r = lq a s r').
  { intros r r' H a Ha. assert (Hav := proj1 HT a Ha). assert (Dp : forall b, In b (pg_deps pg a) -> r b = r' b) by (intros b Hb; apply H, (proj2 HT a Ha b Hb)).
    split; [apply (po_local _ _ _ Hpg a s s); auto|]. exact (proj2 (po_local _ _ _ Hpq a s s r r' Hav (fun _ _ => eq_refl) Dp) (H a Ha)). }
  assert (PT : Permutation T (inside T (pg_vars pg))).
  { apply NoDup_Permutation; auto; [apply NoDup_filter, (po_nodup _ _ _ Hpg)|]. intros a. unfold inside. rewrite filter_In. destruct (in_dec Nat.eq_dec a T) as [Ha|Ha]; [|intuition discriminate].
    pose proof (proj1 HT a Ha). tauto. }
  etransitivity; [apply (sampled_path o Hring o_exp Hev pq Hpq T (pg_vars pg) s w (fun r => o_mul o (oprod o (map (fun a => R a s r) T))
    (o_mul o (box o o_exp (osum o (map (fun a => pg_logp pg a s r) anc))) (cost s r))) HTq (incl_refl _))|].
  - intros r r' H. f_equal; [|f_equal; [|now apply Hcost]].
    + f_equal. apply map_ext_in. intros a Ha. destruct (Loc r r' H a Ha) as [-> ->]. reflexivity.
    + f_equal. f_equal. apply map_ext_in. intros a Ha. apply (Loc r r' H a). exact (dp_anc _ _ _ _ _ _ _ Hd a Ha).
  - intros a Ha p Hp. apply Hs, (dp_plates _ _ _ _ _ _ _ Hd a p Ha Hp).
  - rewrite (mean_inside o Hring o_exp pg Hpg T (pg_vars pg) s r0 (cost s) HT (incl_refl _) Hcost).
    rewrite (mean_start T s r0 (along pq w s) (cost s) HT Hcost).
    rewrite (oprod_perm o Hring _ _ (Permutation_map (fun a => recip (cnt a)) PT)).
    rewrite <- (ratio_boxes anc).
    + apply det_from_off. intros r _. f_equal; [apply (oprod_perm o Hring), Permutation_map, PT|]. f_equal.
      rewrite (box_osum o Hring o_exp Hev Hexp). apply (oprod_perm o Hring). apply Permutation_map. apply NoDup_Permutation; auto.
      * apply NoDup_filter, NoDup_filter, (po_nodup _ _ _ Hpg).
      * intros a. unfold inside. rewrite !filter_In. destruct (in_dec Nat.eq_dec a anc) as [Ha|Ha]; [|intuition discriminate].
        assert (HaT := dp_anc _ _ _ _ _ _ _ Hd a Ha). destruct (in_dec Nat.eq_dec a T); [|contradiction].
        assert (HaV := dp_vars _ _ _ _ _ _ _ Hd a HaT). tauto.
    + intros a Ha. apply filter_In in Ha. apply Ha.
    + apply (vars_topological o o_exp pg Hpg).
    + intros a Ha. apply Hc. apply (inside_incl _ _ _ Ha).
    + intros a r Ha. apply (dp_free _ _ _ _ _ _ _ Hd). apply (inside_incl _ _ _ Ha).
Qed.

Lemma sum_over_sizes : forall (l m : list plate) (f : assignment -> V) s, sizes_of l = sizes_of m -> sum_over o l f s = sum_over o m f s.
Proof.
  induction l as [|p l IH]; intros [|q m] f s E; try discriminate; [reflexivity|]. injection E as E1 E2 E3. cbn [sum_over]. rewrite E1, E2.
  apply osum_ext. intros i _. now apply IH.
Qed.
Lemma sizes_names : forall l m : list plate, sizes_of l = sizes_of m -> N l = N m.
Proof. intros l m E. assert (G : forall k : list plate, N k = map fst (sizes_of k)) by (intros k; unfold sizes_of; now rewrite map_map). now rewrite !G, E. Qed.
Lemma sizes_range : forall (l m : list plate) s, sizes_of l = sizes_of m -> in_range s l -> in_range s m.
Proof.
  intros l m s E H p Hp. assert (I : In (pname p, pn p) (sizes_of m)) by (apply in_map_iff; eauto). rewrite <- E in I. apply in_map_iff in I. destruct I as [q [Eq Hq]].
  injection Eq as E1 E2. rewrite <- E1, <- E2. now apply H.
Qed.

Lemma ratio_product : forall W (FP FPw : list plate) T own s, ratio_weights W FP FPw T own cnt -> in_range s FPw ->
  oprod o (map (fun p => weight_at FPw p s) FPw) = oprod o (map (fun a => W a s) T).
Proof.
  intros W FP FPw T own s [H1 [H2 [H3 H4]] H5 H6] Hs.
  set (G := fun nm => match find (fun p : plate => String.eqb (pname p) nm) FPw with Some q => weight_at FPw q s | None => o_one o end).
  assert (ND : NoDup (N FPw)) by (rewrite (sizes_names _ _ H1); exact H3).
  assert (Fd : forall p, In p FPw -> find (fun q : plate => String.eqb (pname q) (pname p)) FPw = Some p).
  { intros p Hp. clear - ND Hp. induction FPw as [|q l IH]; [contradiction|]. cbn [find]. cbn in ND. inversion ND; subst. destruct (String.eqb_spec (pname q) (pname p)) as [E|E].
    - destruct Hp as [->|Hp]; [reflexivity|]. exfalso. apply H1. rewrite E. now apply in_map.
    - destruct Hp as [->|Hp]; [now contradiction E|]. now apply IH. }
  assert (Pm : Permutation (N FPw) (map own T)).
  { apply NoDup_Permutation; auto.
    - assert (Hinj := H5). clear - H2 Hinj. induction T as [|a T IH]; cbn; constructor; inversion H2; subst.
      + intros C. apply in_map_iff in C. destruct C as [b [E Hb]]. apply H1. rewrite <- (Hinj b a); auto; [now right|now left].
      + apply IH; auto. intros b c Hb Hc. apply Hinj; now right.
    - intros nm. rewrite (sizes_names _ _ H1). split.
      + intros H. apply in_map_iff in H. destruct H as [p [<- Hp]]. destruct (proj1 (H4 (pname p) (pn p))) as [a [Ha [Ea _]]]; [apply in_map_iff; eauto|]. rewrite <- Ea. now apply in_map.
      + intros H. apply in_map_iff in H. destruct H as [a [<- Ha]]. assert (I : In (own a, cnt a) (sizes_of FP)) by (apply H4; eauto). apply in_map_iff in I.
        destruct I as [p [Ep Hp]]. injection Ep as Ep _. rewrite <- Ep. now apply in_map. }
  transitivity (oprod o (map G (N FPw))).
  { rewrite map_map. f_equal. apply map_ext_in. intros p Hp. unfold G. now rewrite (Fd p Hp). }
  rewrite (oprod_perm o Hring _ _ (Permutation_map G Pm)), map_map. f_equal. apply map_ext_in. intros a Ha. unfold G.
  assert (I : In (own a) (N FPw)) by (apply (Permutation_in _ (Permutation_sym Pm)); now apply in_map). apply in_map_iff in I. destruct I as [p [Ep Hp]].
  rewrite <- Ep, (Fd p Hp). apply H6; auto.
Qed.

Lemma own_counts : forall W (FP FPw : list plate) T own, ratio_weights W FP FPw T own cnt ->
  oprod o (map (fun a => recip (cnt a)) T) = oprod o (map (fun p => recip (pn p)) FP).
Proof.
  intros W FP FPw T own [_ [H2 [H3 H4]] H5 _]. assert (Pm : Permutation (map (fun a => (own a, cnt a)) T) (sizes_of FP)).
  { apply NoDup_Permutation.
    - assert (Hinj := H5). clear - H2 Hinj. induction T as [|a T IH]; cbn; constructor; inversion H2; subst.
      + intros C. apply in_map_iff in C. destruct C as [b [E Hb]]. injection E as E _. apply H1. rewrite <- (Hinj b a); auto; [now right|now left].
      + apply IH; auto. intros b c Hb Hc. apply Hinj; now right.
    - apply (NoDup_map_inv fst). unfold sizes_of. rewrite map_map. exact H3.
    - intros [nm k]. rewrite H4. split.
      + intros H. apply in_map_iff in H. destruct H as [a [E Ha]]. injection E as <- <-. eauto.
      + intros [a [Ha [<- <-]]]. apply in_map_iff. eauto. }
  transitivity (oprod o (map (fun x : string * nat => recip (snd x)) (sizes_of FP))).
  - rewrite <- (oprod_perm o Hring _ _ (Permutation_map (fun x : string * nat => recip (snd x)) Pm)), map_map. reflexivity.
  - unfold sizes_of. now rewrite map_map.
Qed.

Lemma average_const : forall (FP : list plate) c, (forall p, In p FP -> 1 <= pn p) -> average_over o recip FP (fun _ => c) = c.
Proof.
  intros FP c H. unfold average_over. generalize (fun _ : string => 0).
  assert (G : forall l k s, (forall p, In p l -> 1 <= pn p) -> sum_over o l (fun _ => o_mul o (oprod o (map (fun p : plate => recip (pn p)) l)) k) s = k).
  { induction l as [|p l IH]; intros k s Hl; cbn [sum_over]; [cbn; ring|].
    transitivity (osum o (map (fun _ : nat => o_mul o (recip (pn p)) k) (seq 0 (pn p)))).
    - apply osum_ext. intros i _. rewrite <- (IH (o_mul o (recip (pn p)) k) (set_to s (pname p) i)) by (intros q Hq; apply Hl; now right).
      apply sum_over_pt. intros s'. change (oprod o (map (fun q : plate => recip (pn q)) (p :: l))) with (o_mul o (recip (pn p)) (oprod o (map (fun q : plate => recip (pn q)) l))). ring.
    - assert (E : forall n x, osum o (map (fun _ : nat => o_mul o x k) (seq 0 n)) = o_mul o (osum o (repeat x n)) k).
      { intros n x. generalize 0. induction n as [|n IHn]; intros j; cbn [seq map repeat osum fold_right]; [ring|]. fold (osum o). unfold osum in IHn. rewrite IHn. ring. }
      rewrite E, (dv_sum _ _ _ _ _ Hdv) by (apply Hl; now left). ring. }
  intros s. now apply G.
Qed.

Theorem importance_unbiased : forall (nodes : world -> nat -> @snode V S) h univ costs FP FPw T own anc cost sg base,
  costs <> [] ->
  (forall w, closed_under (h_parents (h w)) (univ w) /\ incl costs (univ w)) ->
  (forall w c, In c costs -> score_setup veq anc_unwrap o o_exp (nodes w) (h w) c (FPw c w) (anc c) (fun _ => None) (fun a s => pg_logp pg a s (along pg w s)) /\
     (forall s, in_range s (FP c) -> den (nd_t (nodes w c)) s [] = cost c s (along pg w s)) /\
     ratio_weights (fun a s => ratio (cnt a) (pg_logp pg a s (along pg w s)) (lq a s (along pg w s))) (FP c) (FPw c w) (T c) own cnt) ->
  (forall c, In c costs -> depends_on o o_exp pg (FP c) (T c) (anc c) (cost c) /\ forall p, In p (FP c) -> 1 <= pn p) ->
  exists loss : world -> V,
    (forall w, exists enough, forall fuel, enough <= fuel ->
       exists t, backward_value veq anc_unwrap o o_exp fuel (h w) (nodes w) costs sg base = Ok t /\ shape t = [] /\ el t [] = loss w) /\
    forall w r, sampled o o_exp pq w loss = osum o (map (fun c => average_over o recip (FP c) (fun s => mean o o_exp pg s r (cost c s))) costs).
Proof.
  intros nodes h univ costs FP FPw T own anc cost sg base Hne Hu Hss Hdep.
  exists (fun w => osum o (map (fun c => weighted_sum o false (FPw c w) (FPw c w) (fun s =>
      o_mul o (box o o_exp (osum o (map (fun a => pg_logp pg a s (along pg w s)) (anc c)))) (den (nd_t (nodes w c)) s [])) (fun _ => 0)) costs)).
  split.
  - intros w. destruct (Hu w) as [Hu1 Hu2].
    destruct (score_loss veq anc_unwrap o Hring o_exp (nodes w) (h w) (univ w) costs (fun c => FPw c w) anc (fun a s => pg_logp pg a s (along pg w s)) sg base Hu1 Hu2 Hne) as [enough H];
      [intros c Hc; apply (Hss w c Hc)|].
    exists enough. intros fuel Hf. destruct (H fuel Hf) as [r [R1 [R2 [R3 R4]]]]. exists (st r). unfold backward_value. rewrite R1. cbn [bind as_tensor].
    split; [reflexivity|]. split; [exact R3|exact R4].
  - intros w r. unfold sampled. rewrite (sampled_sum o Hring). apply osum_ext. intros c Hc. destruct (Hdep c Hc) as [Hd Hpos].
    set (F := fun (s : assignment) w => o_mul o (oprod o (map (fun a => R a s (along pg w s)) (T c)))
      (o_mul o (box o o_exp (osum o (map (fun a => pg_logp pg a s (along pg w s)) (anc c)))) (cost c s (along pg w s)))).
    transitivity (sampled_from o o_exp pq (sites pq) w (fun w => sum_over o (FP c) (fun s => F s w) (fun _ => 0))).
    + apply sampled_ext. intros w'. destruct (Hss w' c Hc) as [S1 [S2 S3]]. unfold weighted_sum. pose proof (rw_sizes _ _ _ _ _ _ S3) as Es. pose proof (rw_own _ _ _ _ _ _ S3) as Eo.
      rewrite (sum_over_sizes _ _ _ _ Es). apply (sum_over_ext anc_unwrap); [apply Eo|]. intros s _ Hs.
      assert (Rs : in_range s (FP c)) by (intros p Hp; now apply Hs).
      unfold F. rewrite (ratio_product _ _ _ _ _ s S3) by (apply (sizes_range (FP c)); auto). f_equal. f_equal. now apply S2.
    + rewrite (sampled_sum_over o Hring). unfold average_over. destruct (Hss w c Hc) as [S1 [_ S3]]. pose proof (rw_own _ _ _ _ _ _ S3) as Eo.
      apply (sum_over_ext anc_unwrap); [apply Eo|]. intros s _ Hs. assert (Rs : in_range s (FP c)) by (intros p Hp; now apply Hs).
      rewrite <- (own_counts _ _ _ _ _ S3). apply (ratio_mean (FP c) (T c) (anc c) (cost c) s w r Hd); auto; [apply Eo|exact (ss_nodup _ _ _ _ _ _ _ _ _ _ _ S1)|].
      intros a Ha. destruct Eo as [_ [_ Eo]]. assert (I : In (own a, cnt a) (sizes_of (FP c))) by (apply Eo; eauto). apply in_map_iff in I. destruct I as [p [Ep Hp]]. injection Ep as _ <-. auto.
Qed.

Theorem importance_alike : forall (nodes : world -> nat -> @snode V S) h univ costs FP FPw T own anc cost sg base,
  costs <> [] ->
  (forall w, closed_under (h_parents (h w)) (univ w) /\ incl costs (univ w)) ->
  (forall w c, In c costs -> score_setup veq anc_unwrap o o_exp (nodes w) (h w) c (FPw c w) (anc c) (fun _ => None) (fun a s => pg_logp pg a s (along pg w s)) /\
     (forall s, in_range s (FP c) -> den (nd_t (nodes w c)) s [] = cost c (along pg w s)) /\
     ratio_weights (fun a s => ratio (cnt a) (pg_logp pg a s (along pg w s)) (lq a s (along pg w s))) (FP c) (FPw c w) (T c) own cnt) ->
  (forall c, In c costs -> depends_on o o_exp pg (FP c) (T c) (anc c) (fun _ => cost c) /\ forall p, In p (FP c) -> 1 <= pn p) ->
  (forall a s s' r, In a (pg_vars pg) -> pg_support pg a s r = pg_support pg a s' r /\ pg_logp pg a s r = pg_logp pg a s' r) ->
  exists loss : world -> V,
    (forall w, exists enough, forall fuel, enough <= fuel ->
       exists t, backward_value veq anc_unwrap o o_exp fuel (h w) (nodes w) costs sg base = Ok t /\ shape t = [] /\ el t [] = loss w) /\
    forall w r s, sampled o o_exp pq w loss = osum o (map (fun c => mean o o_exp pg s r (cost c)) costs).
Proof.
  intros nodes h univ costs FP FPw T own anc cost sg base H1 H2 H3 H4 H5.
  destruct (importance_unbiased nodes h univ costs FP FPw T own anc (fun c _ => cost c) sg base H1 H2 H3 H4) as [loss [L1 L2]]. exists loss. split; [exact L1|].
  intros w r s. rewrite (L2 w r). apply osum_ext. intros c Hc.
  assert (Hm : forall s', mean o o_exp pg s' r (cost c) = mean o o_exp pg s r (cost c)).
  { intros s'. unfold mean. assert (G : forall vs r, incl vs (pg_vars pg) -> mean_from o o_exp pg vs s' r (cost c) = mean_from o o_exp pg vs s r (cost c)).
    { induction vs as [|a vs IH]; intros r0 Hi; [reflexivity|]. cbn [mean_from]. assert (Ha : In a (pg_vars pg)) by (apply Hi; now left).
      rewrite (proj1 (H5 a s' s r0 Ha)). apply osum_ext. intros x _. unfold SpecProgram.prob. rewrite (proj2 (H5 a s' s (put r0 a x) Ha)), IH by (intros b Hb; apply Hi; now right). reflexivity. }
    apply G, incl_refl. }
  rewrite <- (average_const (FP c) (mean o o_exp pg s r (cost c))) by (apply (H4 c Hc)).
  unfold average_over. apply sum_over_pt. intros s'. now rewrite Hm.
Qed.
End ImportanceProgram.
