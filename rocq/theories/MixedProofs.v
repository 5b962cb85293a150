(** The surrogate loss of programs whose variables use different methods. *)
From Coq Require Import String List Arith Bool ZArith Lia Permutation Ring.
From Verif Require Import Base Torch Plates Wrap OrderPlates Scalar Reduce Graph Surrogate ListLemmas IndexLemmas SpecTensor SpecWrap
  SpecOrder SpecReduce SpecGraph SpecSurrogate SpecMixed WrapProofs AlignProofs CallProofs CallProofs2 OpProofs OrderProofs ReduceProofs ReduceProofs2
  VarianceProofs PlateEqProofs GraphProofs SurrogateProofs SurrogateProofs2 SurrogateProofs3.
Import ListNotations.

Section Mixed.
Context {V S : Type}.
Variable veq : V -> V -> bool.
Variable anc_unwrap : plate V -> stensor V -> res (stensor V).
Variable o : sops V.
Hypothesis Hring : is_ring o.
Variable o_exp : V -> V.
Notation plate := (plate V).
Notation stensor := (stensor V).
Notation N l := (map (@pname V) l).
Let Hring' : ring_theory (o_zero o) (o_one o) (o_add o) (o_mul o) (o_sub o) (o_opp o) (@eq V) := Hring.
Add Ring o_ring : Hring'.

Lemma quiet_estimates : forall FP (nodes : nat -> @snode V S) c a, quiet nodes a ->
  estimates o FP nodes c a (fun sg tm sg' => sg' = sg /\ tm = mkTerm None None).
Proof.
  intros FP nodes c a [n [lp [m [En Em]]]]. unfold estimates. rewrite En. intros np rc nm sg base _ _ _ _. rewrite Em.
  exists None, None, sg, (mkTerm None None). repeat split; auto. right. now left.
Qed.
Lemma fixed_trace : forall (T : nat -> @term V) ps (sg : S) ts sg',
  trace (fun p (sg : S) tm sg' => sg' = sg /\ tm = T p) ps sg ts sg' -> sg' = sg /\ ts = map T ps.
Proof. intros T ps sg ts sg' H. induction H as [|p ps sg t sg1 ts sg2 [-> ->] Ht [-> ->]]; auto. Qed.
Lemma no_controls : forall FP (T : nat -> @term V) ps met, (forall p, t_cv (T p) = None) -> controls o o_exp FP met (map T ps) = o_zero o.
Proof. intros FP T ps. induction ps as [|p ps IH]; intros met H; simpl; auto. rewrite H, IH by auto. ring. Qed.
Lemma among_same : forall FP l m : list plate, (forall x, In x (N l) <-> In x (N m)) -> among FP l = among FP m.
Proof.
  intros FP l m H. unfold among. apply filter_ext. intros p.
  destruct (has l (pname p)) eqn:E1, (has m (pname p)) eqn:E2; auto.
  - apply has_names, H, has_names in E1. congruence.
  - apply has_names, H, has_names in E2. congruence.
Qed.
Lemma osum_only : forall (b : nat -> bool) (g : nat -> V) l, osum o (map (fun p => if b p then g p else o_zero o) l) = osum o (map g (filter b l)).
Proof. intros b g. induction l as [|p l IH]; simpl; auto. unfold osum in *. simpl. rewrite IH. destruct (b p); simpl; [reflexivity|]. ring. Qed.

Theorem mixed_loss : forall (nodes : nat -> @snode V S) h univ costs FP anc score sg base,
  closed_under (h_parents h) univ -> incl costs univ -> costs <> [] ->
  (forall c, In c costs -> mixed_setup veq anc_unwrap o o_exp nodes h c (FP c) (anc c) score) ->
  exists enough, forall fuel, enough <= fuel ->
  exists r, surrogate_loss veq anc_unwrap o o_exp fuel h nodes costs sg base = Ok (PT r, sg) /\ splates r = [] /\ shape (st r) = [] /\
    el (st r) [] = osum o (map (fun c => total o (FP c) (involved nodes (anc c) c) (fun s =>
      o_mul o (box o o_exp (osum o (map (fun a => score a s) (anc c)))) (den (nd_t (nodes c)) s []))) costs).
Proof.
  intros nodes h univ costs FP anc score sg base Hu Hi Hne Hs.
  set (isin := fun c p => if in_dec Nat.eq_dec p (anc c) then true else false).
  set (T := fun c p => if isin c p then mkTerm (Some (splates (nd_t (nodes p)), score p)) None else mkTerm None None).
  set (est := fun c (p : nat) (sg : S) tm sg' => sg' = sg /\ tm = T c p).
  destruct (enough_for_all costs (fun c fuel => exists l, surrogate_order fuel h c = Some l /\ NoDup l /\
     forall x, In x l <-> reachable (h_parents h) false c x)) as [enough He].
  { intros c Hc. destruct (walk_order h univ c Hu (Hi c Hc)) as [l [[e H1] H2]]. exists e. intros fuel Hf. exists l. auto. }
  exists enough. intros fuel Hf. specialize (He fuel Hf).
  set (ord := fun c => match surrogate_order fuel h c with Some l => l | None => [] end).
  set (ks := map (fun c => mkCosting c (FP c) (ord c) (scb nodes c) (est c)) costs).
  assert (Hord : forall c, In c costs -> surrogate_order fuel h c = Some (ord c) /\ NoDup (ord c) /\ forall x, In x (ord c) <-> reachable (h_parents h) false c x).
  { intros c Hc. destruct (He c Hc) as [l [E H]]. unfold ord. rewrite E. auto. }
  assert (Hks : Forall (costing_ok veq o nodes fuel h) ks).
  { apply Forall_forall. intros k Hk. apply in_map_iff in Hk. destruct Hk as [c [<- Hc]]. destruct (Hord c Hc) as [O1 [O2 O3]].
    split; [exact O1|]. simpl. destruct (Hs c Hc) as [S1 S2 S3 S4 S5 S6 S7 S8].
    assert (Hk2 : forall p, In p (ord c) -> scb nodes c p = true -> over (FP c) (nd_t (nodes p)) /\ (quiet nodes p \/ In p (anc c))).
    { intros p Hp E. apply O3 in Hp. destruct (S6 p Hp) as [Hb|[_ Hb]]; [|exact Hb]. apply scored_scb in Hb. congruence. }
    split; auto.
    - intros p Hp. apply O3 in Hp. destruct (S6 p Hp) as [Hb|[Hb _]]; now rewrite (scored_scb _ _ _ _ Hb).
    - intros p Hp E. apply (Hk2 p Hp E).
    - intros p Hp E. destruct (Hk2 p Hp E) as [Hov Hq]. unfold est, T, isin. destruct (in_dec Nat.eq_dec p (anc c)) as [Ha|Ha].
      + destruct (S8 p Ha) as [n [lp [m [ev [f [X1 [X2 [X3 X4]]]]]]]].
        exact (score_estimates veq anc_unwrap o Hring o_exp (FP c) nodes c p n lp m ev f (po_sound _ _ S1) Hov X1 X2 X3 (score p) X4).
      + destruct Hq as [Hq|Hq]; [|contradiction]. exact (quiet_estimates (FP c) nodes c p Hq). }
  destruct (surrogate_spec veq anc_unwrap o Hring o_exp fuel h nodes base ks sg) as [r [sg' [tss [R1 [R2 [R3 [R4 R5]]]]]]].
  { unfold ks. destruct costs; [congruence|discriminate]. } { exact Hks. }
  replace (map cg_id ks) with costs in R1 by (unfold ks; rewrite map_map; simpl; now rewrite map_id).
  assert (HT : sg' = sg /\ tss = map (fun c => map (T c) (filter (scb nodes c) (ord c))) costs).
  { clear -R2. unfold ks in R2. revert sg sg' tss R2. induction costs as [|c costs IH]; intros sg sg' tss H; [inversion H; auto|].
      cbn [map] in H. inversion H as [|k ks' sgx ts sg1 tss' sg2 Ht Hts]; subst. cbn [cg_est cg_scored cg_order] in Ht.
      apply fixed_trace in Ht. destruct Ht as [-> ->]. apply IH in Hts. destruct Hts as [-> ->]. auto. }
  destruct HT as [-> ->]. exists r. refine (conj R1 (conj R3 (conj R4 _))). rewrite R5. f_equal.
  unfold ks. clear R5 R1 R2 Hks. clear ks. rewrite combine_map_both, map_map. apply map_ext_in. intros c Hc. cbn [fst snd cg_plates cg_id].
  destruct (Hord c Hc) as [O1 [O2 O3]]. destruct (Hs c Hc) as [S1 S2 S3 S4 S5 S6 S7 S8].
  set (l := filter (scb nodes c) (ord c)).
  assert (Hperm : Permutation (filter (isin c) l) (anc c)).
  { apply NoDup_Permutation; auto. now apply NoDup_filter, NoDup_filter. intros x. unfold l. rewrite !filter_In, O3. unfold isin. split.
    - intros [_ E]. destruct (in_dec Nat.eq_dec x (anc c)); [auto|discriminate].
    - intros Hx. destruct (S7 x Hx) as [H1 H2]. apply scored_scb in H2. destruct (in_dec Nat.eq_dec x (anc c)); [auto|contradiction]. }
  assert (HG : forall s, gsum o (map (T c) l) s = osum o (map (fun a => score a s) (anc c))).
  { intros s. unfold gsum. rewrite map_map. transitivity (osum o (map (fun p => if isin c p then score p s else o_zero o) l)).
    - f_equal. apply map_ext. intros p. unfold T. destruct (isin c p); reflexivity.
    - rewrite osum_only. apply (osum_perm o Hring). now apply Permutation_map. }
  unfold cost_loss. rewrite no_controls by (intros p; unfold T; destruct (isin c p); reflexivity).
  unfold total. rewrite (among_same (FP c) (gplates (map (T c) l) ++ splates (nd_t (nodes c))) (involved nodes (anc c) c)).
  - transitivity (weighted_sum o false (FP c) (among (FP c) (involved nodes (anc c) c)) (fun s => o_mul o (box o o_exp (gsum o (map (T c) l) s)) (den (nd_t (nodes c)) s [])) (fun _ => 0)); [ring|].
    apply (weighted_sum_ext anc_unwrap); [apply (among_NoDup veq _ (po_sound _ _ S1))|]. intros s _ _. now rewrite HG.
  - intros x. unfold involved. rewrite !map_app, !in_app_iff. apply or_iff_compat_r. unfold gplates. rewrite !in_map_iff. split; intros [q [Hq1 Hq2]]; exists q; (split; [exact Hq1|]); apply in_flat_map; apply in_flat_map in Hq2; destruct Hq2 as [y [Hy1 Hy2]].
    + apply in_map_iff in Hy1. destruct Hy1 as [p [<- Hp]]. unfold T, isin in Hy2. destruct (in_dec Nat.eq_dec p (anc c)) as [Ha|Ha]; [|destruct Hy2]. exists p. auto.
    + exists (T c y). split; [apply in_map|].
      * eapply Permutation_in in Hy1; [|apply Permutation_sym, Hperm]. apply filter_In in Hy1. tauto.
      * unfold T, isin. destruct (in_dec Nat.eq_dec y (anc c)); [exact Hy2|contradiction].
Qed.

(** Without score functions. *)
Lemma total_cost : forall FP (c : stensor) f, plates_ok veq FP -> over FP c -> ext f ->
  total o FP (splates c) f = weighted_sum o false (splates c) (splates c) f (fun _ => 0).
Proof.
  intros FP c f Hok [Wc Ic Cc] Hf. pose proof (po_sound _ _ Hok) as HS. unfold total.
  assert (HP : Permutation (among FP (splates c)) (splates c)).
  { apply Permutation_sym. apply (among_self veq anc_unwrap FP HS); auto. apply (wf_names c Wc). }
  transitivity (weighted_sum o false FP (splates c) f (fun _ => 0)).
  - unfold weighted_sum. rewrite (sum_over_perm o Hring _ _ _ _ HP (among_NoDup veq FP HS _)).
    + apply (sum_over_ext anc_unwrap); [exact (wf_names c Wc)|]. intros s _ _. f_equal. exact (wprod_perm o Hring false FP _ _ s HP).
    + intros s s' H. f_equal; [|now apply Hf]. exact (wprod_ext o false FP _ s s' H).
  - unfold weighted_sum. apply (sum_over_ext anc_unwrap); [exact (wf_names c Wc)|]. intros s _ _. f_equal. f_equal. apply map_ext_in. intros q Hq.
    cbv zeta. symmetry. apply (weight_at_sub veq); auto. intros _ x Hx. exact (Cc q x Hq Hx). now apply (po_weights _ _ Hok), Ic.
Qed.

Theorem quiet_loss : evaluates o o_exp -> forall (nodes : nat -> @snode V S) h univ costs FP sg base,
  closed_under (h_parents h) univ -> incl costs univ -> costs <> [] ->
  (forall c, In c costs -> mixed_setup veq anc_unwrap o o_exp nodes h c (FP c) [] (fun _ _ => o_zero o)) ->
  exists enough, forall fuel, enough <= fuel ->
  exists t, backward_value veq anc_unwrap o o_exp fuel h nodes costs sg base = Ok t /\ shape t = [] /\
    el t [] = osum o (map (fun c => weighted_sum o false (splates (nd_t (nodes c))) (splates (nd_t (nodes c))) (fun s => den (nd_t (nodes c)) s []) (fun _ => 0)) costs).
Proof.
  intros Hev nodes h univ costs FP sg base Hu Hi Hne Hs.
  destruct (mixed_loss nodes h univ costs FP (fun _ => []) (fun _ _ => o_zero o) sg base Hu Hi Hne Hs) as [e He].
  exists e. intros fuel Hf. destruct (He fuel Hf) as [r [R1 [R2 [R3 R4]]]]. exists (st r).
  unfold backward_value. rewrite R1. cbn [bind]. split; [reflexivity|]. split; [exact R3|]. rewrite R4. f_equal. apply map_ext_in. intros c Hc.
  destruct (Hs c Hc) as [S1 S2 S3 S4 S5 S6 S7 S8]. unfold involved. cbn [flat_map app].
  rewrite total_cost; auto.
  - apply (weighted_sum_ext anc_unwrap); [exact (wf_names _ (ov_wf _ _ S2))|]. intros s _ _. cbn [map osum fold_right].
    unfold box. rewrite (ev_zero _ _ Hev). replace (o_sub o (o_zero o) (o_zero o)) with (o_zero o) by ring. rewrite (ev_exp0 _ _ Hev). ring.
  - intros s s' H. f_equal. now apply den_ext_fun.
Qed.
End Mixed.
