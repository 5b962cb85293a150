(** The surrogate loss of a program that uses ScoreFunctionWOR. *)
From Coq Require Import String List Arith Bool ZArith Lia Permutation Ring.
From Verif Require Import Base Torch Plates Wrap OrderPlates Scalar Reduce Graph Surrogate Estimators ScoreWor ListLemmas IndexLemmas SpecTensor SpecWrap
  SpecOrder SpecReduce SpecGraph SpecSurrogate SpecScoreWor WrapProofs AlignProofs CallProofs CallProofs2 OpProofs OrderProofs ReduceProofs ReduceProofs2
  VarianceProofs PlateEqProofs GraphProofs SurrogateProofs SurrogateProofs2 SurrogateProofs3 EstimatorProofs RaoBlackwellProofs ScoreWorProofs.
Import ListNotations.
Open Scope nat_scope.

Section Loss.
Context {V S : Type}.
Variable veq : V -> V -> bool.
Variable anc_unwrap : plate V -> stensor V -> res (stensor V).
Variable o : sops V.
Hypothesis Hring : is_ring o.
Variable o_exp : V -> V.
Variable o_div : V -> V -> V.
Variable eps : V.
Let Hring' : ring_theory (o_zero o) (o_one o) (o_add o) (o_mul o) (o_sub o) (o_opp o) (@eq V) := Hring.
Add Ring o_ring : Hring'.
Notation plate := (plate V).
Notation stensor := (stensor V).

Variables (name : string) (obj : nat) (biased use_baseline : bool) (lp pert : list V) (x : ten V) (cost : list V).
Hypothesis Hn : 2 <= length lp.
Hypothesis Hpert : length pert = length lp.
Hypothesis Hx : exists ev, shape x = length lp :: ev.
Hypothesis Hlen : length cost = length lp.
Notation P := (wor_plate o o_exp o_div eps name obj biased lp pert).
Notation nodes := (wor_nodes (S := S) veq anc_unwrap o o_exp o_div eps name obj biased use_baseline lp pert x cost).
Notation WW := (wor_weights o o_exp o_div eps biased lp pert).
(** Importance weight and gradient term. *)
Definition wiw (i : nat) : V :=
  if i =? length lp - 1 then o_zero o else iw_one o o_exp o_div eps (nth i lp (o_zero o)) (nth (length lp - 1) pert (o_zero o)).
Definition wterm : V := wor_term o o_div biased use_baseline (length lp) wiw (fun i => o_exp (nth i lp (o_zero o))) (fun i => nth i cost (o_zero o)).

Lemma WW_length : length WW = length lp.
Proof. unfold wor_weights. cbv zeta. now rewrite !map_length, seq_length. Qed.
Lemma P_wide : wide [P] = [P].
Proof. unfold wide. simpl. destruct (1 <? length lp) eqn:E; auto. apply Nat.ltb_ge in E. lia. Qed.
Lemma P_mdp : mdp [P] = [P].
Proof. exact P_wide. Qed.
Lemma P_sound : sound veq [P].
Proof. apply lone_sound; auto; [simpl; lia|]. apply PlateEqProofs.peq_refl. Qed.
Lemma P_ok : plates_ok veq [P].
Proof.
  constructor; [exact P_sound|apply lone_acyclic; reflexivity|]. intros p [<-|[]]. unfold weight_fits. simpl.
  split; [lia|]. split; [repeat constructor; intros []|]. split; [auto|]. split; [intros y [->|[]]; auto|]. split; [intros q []|].
  unfold wide_names, size_in. simpl. rewrite String.eqb_refl. simpl. replace (1 <? length lp) with true by (symmetry; apply Nat.ltb_lt; lia).
  simpl. rewrite String.eqb_refl. simpl. now rewrite WW_length.
Qed.
Lemma closed_P : closed [P].
Proof. intros p q [<-|[]] []. Qed.
Lemma over_0 : over [P] (nd_t (nodes 0)).
Proof.
  destruct Hx as [ev Ex]. constructor; [|apply incl_refl|exact closed_P]. constructor; unfold wor_nodes; cbv zeta; cbn [nd_t splates st s_event_shape s_plate_dims].
  - repeat constructor. intros [].
  - intros p [<-|[]]. simpl. lia.
  - rewrite P_wide, P_mdp, Ex. reflexivity.
  - now rewrite P_wide, P_mdp.
Qed.
Lemma row_wf : forall id l ps, length l = length lp -> wf (wor_row o id P l ps).
Proof.
  intros id l ps Hl. constructor; unfold wor_row; cbn [splates st s_event_shape s_plate_dims wrow shape].
  - repeat constructor. intros [].
  - intros p [<-|[]]. simpl. lia.
  - rewrite P_wide, P_mdp. simpl. now rewrite Hl.
  - now rewrite P_wide, P_mdp.
Qed.
Lemma row_event : forall id l ps, s_event_shape (wor_row o id P l ps) = [].
Proof. intros. unfold wor_row. cbn [s_event_shape]. rewrite P_mdp. reflexivity. Qed.
Lemma over_1 : over [P] (nd_t (nodes 1)).
Proof. constructor; [now apply row_wf|apply incl_refl|exact closed_P]. Qed.
Lemma row_den : forall id l ps s, den (wor_row o id P l ps) s [] = nth (s name) l (o_zero o).
Proof. intros. unfold den, wor_row. cbn [splates st]. rewrite P_wide. reflexivity. Qed.
Lemma row_stands : forall id l ps, length l = length lp -> stands (PT (wor_row o id P l ps)) [P] (fun s => nth (s name) l (o_zero o)).
Proof.
  intros id l ps Hl. split; [now apply row_wf|]. split; [apply Permutation_refl|]. exists 0. split; [apply row_event|]. intros s Hs. apply row_den.
Qed.

Lemma over_samples_ext : forall n f g, (forall i, f i = g i) -> over_samples o n f = over_samples o n g.
Proof. intros n f g H. unfold over_samples. apply osum_ext. auto. Qed.
Lemma wor_term_ext : forall b u n w w' p p' c c', (forall i, w i = w' i) -> (forall i, p i = p' i) -> (forall i, c i = c' i) ->
  wor_term o o_div b u n w p c = wor_term o o_div b u n w' p' c'.
Proof.
  intros b u n w w' p p' c c' Hw Hp Hc.
  assert (E1 := over_samples_ext n w w' Hw).
  assert (E2 : over_samples o n (fun i => o_mul o (w i) (c i)) = over_samples o n (fun i => o_mul o (w' i) (c' i))).
  { apply over_samples_ext. intros i. now rewrite Hw, Hc. }
  unfold wor_term. destruct u; [destruct b|]; unfold eq11, eq10, eq9; cbv zeta; rewrite ?E1, ?E2; apply over_samples_ext; intros i; now rewrite ?Hw, ?Hp, ?Hc.
Qed.

Lemma wor_estimates : estimates o [P] nodes 1 0 (fun sg tm sg' => tm = mkTerm (Some ([], fun _ => wterm)) None).
Proof.
  unfold estimates. simpl nd_sto. cbv iota. intros np rc nm sg base Hr Hav Hrc _.
  assert (Efor : foreign (nd_t (nodes 1)) (splates (nd_t (nodes 0))) = []).
  { unfold wor_nodes, foreign; cbv zeta; cbn [nd_t splates wor_row]. rewrite P_wide. simpl. rewrite String.eqb_refl. reflexivity. }
  destruct (Hrc Efor) as [_ ->].
  cbn [me_estimator method_of].
  match goal with |- context [wor_estimator _ _ _ _ _ _ _ _ _ _ _ ?smp _ _ _ _] => set (X := smp) end.
  destruct (wor_spec (S := S) veq anc_unwrap o o_exp o_div eps P [] (wor_row o 2 P lp []) (wrow o pert)) with (FP := [P]) (biased := biased)
    (use_baseline := use_baseline) (x := X) (rc := nd_t (nodes 1)) (ql := [P]) (C := fun s : assignment => nth (s name) cost (o_zero o))
    (nm := nm) (sg := sg) (base := base) as [g [gp [E1 [E2 [E3 E4]]]]].
  - simpl. lia.
  - now apply row_wf.
  - reflexivity.
  - apply row_event.
  - simpl. now rewrite Hpert.
  - exact P_sound.
  - apply incl_refl.
  - now apply row_stands.
  - apply incl_refl.
  - now left.
  - intros s s' E. now rewrite E.
  - assert (Egp : gp = []).
    { destruct gp as [|q gp]; auto. exfalso. destruct (proj1 (E4 (pname q)) (or_introl eq_refl)) as [H1 H2]. simpl in H1. intuition. }
    subst gp. change (pname P) with name in E1. rewrite E1. cbn [bind unpack2 pair_of as_term].
    eexists (Some (PT g)), None, sg, _. split; [reflexivity|]. split; [left; eauto|]. split; [|split; [|reflexivity]]; [|exact I].
    simpl. split; [|split; [intros q []|split; [intros p q []|constructor]]].
    apply (stands_ext _ _ _ _ E2). intros s Hs. unfold wterm. change (pn P) with (length lp). unfold samples_of. change (pname P) with name.
    assert (Ew : forall i, W o o_exp o_div eps P [] (wor_row o 2 P lp []) (wrow o pert) (set_to s name i) = wiw i).
    { intros i. unfold W, wiw, L, K. change (pname P) with name. change (pn P) with (length lp). rewrite row_den.
      unfold set_to. rewrite String.eqb_refl. reflexivity. }
    assert (El : forall i, L (wor_row o 2 P lp []) (set_to s name i) = nth i lp (o_zero o)).
    { intros i. unfold L. rewrite row_den. unfold set_to. now rewrite String.eqb_refl. }
    assert (Ec : forall i, nth (set_to s name i name) cost (o_zero o) = nth i cost (o_zero o)) by (intros i; unfold set_to; now rewrite String.eqb_refl).
    apply wor_term_ext; intros i; auto. now rewrite El.
Qed.

Lemma wor_order : surrogate_order 20 wor_heap 1 = Some [0; 1].
Proof. vm_compute. reflexivity. Qed.

Theorem wor_loss : forall sg base, exists t, backward_value veq anc_unwrap o o_exp 20 wor_heap nodes [1] sg base = Ok t /\ shape t = [] /\
  el t [] = osum o (map (fun i => o_mul o (nth i WW (o_zero o)) (o_mul o (box o o_exp wterm) (nth i cost (o_zero o)))) (seq 0 (length lp))).
Proof.
  intros sg base.
  set (kk := mkCosting 1 [P] [0; 1] (fun i => i =? 0) (fun _ (_ : S) tm (_ : S) => tm = mkTerm (Some ([], fun _ => wterm)) None)).
  assert (HK : costing_ok veq o nodes 20 wor_heap kk).
  { split; [exact wor_order|]. simpl. constructor.
    - exact P_ok.
    - exact over_1.
    - exact (row_event _ _ _).
    - apply closed_no_gaps. change (splates (nd_t (nodes 1))) with [P]. rewrite P_wide. exact closed_P.
    - intros p [<-|[<-|[]]]; simpl.
      + change true with (negb false). eapply Sc_path; reflexivity.
      + now apply Sc_det.
    - intros p [<-|[<-|[]]] E; [exact over_0|discriminate].
    - intros p [<-|[<-|[]]] E; [exact wor_estimates|discriminate]. }
  destruct (surrogate_spec veq anc_unwrap o Hring o_exp 20 wor_heap nodes base [kk] sg) as [r [sg' [tss [E1 [E2 [E3 [E4 E5]]]]]]]; [discriminate|constructor; [exact HK|constructor]|].
  change (map cg_id [kk]) with [1] in E1. unfold backward_value. rewrite E1. cbn [bind as_tensor]. exists (st r). split; [reflexivity|]. split; [exact E4|].
  rewrite E5. inversion E2 as [|k0 ks sg0 ts sg1 tss0 sg2 T1 T2]; subst. inversion T2; subst. change (filter (cg_scored kk) (cg_order kk)) with [0] in T1.
  inversion T1 as [|p ps sgx tm sgy ts' sgz Q1 Q2]; subst. inversion Q2; subst. simpl in Q1. subst tm.
  simpl combine. cbn [map osum]. simpl fst. simpl snd. cbn [cg_plates cg_id kk]. unfold cost_loss. simpl controls.
  unfold total. change (gplates [mkTerm (Some ([] : list plate, fun _ : assignment => wterm)) None]) with (@nil plate). change (splates (nd_t (nodes 1))) with [P].
  assert (Ea : among [P] ([] ++ [P]) = [P]) by (unfold among; simpl; rewrite String.eqb_refl; reflexivity).
  rewrite Ea. unfold weighted_sum. simpl sum_over.
  match goal with |- context [osum o (map ?f (seq 0 (length lp)))] => match goal with |- _ = osum o (map ?g (seq 0 (length lp))) =>
    assert (H : map f (seq 0 (length lp)) = map g (seq 0 (length lp))) end end.
  { apply map_ext_in. intros i Hi. apply in_seq in Hi. unfold weight_at. simpl.
    unfold wide_names, size_in. simpl. rewrite String.eqb_refl. simpl. replace (1 <? length lp) with true by (symmetry; apply Nat.ltb_lt; lia).
    simpl. unfold set_to. rewrite String.eqb_refl.
    unfold den. simpl. replace (1 <? length lp) with true by (symmetry; apply Nat.ltb_lt; lia). simpl. rewrite String.eqb_refl.
    unfold gsum. simpl.
    assert (X : forall v, o_add o v (o_zero o) = v) by (intros; ring). rewrite X. ring. }
  rewrite H. rewrite osum_cons. cbn [osum fold_right]. ring.
Qed.
End Loss.
