(** The loss of a program with RaoBlackwellSF. *)
From Coq Require Import String List Arith Bool ZArith Lia Permutation Ring.
From Verif Require Import Base Torch Plates Wrap OrderPlates Scalar Reduce Graph Surrogate Estimators RaoBlackwell ListLemmas IndexLemmas SpecTensor SpecWrap
  SpecOrder SpecReduce SpecGraph SpecSurrogate SpecRaoBlackwell WrapProofs AlignProofs CallProofs CallProofs2 OpProofs OrderProofs ReduceProofs ReduceProofs2
  VarianceProofs PlateEqProofs GraphProofs SurrogateProofs SurrogateProofs2 SurrogateProofs3.
Import ListNotations.
Open Scope nat_scope.

Section RB.
Context {V S : Type}.
Variable veq : V -> V -> bool.
Variable anc_unwrap : plate V -> stensor V -> res (stensor V).
Variable o : sops V.
Hypothesis Hring : is_ring o.
Variable o_exp : V -> V.
Hypothesis Hev : evaluates o o_exp.
Notation plate := (plate V).
Notation stensor := (stensor V).
Notation N l := (map (@pname V) l).
Let Hring' : ring_theory (o_zero o) (o_one o) (o_add o) (o_mul o) (o_sub o) (o_opp o) (@eq V) := Hring.
Add Ring o_ring : Hring'.

Lemma lone_ancestry : forall (p q : plate), pparents p = [] -> ancestry [p] q -> q = p.
Proof.
  intros p q Hp H. apply ancestry_ups in H. destruct p as [c nm n w ps]. simpl in Hp. subst ps. simpl in H. intuition.
Qed.
Lemma lone_sound : forall p : plate, pparents p = [] -> pcls p = PlainPlate -> 1 <= pn p -> peq veq p p = true -> sound veq [p].
Proof.
  intros p Hp Hc Hn He. constructor.
  - split; [repeat constructor; intros []|]. split.
    + intros q [<-|[]]. rewrite Hp. constructor.
    + intros q r Hq Hr _. apply lone_ancestry in Hq; auto. apply lone_ancestry in Hr; auto. now subst.
  - intros q r Hq Hr _. apply lone_ancestry in Hq; auto. apply lone_ancestry in Hr; auto. now subst.
  - intros q Hq. apply lone_ancestry in Hq; auto. now subst.
  - intros q Hq. apply lone_ancestry in Hq; auto. now subst.
Qed.
Lemma lone_acyclic : forall p : plate, pparents p = [] -> ~ cyclic [p].
Proof.
  intros p Hp [c [Hne [Hi H]]]. destruct c as [|q c]; [congruence|]. destruct (H q (or_introl eq_refl)) as [r [Hr Hq]].
  destruct (Hi r Hr) as [<-|[]]. unfold parent_of in Hq. destruct (Hi q (or_introl eq_refl)) as [<-|[]]. now rewrite Hp in Hq.
Qed.

Variables (name : string) (obj k : nat) (lp : list V) (cast : V -> V) (x : ten V) (cost : list V).
Hypothesis Hn : 2 <= length lp.
Hypothesis Hx : exists ev, shape x = length lp :: ev.
Hypothesis Hlen : length cost = length lp.
Notation P := (rb_plate o o_exp name obj k lp).
Notation nodes := (rb_nodes (S := S) veq anc_unwrap o o_exp name obj k lp cast x cost).
Notation W := (rb_weighting o o_exp k lp).

Lemma W_length : length W = length lp.
Proof.
  unfold rb_weighting. destruct (length lp =? k) eqn:E; [|now rewrite map_length].
  rewrite app_length, map_length. simpl. destruct lp as [|y l] eqn:El; [simpl in Hn; lia|]. rewrite <- El.
  assert (H := f_equal (@length V) (app_removelast_last y (l := lp) ltac:(rewrite El; discriminate))).
  rewrite app_length in H. simpl in H. lia.
Qed.

Lemma P_wide : wide [P] = [P].
Proof. unfold wide. simpl. destruct (1 <? length lp) eqn:E; auto. apply Nat.ltb_ge in E. lia. Qed.
Lemma P_mdp : mdp [P] = [P].
Proof. exact P_wide. Qed.
Lemma P_sound : sound veq [P].
Proof.
  apply lone_sound; auto; [simpl; lia|]. unfold peq, plate_eq_base. cbn [pcls rb_plate pname pn pweight]. rewrite String.eqb_refl, !Nat.eqb_refl. reflexivity.
Qed.
Lemma P_ok : plates_ok veq [P].
Proof.
  constructor; [exact P_sound|apply lone_acyclic; reflexivity|]. intros p [<-|[]]. unfold weight_fits. simpl.
  split; [lia|]. split; [repeat constructor; intros []|]. split; [auto|]. split; [intros y [->|[]]; auto|]. split; [intros q []|].
  unfold wide_names, size_in. simpl. rewrite String.eqb_refl. simpl. replace (1 <? length lp) with true by (symmetry; apply Nat.ltb_lt; lia).
  simpl. rewrite String.eqb_refl. simpl. now rewrite W_length.
Qed.
Lemma closed_P : closed [P].
Proof. intros p q [<-|[]] []. Qed.
Lemma over_0 : over [P] (nd_t (nodes 0)).
Proof.
  destruct Hx as [ev Ex]. constructor; [|apply incl_refl|exact closed_P]. constructor; unfold rb_nodes; cbv zeta; cbn [nd_t splates st s_event_shape s_plate_dims].
  - repeat constructor. intros [].
  - intros p [<-|[]]. simpl. lia.
  - rewrite P_wide, P_mdp, Ex. reflexivity.
  - now rewrite P_wide, P_mdp.
Qed.
Lemma over_1 : over [P] (nd_t (nodes 1)).
Proof.
  constructor; [|apply incl_refl|exact closed_P]. constructor; unfold rb_nodes; cbv zeta; cbn [nd_t splates st s_event_shape s_plate_dims row_tensor shape].
  - repeat constructor. intros [].
  - intros p [<-|[]]. simpl. lia.
  - rewrite P_wide, P_mdp. simpl. now rewrite Hlen.
  - now rewrite P_wide, P_mdp.
Qed.
Lemma cost_event : s_event_shape (nd_t (nodes 1)) = [].
Proof. unfold rb_nodes; cbv zeta; cbn [nd_t s_event_shape]. rewrite P_mdp. reflexivity. Qed.

(** The gradient term: the log-probability of the last sample, zero for the others. *)
Definition rb_score (s : assignment) : V :=
  if length lp =? k then if s name =? k - 1 then cast (nth (k - 1) lp (o_zero o)) else o_zero o else o_zero o.

Lemma rb_estimates : estimates o [P] nodes 1 0 (fun sg tm sg' => tm = mkTerm (Some ([P], rb_score)) None).
Proof.
  unfold estimates. simpl nd_sto. cbv iota. intros np rc nm sg base Hr Hav Hrc _.
  assert (Efor : foreign (nd_t (nodes 1)) (splates (nd_t (nodes 0))) = []).
  { unfold rb_nodes, foreign; cbv zeta; cbn [nd_t splates]. rewrite P_wide. simpl. rewrite String.eqb_refl. reflexivity. }
  destruct (Hrc Efor) as [_ ->].
  assert (Ep : splates np = [P]).
  { destruct Hr as [_ Pm _ _]. change (splates (nd_t (nodes 0))) with [P] in Pm. apply Permutation_sym in Pm. exact (Permutation_length_1_inv (Permutation_sym Pm)). }
  cbn [me_estimator method_of]. unfold rb_estimator. cbn [sm_t].
  assert (HC : callable veq [nd_t (nodes 1)]).
  { apply (over_callable veq [P] P_sound); [constructor; [apply over_1|constructor]|]. intros t [<-|[]]. apply over_1. }
  destruct (op1_spec veq anc_unwrap (fun _ => o_zero o) (nd_t (nodes 1)) base HC) as [z [Z1 [Z2 [Z3 [Z4 [_ [_ [_ Z5]]]]]]]].
  rewrite Z1. cbn [bind]. unfold get_plate. rewrite Ep. simpl find_plate. rewrite String.eqb_refl. cbn [bind].
  assert (Zp : splates z = [P]) by (rewrite Z2; reflexivity).
  assert (Ze : s_event_shape z = []) by (rewrite Z3; exact cost_event).
  assert (Zs : shape (st z) = [length lp]).
  { rewrite (wf_shape z Z4), Zp, Ze, P_wide. reflexivity. }
  assert (Zst : stands (PT z) [P] (fun _ => o_zero o)).
  { split; [exact Z4|]. split; [rewrite Zp; apply Permutation_refl|]. exists 0. split; [exact Ze|]. intros s Hs. apply Z5; [exact Hs|].
    rewrite cost_event. constructor. }
  change (pn P) with (length lp).
  destruct (length lp =? k) eqn:Ek.
  - apply Nat.eqb_eq in Ek. unfold get_plate_dim_index, multi_dim_plates. rewrite Ep, P_mdp. simpl find_dim. rewrite String.eqb_refl. cbn [bind].
    unfold index_at. simpl nth_error. cbv iota. replace (k - 1 <? length lp) with true by (symmetry; apply Nat.ltb_lt; lia).
    cbn [bind as_tensor]. unfold index_put. rewrite Zs. simpl nth_error. cbv iota.
    replace (k - 1 <? length lp) with true by (symmetry; apply Nat.ltb_lt; lia).
    unfold expand. simpl. eexists (Some (PT _)), None, sg, _. split; [reflexivity|]. split; [left; eauto|]. split; [|split; [|reflexivity]]; [|exact I].
    simpl. split; [|split; [apply incl_refl|split; [exact closed_P|repeat constructor; intros []]]].
    assert (Wz : wf (with_elements z (mkten [length lp] (fun i => if nth 0 i 0 =? k - 1 then cast (nth (k - 1) lp (o_zero o)) else el (st z) i)))).
    { destruct Z4 as [A1 A2 A3 A4]. constructor; simpl; auto. rewrite Zp, Ze, P_wide. reflexivity. }
    split; [exact Wz|]. split; [simpl; rewrite Zp; apply Permutation_refl|]. exists 0. split; [exact Ze|].
    intros s Hs. unfold den. simpl. rewrite Zp, P_wide. simpl. unfold rb_score. rewrite Ek, Nat.eqb_refl. destruct (s name =? k - 1); [reflexivity|].
    destruct Zst as [_ [_ [j [Ej D]]]]. rewrite Ze in Ej. destruct j; [|discriminate]. specialize (D s Hs). unfold den in D. rewrite Zp, P_wide in D. exact D.
  - cbn [bind unpack2 pair_of as_term]. eexists (Some (PT z)), None, sg, _. split; [reflexivity|]. split; [left; eauto|].
    split; [|split; [|reflexivity]]; [|exact I]. simpl. split; [|split; [apply incl_refl|split; [exact closed_P|repeat constructor; intros []]]].
    apply (stands_ext _ _ _ _ Zst). intros s Hs. unfold rb_score. now rewrite Ek.
Qed.

Lemma rb_order : surrogate_order 20 rb_heap 1 = Some [0; 1].
Proof. vm_compute. reflexivity. Qed.

Lemma rb_loss : forall sg base, exists t, backward_value veq anc_unwrap o o_exp 20 rb_heap nodes [1] sg base = Ok t /\ shape t = [] /\
  el t [] = osum o (map (fun i => o_mul o (nth i W (o_zero o)) (o_mul o
    (box o o_exp (if (length lp =? k) && (i =? k - 1) then cast (nth (k - 1) lp (o_zero o)) else o_zero o)) (nth i cost (o_zero o)))) (seq 0 (length lp))).
Proof.
  intros sg base.
  set (kk := mkCosting 1 [P] [0; 1] (fun i => i =? 0) (fun _ (_ : S) tm (_ : S) => tm = mkTerm (Some ([P], rb_score)) None)).
  assert (HK : costing_ok veq o nodes 20 rb_heap kk).
  { split; [exact rb_order|]. simpl. constructor.
    - exact P_ok.
    - exact over_1.
    - exact cost_event.
    - apply closed_no_gaps. change (splates (nd_t (nodes 1))) with [P]. rewrite P_wide. exact closed_P.
    - intros p [<-|[<-|[]]]; simpl.
      + change true with (negb false). eapply Sc_path; reflexivity.
      + now apply Sc_det.
    - intros p [<-|[<-|[]]] E; [exact over_0|discriminate].
    - intros p [<-|[<-|[]]] E; [exact rb_estimates|discriminate]. }
  destruct (surrogate_spec veq anc_unwrap o Hring o_exp 20 rb_heap nodes base [kk] sg) as [r [sg' [tss [E1 [E2 [E3 [E4 E5]]]]]]]; [discriminate|constructor; [exact HK|constructor]|].
  change (map cg_id [kk]) with [1] in E1. unfold backward_value. rewrite E1. cbn [bind as_tensor]. exists (st r). split; [reflexivity|]. split; [exact E4|].
  rewrite E5. inversion E2 as [|k0 ks sg0 ts sg1 tss0 sg2 T1 T2]; subst. inversion T2; subst. change (filter (cg_scored kk) (cg_order kk)) with [0] in T1.
  inversion T1 as [|p ps sgx tm sgy ts' sgz Q1 Q2]; subst. inversion Q2; subst. simpl in Q1. subst tm.
  simpl combine. cbn [map osum]. simpl fst. simpl snd. cbn [cg_plates cg_id kk]. unfold cost_loss. simpl controls.
  unfold total. change (gplates [mkTerm (Some ([P], rb_score)) None]) with [P]. change (splates (nd_t (nodes 1))) with [P].
  assert (Ea : among [P] ([P] ++ [P]) = [P]) by (unfold among; simpl; rewrite String.eqb_refl; reflexivity).
  rewrite Ea. unfold weighted_sum. simpl sum_over.
  match goal with |- context [osum o (map ?f (seq 0 (length lp)))] => match goal with |- _ = osum o (map ?g (seq 0 (length lp))) =>
    assert (H : map f (seq 0 (length lp)) = map g (seq 0 (length lp))) end end.
  { apply map_ext_in. intros i Hi. apply in_seq in Hi. unfold weight_at. simpl.
    unfold wide_names, size_in. simpl. rewrite String.eqb_refl. simpl. replace (1 <? length lp) with true by (symmetry; apply Nat.ltb_lt; lia).
    simpl. unfold set_to. rewrite String.eqb_refl.
    unfold den. simpl. replace (1 <? length lp) with true by (symmetry; apply Nat.ltb_lt; lia). simpl. rewrite String.eqb_refl.
    unfold gsum. simpl. unfold rb_score. rewrite String.eqb_refl.
    assert (X : forall v, o_add o v (o_zero o) = v) by (intros; ring). rewrite X.
    destruct (length lp =? k); simpl; [destruct (i =? k - 1)|]; ring. }
  rewrite H. rewrite osum_cons. cbn [osum fold_right]. ring.
Qed.
End RB.

Section Unbiased.
Context {V S : Type}.
Variable veq : V -> V -> bool.
Variable anc_unwrap : plate V -> stensor V -> res (stensor V).
Variable o : sops V.
Hypothesis Hring : is_ring o.
Variable o_exp : V -> V.
Hypothesis Hev : evaluates o o_exp.
Hypothesis Hadd : forall x y, o_exp (o_add o x y) = o_mul o (o_exp x) (o_exp y).
Let Hring' : ring_theory (o_zero o) (o_one o) (o_add o) (o_mul o) (o_sub o) (o_opp o) (@eq V) := Hring.
Add Ring o_ring' : Hring'.

Lemma osum_nth2 : forall {A} (h : A -> V) (F : nat -> V) (l : list A),
  (forall i, i < length l -> exists x, nth_error l i = Some x /\ F i = h x) -> osum o (map F (seq 0 (length l))) = osum o (map h l).
Proof.
  intros A h F l. revert F. induction l as [|y l IH]; intros F H; [reflexivity|]. simpl length. cbn [seq map]. rewrite !osum_cons. f_equal.
  - destruct (H 0) as [z [E1 E2]]; [simpl; lia|]. simpl in E1. congruence.
  - rewrite <- (seq_shift (length l) 0), map_map. apply IH. intros i Hi. apply (H (Datatypes.S i)). simpl. lia.
Qed.

Lemma box_zero : box o o_exp (o_zero o) = o_one o.
Proof. unfold box. rewrite (ev_zero _ _ Hev). replace (o_sub o (o_zero o) (o_zero o)) with (o_zero o) by ring. apply (ev_exp0 _ _ Hev). Qed.

Lemma nth_map_some : forall {A B} (f : A -> B) l i x d, nth_error l i = Some x -> nth i (map f l) d = f x.
Proof. intros A B f l. induction l as [|y l IH]; intros [|i] x d H; simpl in *; try discriminate; [congruence|now apply IH]. Qed.

Variables (name : string) (obj : nat).

(** All options enumerated: no sampling. *)
Lemma rb_loss_few : forall k (opts : list nat) (lp cost : nat -> V) cast x (sg : S) base,
  2 <= length opts -> length opts <> k -> (exists ev, shape x = length opts :: ev) ->
  exists t, backward_value veq anc_unwrap o o_exp 20 rb_heap
      (rb_nodes (S := S) veq anc_unwrap o o_exp name obj k (map lp opts) cast x (map cost opts)) [1] sg base = Ok t /\ shape t = [] /\
    el t [] = osum o (map (fun v => o_mul o (o_exp (lp v)) (cost v)) opts).
Proof.
  intros k opts lp cost cast x sg base H2 Hk [ev Hx].
  destruct (rb_loss (S := S) veq anc_unwrap o Hring o_exp name obj k (map lp opts) cast x (map cost opts)) with (sg := sg) (base := base) as [t [E1 [E2 E3]]];
    rewrite ?map_length; auto; [eauto|].
  exists t. split; [exact E1|]. split; [exact E2|]. rewrite E3, map_length.
  apply osum_nth2. intros i Hi. destruct (nth_error opts i) as [v|] eqn:Ev; [|apply nth_error_None in Ev; lia]. exists v. split; [reflexivity|].
  unfold rb_weighting. rewrite map_length. replace (length opts =? k) with false by (symmetry; now apply Nat.eqb_neq). simpl.
  rewrite map_map, (nth_map_some _ _ _ _ _ Ev), (nth_map_some _ _ _ _ _ Ev), box_zero. ring.
Qed.

(** One option sampled. *)
Lemma rb_loss_one : forall (sel : list nat) v (lp cost : nat -> V) cast x (sg : S) base, sel <> [] ->
  (exists ev, shape x = length sel + 1 :: ev) ->
  exists t, backward_value veq anc_unwrap o o_exp 20 rb_heap
      (rb_nodes (S := S) veq anc_unwrap o o_exp name obj (length sel + 1) (map lp (sel ++ [v])) cast x (map cost (sel ++ [v]))) [1] sg base = Ok t /\
    shape t = [] /\
    el t [] = o_add o (osum o (map (fun v => o_mul o (o_exp (lp v)) (cost v)) sel))
      (o_mul o (o_sub o (o_one o) (osum o (map (fun v => o_det o (o_exp (lp v))) sel))) (o_mul o (box o o_exp (cast (lp v))) (cost v))).
Proof.
  intros sel v lp cost cast x sg base H2 [ev Hx].
  assert (HL : 1 <= length sel) by (destruct sel; [congruence|simpl; lia]).
  destruct (rb_loss (S := S) veq anc_unwrap o Hring o_exp name obj (length sel + 1) (map lp (sel ++ [v])) cast x (map cost (sel ++ [v]))) with (sg := sg) (base := base) as [t [E1 [E2 E3]]];
    rewrite ?map_length, ?app_length; auto; [simpl; lia|eauto|].
  exists t. split; [exact E1|]. split; [exact E2|]. rewrite E3, map_length, app_length. simpl length. clear E1 E2 E3.
  rewrite seq_app, map_app, osum_app by exact Hring. f_equal.
  - apply osum_nth2. intros i Hi. destruct (nth_error sel i) as [u|] eqn:Ev; [|apply nth_error_None in Ev; lia]. exists u. split; [reflexivity|].
    unfold rb_weighting. rewrite !map_length, app_length. simpl length. rewrite Nat.eqb_refl.
    replace (i =? length sel + 1 - 1) with false by (symmetry; apply Nat.eqb_neq; lia). simpl andb. cbv iota.
    rewrite map_app. simpl map. rewrite removelast_last, map_map.
    rewrite app_nth1 by (rewrite map_length; lia). rewrite (nth_map_some _ _ _ _ _ Ev).
    rewrite map_app. rewrite app_nth1 by (rewrite map_length; lia). rewrite (nth_map_some _ _ _ _ _ Ev), box_zero. ring.
  - simpl seq. cbn [map]. rewrite osum_cons. cbn [osum fold_right].
    unfold rb_weighting. rewrite !map_length, app_length. simpl length. rewrite Nat.eqb_refl. simpl Nat.add.
    replace (length sel =? length sel + 1 - 1) with true by (symmetry; apply Nat.eqb_eq; lia). simpl andb. cbv iota.
    rewrite !map_app. simpl map. rewrite removelast_last, map_map.
    rewrite app_nth2 by (rewrite map_length; lia). rewrite map_length, Nat.sub_diag. simpl nth.
    replace (length sel + 1 - 1) with (length sel) by lia.
    rewrite app_nth2 by (rewrite map_length; lia). rewrite map_length, Nat.sub_diag. simpl nth.
    rewrite app_nth2 by (rewrite map_length; lia). rewrite map_length, Nat.sub_diag. simpl nth.
    rewrite (det_osum o o_exp Hev), map_map. ring.
Qed.

Lemma split_options : forall d sel (f : nat -> V), NoDup sel -> (forall v, In v sel -> v < d) ->
  osum o (map f (seq 0 d)) = o_add o (osum o (map f sel)) (osum o (map f (rest d sel))).
Proof.
  intros d sel f Hnd Hlt. rewrite <- osum_app, <- map_app by exact Hring. apply (osum_perm o Hring). apply Permutation_map.
  apply NoDup_Permutation; [apply seq_NoDup| |].
  - apply NoDup_app_intro; auto.
    + apply NoDup_filter, seq_NoDup.
    + intros v Hv C. apply filter_In in C. destruct C as [_ C]. apply negb_true_iff in C.
      assert (X : existsb (Nat.eqb v) sel = true) by (apply existsb_exists; exists v; split; auto; apply Nat.eqb_refl). congruence.
  - intros v. rewrite in_app_iff. unfold rest. rewrite filter_In, in_seq. split.
    + intros Hv. destruct (existsb (Nat.eqb v) sel) eqn:E.
      * apply existsb_exists in E. destruct E as [u [Hu E]]. apply Nat.eqb_eq in E. subst u. now left.
      * right. split; [lia|]. reflexivity.
    + intros [H|[H _]]; [apply Hlt in H; lia|lia].
Qed.

Lemma box_split : forall y, o_mul o (o_det o (o_exp y)) (box o o_exp y) = o_exp y.
Proof.
  intros y. unfold box. rewrite (ev_exp _ _ Hev), <- Hadd. f_equal. ring.
Qed.

Theorem rb_unbiased : forall d (lp cost : nat -> V) (sel : list nat) (law : nat -> V) cast (x : nat -> ten V) (sg : S) base, (forall v, cast v = v) ->
  sel <> [] -> NoDup sel -> (forall v, In v sel -> v < d) -> (forall v, exists ev, shape (x v) = length sel + 1 :: ev) ->
  osum o (map law (rest d sel)) = o_one o ->
  (forall v, In v (rest d sel) -> o_mul o (law v) (o_sub o (o_one o) (osum o (map (fun v => o_det o (o_exp (lp v))) sel))) = o_det o (o_exp (lp v))) ->
  exists loss : nat -> V, (forall v, exists t, backward_value veq anc_unwrap o o_exp 20 rb_heap
      (rb_nodes (S := S) veq anc_unwrap o o_exp name obj (length sel + 1) (map lp (sel ++ [v])) cast (x v) (map cost (sel ++ [v]))) [1] sg base = Ok t /\
      shape t = [] /\ el t [] = loss v) /\
    osum o (map (fun v => o_mul o (law v) (loss v)) (rest d sel)) = osum o (map (fun v => o_mul o (o_exp (lp v)) (cost v)) (seq 0 d)).
Proof.
  intros d lp cost sel law cast x sg base Hc Hne Hnd Hlt Hx H1 Hlaw.
  exists (fun v => o_add o (osum o (map (fun v => o_mul o (o_exp (lp v)) (cost v)) sel))
      (o_mul o (o_sub o (o_one o) (osum o (map (fun v => o_det o (o_exp (lp v))) sel))) (o_mul o (box o o_exp (lp v)) (cost v)))).
  split; [intros v; destruct (rb_loss_one sel v lp cost cast (x v) sg base Hne (Hx v)) as [t [E1 [E2 E3]]]; rewrite Hc in E3; eauto|].
  set (Q := osum o (map (fun v => o_det o (o_exp (lp v))) sel)) in *. set (A := osum o (map (fun v => o_mul o (o_exp (lp v)) (cost v)) sel)).
  transitivity (osum o (map (fun v => o_add o (o_mul o (law v) A) (o_mul o (o_exp (lp v)) (cost v))) (rest d sel))).
  { apply (osum_ext o). intros v Hv. rewrite <- (box_split (lp v)), <- (Hlaw v Hv). ring. }
  rewrite (osum_add o Hring), <- (osum_mul_r o Hring), H1, (split_options d sel) by auto. fold A. ring.
Qed.
End Unbiased.

Section Integer.
Context {V S : Type}.
Variable veq : V -> V -> bool.
Variable anc_unwrap : plate V -> stensor V -> res (stensor V).
Variable o : sops V.
Hypothesis Hring : is_ring o.
Variable o_exp : V -> V.
Hypothesis Hev : evaluates o o_exp.
Let Hring' : ring_theory (o_zero o) (o_one o) (o_add o) (o_mul o) (o_sub o) (o_opp o) (@eq V) := Hring.
Add Ring o_ring'' : Hring'.

(** Integer samples: the sampled option gets no score. *)
Lemma rb_integer : forall name obj (sel : list nat) v (lp cost : nat -> V) cast x (sg : S) base, (forall y, o_det o (cast y) = cast y) -> sel <> [] ->
  (exists ev, shape x = length sel + 1 :: ev) ->
  exists t, backward_value veq anc_unwrap o o_exp 20 rb_heap
      (rb_nodes (S := S) veq anc_unwrap o o_exp name obj (length sel + 1) (map lp (sel ++ [v])) cast x (map cost (sel ++ [v]))) [1] sg base = Ok t /\
    shape t = [] /\
    el t [] = o_add o (osum o (map (fun v => o_mul o (o_exp (lp v)) (cost v)) sel))
      (o_mul o (o_sub o (o_one o) (osum o (map (fun v => o_det o (o_exp (lp v))) sel))) (cost v)).
Proof.
  intros name obj sel v lp cost cast x sg base Hc Hne Hx.
  destruct (rb_loss_one veq anc_unwrap o Hring o_exp Hev name obj sel v lp cost cast x sg base Hne Hx) as [t [E1 [E2 E3]]].
  exists t. split; [exact E1|]. split; [exact E2|]. rewrite E3. f_equal. f_equal. unfold box. rewrite Hc.
  replace (o_sub o (cast (lp v)) (cast (lp v))) with (o_zero o) by ring. rewrite (ev_exp0 _ _ Hev). ring.
Qed.

(** A plate of one sample has no dimension. *)
Lemma rb_single : forall name log_probs cast (x : @sample V) (c : stensor V) nm (sg : S) base p, callable veq [c] ->
  get_plate (sm_t x) name = Ok p -> pn p = 1 -> wf (sm_t x) -> pname p = name ->
  rb_estimator veq anc_unwrap o name 1 log_probs cast x c nm sg base = Err IndexError.
Proof.
  intros name log_probs cast x c nm sg base p HC Hp H1 Wx Hn. unfold rb_estimator.
  destruct (op1_spec veq anc_unwrap (fun _ => o_zero o) c base HC) as [z [Z1 _]]. rewrite Z1. cbn [bind]. rewrite Hp. cbn [bind]. rewrite H1. simpl Nat.eqb. cbv iota.
  assert (E : get_plate_dim_index (sm_t x) name = Err IndexError); [|now rewrite E].
  assert (Hin : In p (splates (sm_t x))).
  { revert Hp. unfold get_plate. generalize (splates (sm_t x)). intros l. induction l as [|q l IH]; simpl; [discriminate|].
    destruct (String.eqb (pname q) name); [intros E; injection E as <-; auto|auto]. }
  unfold get_plate_dim_index, multi_dim_plates. destruct Wx as [Nd _ _ _]. revert Hin Nd. generalize 0. generalize (splates (sm_t x)). clear Hp Z1 HC z.
  intros l. induction l as [|q l IH]; intros i; [reflexivity|]. simpl. intros Hin Nd. inversion Nd as [|a b Na Nb]; subst. destruct Hin as [->|Hin].
  - unfold mdp. simpl. rewrite H1. simpl. clear IH Nd Nb. induction l as [|r l IH]; [reflexivity|]. simpl. destruct (1 <? pn r); simpl; [|apply IH; simpl in Na; intuition].
    destruct (String.eqb_spec (pname r) (pname p)) as [E|E]; [exfalso; apply Na; simpl; auto|].
    assert (Na' : ~ In (pname p) (map pname l)) by (simpl in Na; intuition). revert Na'. clear. generalize (Datatypes.S i). clear i.
    induction l as [|q l IH]; intros i Na; [reflexivity|]. simpl. simpl in Na. destruct (1 <? pn q); simpl; [|apply IH; intuition].
    destruct (String.eqb_spec (pname q) (pname p)) as [E|E]; [exfalso; apply Na; auto|]. apply IH. intuition.
  - unfold mdp. simpl. destruct (1 <? pn q); simpl; [|apply IH; auto].
    destruct (String.eqb_spec (pname q) (pname p)) as [E|E]; [exfalso; apply Na; rewrite E; now apply in_map|]. apply IH; auto.
Qed.
End Integer.
