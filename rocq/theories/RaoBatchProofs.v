(** RaoBlackwellSF with other plates. *)
From Coq Require Import String List Arith Bool ZArith Lia Permutation Ring.
From Verif Require Import Base Torch Plates Wrap OrderPlates Scalar Reduce Graph Surrogate Estimators RaoBlackwell ListLemmas IndexLemmas SpecTensor SpecWrap
  SpecOrder SpecReduce SpecGraph SpecSurrogate SpecRaoBlackwell WrapProofs AlignProofs CallProofs CallProofs2 OpProofs OrderProofs ReduceProofs ReduceProofs2
  VarianceProofs PlateEqProofs GraphProofs SurrogateProofs SurrogateProofs2 SurrogateProofs3 BroadcastProofs RaoBlackwellProofs.
Import ListNotations.
Open Scope nat_scope.

Section RBB.
Context {V S : Type}.
Variable veq : V -> V -> bool.
Variable anc_unwrap : plate V -> stensor V -> res (stensor V).
Variable o : sops V.
Hypothesis Hring : is_ring o.
Variable o_exp : V -> V.
Hypothesis Hev : evaluates o o_exp.
Notation plate := (plate V).
Notation stensor := (stensor V).
Notation N l := (map (@pname V) l).
Let Hring' : ring_theory (o_zero o) (o_one o) (o_add o) (o_mul o) (o_sub o) (o_opp o) (@eq V) := Hring.
Add Ring o_ring : Hring'.

Variables (name : string) (obj k L : nat) (ys : list plate) (lp x cost : ten V) (ev : list nat) (cast : V -> V).
Notation P := (rb_batch_plate o o_exp name obj k ys lp).
Notation FP := (ys ++ [P]).
Notation nodes := (rb_batch_nodes (S := S) veq anc_unwrap o o_exp name obj k ys FP lp cast x cost).
Hypothesis HL : 2 <= L.
Hypothesis Hys : forall y, In y ys -> 2 <= pn y.
Hypothesis Hlp : shape lp = map pn ys ++ [L].
Hypothesis Hx : shape x = map pn ys ++ L :: ev.
Hypothesis Hcost : shape cost = map pn ys ++ [L].
Hypothesis HFP : plates_ok veq FP.
Hypothesis Hcl : closed ys.

Lemma P_pn : pn P = L.
Proof. simpl. now rewrite Hlp, last_last. Qed.
Lemma FP_wide : wide FP = FP.
Proof.
  apply filter_all. intros p Hp. apply in_app_or in Hp. apply Nat.ltb_lt. destruct Hp as [Hp|[<-|[]]]; [specialize (Hys p Hp); lia|]. rewrite P_pn. lia.
Qed.
Lemma FP_mdp : mdp FP = FP. Proof. exact FP_wide. Qed.
Lemma FP_pn : map pn FP = map pn ys ++ [L].
Proof. rewrite map_app. cbn [map]. now rewrite P_pn. Qed.
Lemma FP_nodup : NoDup (N FP).
Proof. apply (so_orderable _ _ (po_sound _ _ HFP)). Qed.
Lemma name_fresh : ~ In name (N ys).
Proof.
  pose proof FP_nodup as H. rewrite map_app in H. intros C. apply NoDup_remove_2 in H. apply H. rewrite app_nil_r. exact C.
Qed.
Lemma ys_nodup : NoDup (N ys).
Proof.
  pose proof FP_nodup as H. rewrite map_app in H. clear -H. induction (N ys) as [|y l IH]; [constructor|]. simpl in H. inversion H as [|? ? H1 H2]; subst.
  constructor; [|now apply IH]. intros C. apply H1. apply in_or_app. now left.
Qed.
Lemma size_wide : forall y, In y (N FP) -> 1 < size_in FP y.
Proof.
  intros y Hy. unfold size_in. destruct (find _ FP) as [q|] eqn:E.
  - apply find_some in E. destruct E as [E _]. rewrite <- FP_wide in E. apply filter_In in E. destruct E as [_ E]. now apply Nat.ltb_lt.
  - exfalso. apply in_map_iff in Hy. destruct Hy as [q [E1 E2]]. assert (X := find_none _ _ E q E2). simpl in X. rewrite E1, String.eqb_refl in X. discriminate.
Qed.
Lemma wide_all : forall l, incl l (N FP) -> wide_names FP l = l.
Proof.
  unfold wide_names. induction l as [|y l IH]; intros H; simpl; auto. rewrite (proj2 (Nat.ltb_lt _ _) (size_wide y (H y (or_introl eq_refl)))).
  f_equal. apply IH. intros z Hz. apply H. now right.
Qed.
Lemma oprod_snoc : forall l v, oprod o (l ++ [v]) = o_mul o (oprod o l) v.
Proof. intros l v. induction l as [|y l IH]; simpl; [unfold oprod; simpl; ring|]. unfold oprod in *. simpl. rewrite IH. ring. Qed.
Lemma closed_FP : closed FP.
Proof.
  intros p q Hp Hq. rewrite map_app. apply in_or_app. left. apply in_app_or in Hp. destruct Hp as [Hp|[<-|[]]]; [now apply (Hcl p q)|].
  simpl in Hq. now apply in_map.
Qed.
Lemma FP_len : length (mdp FP) = length (map pn ys) + 1.
Proof. rewrite FP_mdp, app_length, map_length. reflexivity. Qed.
Lemma bover_0 : over FP (nd_t (nodes 0)).
Proof.
  constructor; [|apply incl_refl|exact closed_FP]. constructor; unfold rb_batch_nodes; cbv zeta; cbn [nd_t splates st s_event_shape s_plate_dims].
  - exact FP_nodup.
  - intros p Hp. apply in_app_or in Hp. destruct Hp as [Hp|[<-|[]]]; [specialize (Hys p Hp); lia|]. rewrite P_pn. lia.
  - rewrite FP_wide, FP_pn, Hx, FP_len. replace (map pn ys ++ L :: ev) with ((map pn ys ++ [L]) ++ ev) by (rewrite <- app_assoc; reflexivity).
    f_equal. rewrite skipn_app, skipn_all2 by (rewrite app_length; simpl; lia). rewrite app_length. simpl. rewrite Nat.sub_diag. reflexivity.
  - now rewrite FP_wide, FP_mdp.
Qed.
Lemma bcost_event : s_event_shape (nd_t (nodes 1)) = [].
Proof.
  unfold rb_batch_nodes; cbv zeta; cbn [nd_t s_event_shape]. rewrite Hcost, FP_len. apply skipn_all2. rewrite app_length. simpl. lia.
Qed.
Lemma bover_1 : over FP (nd_t (nodes 1)).
Proof.
  constructor; [|apply incl_refl|exact closed_FP]. constructor.
  - exact FP_nodup.
  - intros p Hp. apply in_app_or in Hp. destruct Hp as [Hp|[<-|[]]]; [specialize (Hys p Hp); lia|]. rewrite P_pn. lia.
  - rewrite bcost_event, app_nil_r. unfold rb_batch_nodes; cbv zeta; cbn [nd_t splates st]. now rewrite FP_wide, FP_pn.
  - unfold rb_batch_nodes; cbv zeta; cbn [nd_t splates s_plate_dims]. now rewrite FP_wide, FP_mdp.
Qed.

(** The gradient term: the log-probability of the last sample, zero for the others. *)
Definition rows_at (s : assignment) : list nat := map s (N ys).
Definition brb_score (s : assignment) : V :=
  if L =? k then if s name =? k - 1 then cast (el lp (rows_at s ++ [k - 1])) else o_zero o else o_zero o.

Lemma drop_app : forall {A} (l : list A) y r, drop_at (length l) (l ++ y :: r) = l ++ r.
Proof.
  intros A l y r. unfold drop_at. rewrite firstn_app, firstn_all, Nat.sub_diag. cbn [firstn]. rewrite app_nil_r. f_equal.
  rewrite skipn_app, skipn_all2 by lia. replace (Datatypes.S (length l) - length l) with 1 by lia. reflexivity.
Qed.
Lemma find_dim_at : forall (l : list plate) p r i, ~ In (pname p) (N l) -> find_dim (pname p) (l ++ p :: r) i = Ok (i + length l).
Proof.
  induction l as [|q l IH]; intros p r i H; simpl.
  - rewrite String.eqb_refl. f_equal. lia.
  - destruct (String.eqb_spec (pname q) (pname p)) as [E|E]; [exfalso; apply H; left; exact E|]. rewrite IH; [f_equal; lia|]. intros C. apply H. now right.
Qed.
Lemma find_dim_names : forall (l m : list plate) nm i, N l = N m -> find_dim nm l i = find_dim nm m i.
Proof.
  induction l as [|p l IH]; intros [|q m] nm i H; try discriminate; auto. simpl in H. injection H as H1 H2. simpl. rewrite H1. destruct (String.eqb (pname q) nm); auto.
Qed.

Lemma brb_estimates : estimates o FP nodes 1 0 (fun sg tm sg' => tm = mkTerm (Some (FP, brb_score)) None).
Proof.
  unfold estimates. simpl nd_sto. cbv iota. intros np rc nm sg base Hr Hav Hrc Hord.
  assert (Efor : foreign (nd_t (nodes 1)) (splates (nd_t (nodes 0))) = []).
  { change (splates (nd_t (nodes 0))) with FP. unfold foreign. change (splates (nd_t (nodes 1))) with FP. rewrite FP_wide.
    destruct (filter _ FP) as [|q l] eqn:E; [reflexivity|]. exfalso. assert (Hq : In q (q :: l)) by now left. rewrite <- E in Hq. apply filter_In in Hq. destruct Hq as [Q1 Q2].
    apply negb_true_iff in Q2. assert (has FP (pname q) = true) by (apply has_names; now apply in_map). congruence. }
  destruct (Hrc Efor) as [_ ->]. destruct Hr as [Wn Pm Ee Ed]. change (splates (nd_t (nodes 0))) with FP in Pm.
  assert (Wnp : wide (splates np) = splates np).
  { apply filter_all. intros p Hp. apply (Permutation_in _ (Permutation_sym Pm)) in Hp. apply Nat.ltb_lt. apply in_app_or in Hp.
    destruct Hp as [Hp|[<-|[]]]; [specialize (Hys p Hp); lia|]. rewrite P_pn. lia. }
  assert (En : N (splates np) = N FP).
  { destruct Hord as [r Hr]. change (splates (nd_t (nodes 1))) with FP in Hr. rewrite Wnp, FP_wide in Hr. destruct r as [|z r]; [now rewrite app_nil_r in Hr|]. exfalso.
    apply (f_equal (@length string)) in Hr. rewrite app_length, !map_length in Hr. pose proof (Permutation_length Pm). rewrite <- H in Hr. simpl in Hr. lia. }
  assert (Hget : find_plate name (splates np) = Ok P).
  { destruct (find_plate_spec name (splates np)) as [q [Q1 [Q2 Q3]]]; [rewrite En, map_app; apply in_or_app; right; now left|]. rewrite Q1. f_equal.
    apply (Permutation_in _ (Permutation_sym Pm)) in Q2. apply in_app_or in Q2. destruct Q2 as [Q2|[<-|[]]]; [|reflexivity]. exfalso. apply name_fresh. rewrite <- Q3. now apply in_map. }
  assert (Hdim : find_dim name (mdp (splates np)) 0 = Ok (length ys)).
  { unfold mdp. change (filter (fun p => 1 <? pn p) (splates np)) with (wide (splates np)). rewrite Wnp. rewrite (find_dim_names _ FP) by exact En.
    change name with (pname P). rewrite find_dim_at by exact name_fresh. reflexivity. }
  cbn [me_estimator method_of]. unfold rb_estimator. cbn [sm_t].
  assert (HC : callable veq [nd_t (nodes 1)]).
  { apply (over_callable veq FP (po_sound _ _ HFP)); [constructor; [apply bover_1|constructor]|]. intros t [<-|[]]. apply bover_1. }
  destruct (op1_spec veq anc_unwrap (fun _ => o_zero o) (nd_t (nodes 1)) base HC) as [z [Z1 [Z2 [Z3 [Z4 [_ [_ [_ Z5]]]]]]]].
  rewrite Z1. cbn [bind]. unfold get_plate. rewrite Hget. cbn [bind].
  assert (Zp : splates z = FP) by (rewrite Z2; exact FP_wide || reflexivity).
  assert (Ze : s_event_shape z = []) by (rewrite Z3; exact bcost_event).
  assert (Zs : shape (st z) = map pn ys ++ [L]).
  { rewrite (wf_shape z Z4), Zp, Ze, FP_wide, app_nil_r. exact FP_pn. }
  assert (Zst : stands (PT z) FP (fun _ => o_zero o)).
  { split; [exact Z4|]. split; [rewrite Zp; apply Permutation_refl|]. exists 0. split; [exact Ze|]. intros s Hs. apply Z5; [exact Hs|].
    rewrite bcost_event. constructor. }
  rewrite P_pn.
  assert (Cd : incl FP FP /\ closed FP /\ NoDup (N FP)) by (split; [apply incl_refl|split; [exact closed_FP|exact FP_nodup]]).
  destruct (L =? k) eqn:Ek.
  - apply Nat.eqb_eq in Ek. unfold get_plate_dim_index, multi_dim_plates. rewrite Hdim. cbn [bind].
    assert (El : length ys = length (map pn ys)) by now rewrite map_length.
    unfold index_at. rewrite Hlp, El. rewrite nth_error_app2 by lia. rewrite Nat.sub_diag. cbn [nth_error].
    replace (k - 1 <? L) with true by (symmetry; apply Nat.ltb_lt; lia). rewrite drop_app, app_nil_r.
    cbn [bind as_tensor]. unfold index_put. rewrite Zs. rewrite nth_error_app2 by lia. rewrite Nat.sub_diag. cbn [nth_error].
    replace (k - 1 <? L) with true by (symmetry; apply Nat.ltb_lt; lia). rewrite drop_app, app_nil_r.
    unfold expand. cbn [shape tmap]. rewrite expandable_rev_refl. cbn [bind]. cbn [unpack2 pair_of as_term bind].
    eexists (Some (PT _)), None, sg, _. split; [reflexivity|]. split; [left; eauto|]. split; [|split; [|reflexivity]]; [|exact I].
    cbn [delivered t_g]. split; [|exact Cd].
    match goal with |- stands (PT ?w) _ _ => assert (Wz : wf w) end.
    { destruct Z4 as [A1 A2 A3 A4]. constructor; simpl; auto. rewrite Zp, Ze, FP_wide, app_nil_r. symmetry. exact FP_pn. }
    split; [exact Wz|]. split; [cbn [with_elements splates]; rewrite Zp; apply Permutation_refl|]. exists 0. split; [exact Ze|].
    intros s Hs. unfold den. cbn [with_elements splates st el]. rewrite Zp, FP_wide. cbn [repeat]. rewrite app_nil_r.
    assert (Ei : map (fun p => s (pname p)) FP = rows_at s ++ [s name]) by (unfold rows_at; rewrite map_app, map_map; reflexivity).
    rewrite Ei. assert (Er : length (map pn ys) = length (rows_at s)) by (unfold rows_at; now rewrite !map_length). rewrite Er.
    rewrite app_nth2 by lia. rewrite Nat.sub_diag. cbn [nth]. rewrite drop_app, app_nil_r.
    unfold brb_score. rewrite Ek, Nat.eqb_refl. destruct (s name =? k - 1) eqn:Es.
    + unfold tmap. cbn [el]. rewrite bidx_valid; [rewrite firstn_all, skipn_all; reflexivity|].
      unfold rows_at. rewrite map_map. apply in_range_valid. intros p Hp. apply Hs. apply in_or_app. now left.
    + destruct Zst as [_ [_ [j [Ej D]]]]. rewrite Ze in Ej. destruct j; [|discriminate]. specialize (D s Hs). unfold den in D. rewrite Zp, FP_wide in D.
      cbn [repeat] in D. rewrite app_nil_r, Ei in D. exact D.
  - cbn [bind unpack2 pair_of as_term]. eexists (Some (PT z)), None, sg, _. split; [reflexivity|]. split; [left; eauto|].
    split; [|split; [|reflexivity]]; [|exact I]. cbn [delivered t_g]. split; [|exact Cd].
    apply (stands_ext _ _ _ _ Zst). intros s Hs. unfold brb_score. now rewrite Ek.
Qed.

(** The loss of one row. *)
Definition row_lp (r : list nat) : list V := map (fun j => el lp (r ++ [j])) (seq 0 L).
Definition row_loss (r : list nat) : V :=
  osum o (map (fun i => o_mul o (nth i (rb_weighting o o_exp k (row_lp r)) (o_zero o)) (o_mul o
    (box o o_exp (if (L =? k) && (i =? k - 1) then cast (el lp (r ++ [k - 1])) else o_zero o)) (el cost (r ++ [i])))) (seq 0 L)).

Lemma brb_loss : forall sg base, exists t, backward_value veq anc_unwrap o o_exp 20 rb_heap nodes [1] sg base = Ok t /\ shape t = [] /\
  el t [] = weighted_sum o false ys ys (fun s => row_loss (map s (N ys))) (fun _ => 0).
Proof.
  intros sg base.
  set (kk := mkCosting 1 FP [0; 1] (fun i => i =? 0) (fun _ (_ : S) tm (_ : S) => tm = mkTerm (Some (FP, brb_score)) None)).
  assert (HK : costing_ok veq o nodes 20 rb_heap kk).
  { split; [exact rb_order|]. simpl. constructor.
    - exact HFP.
    - exact bover_1.
    - exact bcost_event.
    - apply closed_no_gaps. change (splates (nd_t (nodes 1))) with FP. rewrite FP_wide. exact closed_FP.
    - intros p [<-|[<-|[]]]; simpl.
      + change true with (negb false). eapply Sc_path; reflexivity.
      + now apply Sc_det.
    - intros p [<-|[<-|[]]] E; [exact bover_0|discriminate].
    - intros p [<-|[<-|[]]] E; [exact brb_estimates|discriminate]. }
  destruct (surrogate_spec veq anc_unwrap o Hring o_exp 20 rb_heap nodes base [kk] sg) as [r [sg' [tss [E1 [E2 [E3 [E4 E5]]]]]]]; [discriminate|constructor; [exact HK|constructor]|].
  change (map cg_id [kk]) with [1] in E1. unfold backward_value. rewrite E1. cbn [bind as_tensor]. exists (st r). split; [reflexivity|]. split; [exact E4|].
  rewrite E5. inversion E2 as [|k0 ks sg0 ts sg1 tss0 sg2 T1 T2]; subst. inversion T2; subst. change (filter (cg_scored kk) (cg_order kk)) with [0] in T1.
  inversion T1 as [|p ps sgx tm sgy ts' sgz Q1 Q2]; subst. inversion Q2; subst. change (tm = mkTerm (Some (FP, brb_score)) None) in Q1. subst tm.
  simpl combine. cbn [map osum]. simpl fst. simpl snd. cbn [cg_plates cg_id kk]. unfold cost_loss. simpl controls.
  unfold total. change (gplates [mkTerm (Some (FP, brb_score)) None]) with (FP ++ []). rewrite app_nil_r. change (splates (nd_t (nodes 1))) with FP.
  assert (Ea : among FP (FP ++ FP) = FP).
  { unfold among. apply filter_all. intros p Hp. apply has_names. apply in_map. apply in_or_app. now left. }
  rewrite Ea. unfold weighted_sum. rewrite sum_over_last.
  cbn [map osum fold_right].
  match goal with |- ?A = _ => transitivity (o_add o (o_add o (o_zero o) A) (o_zero o)); [ring|] end.
  match goal with |- context [sum_over o ys ?f (fun _ => 0)] => match goal with |- _ = sum_over o ys ?g (fun _ => 0) =>
    assert (H : sum_over o ys f (fun _ => 0) = sum_over o ys g (fun _ => 0)) end end.
  { apply (sum_over_ext anc_unwrap); [exact ys_nodup|]. intros s _ Hs.
    unfold row_loss. rewrite (osum_mul_l o Hring). rewrite P_pn. apply (osum_ext o). intros i Hi. apply in_seq in Hi.
    assert (Er : map (set_to s name i) (N ys) = map s (N ys)).
    { apply map_ext_in. intros y Hy. unfold set_to. destruct (String.eqb_spec y name) as [->|]; auto. exfalso. now apply name_fresh. }
    assert (Ew : weight_at FP P (set_to s name i) = nth i (rb_weighting o o_exp k (row_lp (map s (N ys)))) (o_zero o)).
    { unfold weight_at. cbn [pweight rb_batch_plate]. rewrite wide_all by (rewrite map_app; apply incl_refl). rewrite map_app, Er. cbn [map].
      unfold set_to at 1. rewrite String.eqb_refl.
      unfold rb_weight_tensor. cbn [el]. rewrite last_last, removelast_last. rewrite Hlp, last_last. reflexivity. }
    assert (Ey : map (fun p => weight_at FP p (set_to s name i)) ys = map (fun p => weight_at ys p s) ys).
    { apply map_ext_in. intros y Hy. assert (Hf : weight_fits FP y) by (apply (po_weights _ _ HFP); apply in_or_app; now left).
      rewrite weight_at_other; [|exact Hf|intros E; apply name_fresh; rewrite E; now apply in_map|].
      - symmetry. apply (weight_at_sub veq); [exact (po_sound _ _ HFP)|intros q Hq; apply in_or_app; now left|exact Hy| |exact Hf].
        intros _ q Hq. now apply (Hcl y).
      - intros C. apply in_map_iff in C. destruct C as [q [D1 D2]]. apply name_fresh. rewrite <- D1. now apply (Hcl y). }
    change (pname P) with name. rewrite map_app. cbn [map]. rewrite oprod_snoc, Ew, Ey.
    unfold den. change (splates (nd_t (nodes 1))) with FP. rewrite FP_wide. change (st (nd_t (nodes 1))) with cost. rewrite app_nil_r.
    assert (Ei : map (fun p => set_to s name i (pname p)) FP = map s (N ys) ++ [i]).
    { rewrite map_app. f_equal; [rewrite <- Er, map_map; reflexivity|]. cbn [map]. unfold set_to. change (pname P) with name. now rewrite String.eqb_refl. }
    rewrite Ei. unfold gsum. cbn [map value_opt t_g osum fold_right]. unfold brb_score, rows_at. rewrite Er. unfold set_to. rewrite String.eqb_refl.
    match goal with |- context [o_add o ?v (o_zero o)] => replace (o_add o v (o_zero o)) with v by ring end.
    destruct (L =? k); simpl; [destruct (i =? k - 1)|]; ring. }
  rewrite H. ring.
Qed.
End RBB.
