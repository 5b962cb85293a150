(** The surrogate loss. *)
From Coq Require Import String List Arith Bool ZArith Lia Permutation Ring.
From Verif Require Import Base Torch Plates Wrap OrderPlates Scalar Reduce Graph Surrogate ListLemmas IndexLemmas SpecTensor SpecWrap
  SpecOrder SpecReduce SpecGraph SpecSurrogate WrapProofs AlignProofs CallProofs CallProofs2 OpProofs OrderProofs ReduceProofs ReduceProofs2
  VarianceProofs PlateEqProofs.
Import ListNotations.

Ltac fwf := repeat (apply Forall_cons; [assumption|]); apply Forall_nil.

Section Surrogate.
Context {V S : Type}.
Variable veq : V -> V -> bool.
Variable anc_unwrap : plate V -> stensor V -> res (stensor V).
Variable o : sops V.
Hypothesis Hring : is_ring o.
Variable o_exp : V -> V.
Variable o_divn : V -> nat -> V.
Notation plate := (plate V).
Notation stensor := (stensor V).
Notation N l := (map (@pname V) l).
Notation op1 := (torch_op1 veq anc_unwrap top_ctx).
Notation op2 := (torch_op2 veq anc_unwrap top_ctx).
Let Hring' : ring_theory (o_zero o) (o_one o) (o_add o) (o_mul o) (o_sub o) (o_opp o) (@eq V) := Hring.
Add Ring o_ring : Hring'.

(** Lists of plates as sets of names. *)
Lemma u_incl : forall (l m L : list plate), incl l L -> incl m L -> incl (union l m) L.
Proof. exact (union_incl anc_unwrap). Qed.
Lemma u_names : forall (l m : list plate) x, In x (N (union l m)) <-> In x (N l) \/ In x (N m).
Proof. exact (union_names anc_unwrap). Qed.
Lemma u_NoDup : forall l m : list plate, NoDup (N l) -> NoDup (N m) -> NoDup (N (union l m)).
Proof. exact union_NoDup. Qed.
Lemma same_names_perm : forall (FP l m : list plate), NoDup (N FP) -> incl l FP -> incl m FP -> NoDup (N l) -> NoDup (N m) ->
  (forall x, In x (N l) <-> In x (N m)) -> Permutation l m.
Proof.
  intros FP l m HF Hl Hm Nl Nm H. apply NoDup_Permutation.
  - eapply NoDup_map_inv; eauto.
  - eapply NoDup_map_inv; eauto.
  - assert (U : forall p q, In p FP -> In q FP -> pname p = pname q -> p = q) by (intros p q Hp Hq Epq; now apply (NoDup_map_inj (@pname V) FP)).
    intros p. split; intros Hp.
    + destruct (in_map_iff pname m (pname p)) as [I _]. destruct I as [q [E Hq]]; [apply H; now apply in_map|].
      now rewrite <- (U q p (Hm _ Hq) (Hl _ Hp) E).
    + destruct (in_map_iff pname l (pname p)) as [I _]. destruct I as [q [E Hq]]; [apply H; now apply in_map|].
      now rewrite <- (U q p (Hl _ Hq) (Hm _ Hp) E).
Qed.
Lemma union_perm : forall (FP l m l' m' : list plate), NoDup (N FP) -> incl l FP -> incl m FP -> NoDup (N l) -> NoDup (N m) ->
  Permutation l l' -> Permutation m m' -> Permutation (union l m) (union l' m').
Proof.
  intros FP l m l' m' HF Hl Hm Nl Nm Pl Pm.
  apply (same_names_perm FP); auto.
  - now apply u_incl.
  - apply u_incl; intros x Hx; [apply Hl|apply Hm]; eapply Permutation_in; try eassumption; now apply Permutation_sym.
  - now apply u_NoDup.
  - apply u_NoDup; [eapply Permutation_NoDup; [eapply Permutation_map, Pl|auto]|eapply Permutation_NoDup; [eapply Permutation_map, Pm|auto]].
  - intros x. rewrite !u_names. 
    assert (A : In x (N l) <-> In x (N l')) by (split; apply Permutation_in; [|apply Permutation_sym]; now apply Permutation_map).
    assert (B : In x (N m) <-> In x (N m')) by (split; apply Permutation_in; [|apply Permutation_sym]; now apply Permutation_map).
    tauto.
Qed.
Lemma in_range_perm : forall s (l m : list plate), Permutation l m -> in_range s l -> in_range s m.
Proof. intros s l m P H p Hp. apply H. eapply Permutation_in; [apply Permutation_sym|]; eauto. Qed.
Lemma in_range_union : forall s (l m FP : list plate), NoDup (N FP) -> incl l FP -> incl m FP -> in_range s (union l m) -> in_range s l /\ in_range s m.
Proof.
  intros s l m FP HF Hl Hm H. split; intros p Hp.
  - apply H. unfold union. apply in_or_app. auto.
  - assert (I : In (pname p) (N (union l m))) by (apply u_names; right; now apply in_map).
    apply in_map_iff in I. destruct I as [q [E Hq]]. 
    assert (q = p) as <-. { apply (NoDup_map_inj (@pname V) FP); auto. apply (u_incl l m FP Hl Hm _ Hq). }
    now apply H.
Qed.

Lemma ones_broadcast : forall a b, broadcasts (repeat 1 a ++ repeat 1 (Nat.max a b - a)) (repeat 1 b ++ repeat 1 (Nat.max a b - b)) (repeat 1 (Nat.max a b)).
Proof.
  intros a b. rewrite <- !repeat_app. replace (a + (Nat.max a b - a)) with (Nat.max a b) by lia.
  replace (b + (Nat.max a b - b)) with (Nat.max a b) by lia. apply broadcasts_refl.
Qed.
Lemma proj_zeros : forall a n, a <= n -> proj (repeat 1 a) (repeat 0 n) = repeat 0 a.
Proof. induction a as [|a IH]; intros n H; [destruct n; reflexivity|]. destruct n; [lia|]. simpl. f_equal. apply IH. lia. Qed.

Lemma raw_op2 : forall f x y base, op2 f (PRaw x) (PRaw y) base = bind (elementwise2 f x y) (fun r => Ok (PRaw r)).
Proof. reflexivity. Qed.

Lemma op2_raw_left : forall f (u : ten V) a base, callable veq [a] -> shape u = [] ->
  exists r, op2 f (PRaw u) (PT a) base = Ok (PT r) /\
    splates r = splates a /\ s_event_shape r = s_event_shape a /\ wf r /\
    forall s e, in_range s (splates a) -> valid e (s_event_shape a) -> den r s e = f (el u []) (den a s e).
Proof.
  intros f u a base HC HB.
  assert (Hw : wf a) by (destruct HC as [H _]; inversion H; auto).
  destruct (prepare_args_laid_out veq anc_unwrap [PRaw u; PT a] [] default_opts [a]) as [args' [kwargs' [E [F1 F2]]]]; auto.
  { repeat constructor. }
  rewrite all_plates_single in *. change (max_event [a]) with (Nat.max 0 (s_event_dims a)) in F1. simpl Nat.max in F1.
  inversion F1 as [|? x1 ? r1 U1 F1']; subst. inversion F1' as [|? x2 ? r2 U2 F1'']; subst. inversion F1''; subst. inversion F2; subst.
  inversion U1; subst. inversion U2 as [? u1 L1| | | | | | | |]; subst.
  destruct (laid_out_self _ _ _ Hw L1) as [Hs X].
  unfold torch_op2, handle_deterministic. cbn [top_ctx c_stochastic]. rewrite E. cbn [bind c_ignore torch_fn2].
  unfold elementwise2. rewrite <- Hs, HB, bshape_nil_l. cbn [bind]. rewrite filter_none. cbn [prepare_outputs default_opts o_flatten bind].
  match goal with |- context [mk_tensor ?i ?t ?q ?l ?b] =>
    destruct (mk_tensor_good i t q l b (s_event_shape a)) as [r [Hr [G1 [G2 [G3 [G4 [G5 [G6 G7]]]]]]]] end.
  { apply (wf_names a Hw). } { apply (wf_pos a Hw). } { simpl. apply (wf_shape a Hw). }
  rewrite Hr. cbn [bind]. exists r.
  refine (conj eq_refl (conj G3 (conj G6 (conj G7 _)))).
  intros s e Hsr He. unfold den at 1. rewrite G2, G3. simpl el.
  assert (Hv : valid (map (fun p => s (pname p)) (wide (splates a)) ++ e) (shape (st a))).
  { rewrite (wf_shape a Hw). apply valid_app; auto. exact (in_range_valid s _ (in_range_wide anc_unwrap s _ Hsr)). }
  rewrite bidx_scalar, bidx_valid by congruence. f_equal. unfold den. symmetry. apply X. exact Hv.
Qed.

Section Around.
Variable FP : list plate.
Hypothesis Hsound : sound veq FP.
Lemma HND : NoDup (N FP).
Proof. destruct (so_orderable _ _ Hsound) as [H _]. exact H. Qed.
#[local] Hint Resolve HND : core.

Lemma over_callable : forall ts : list stensor, Forall wf ts -> (forall t, In t ts -> incl (splates t) FP) -> callable veq ts.
Proof. intros ts H Hi. apply (sound_callable veq FP); auto. intros t p Ht Hp. left. now apply (Hi t). Qed.

Lemma stands_incl : forall a pl f, stands (PT a) pl f -> incl pl FP -> incl (splates a) FP.
Proof. intros a pl f [_ [P _]] Hi p Hp. apply Hi. eapply Permutation_in; eauto. Qed.

Lemma stands_op2 : forall h v w pl ql f g base, stands v pl f -> stands w ql g -> incl pl FP -> incl ql FP ->
  exists r, op2 h v w base = Ok r /\ stands r (union pl ql) (fun s => h (f s) (g s)) /\ ((exists a, v = PT a) \/ (exists a, w = PT a) -> exists a, r = PT a).
Proof.
  intros h v w pl ql f g base Hv Hw Ip Iq.
  destruct v as [|a|t| | | | | |]; try contradiction; destruct w as [|b|u| | | | | |]; try contradiction.
  - pose proof (stands_incl _ _ _ Hv Ip) as Ia. pose proof (stands_incl _ _ _ Hw Iq) as Ib.
    destruct Hv as [Wa [Pa [k [Ea Da]]]]. destruct Hw as [Wb [Pb [k' [Eb Db]]]].
    assert (HC : callable veq [a; b]).
    { apply over_callable; [fwf|]. intros t [<-|[<-|[]]]; auto. }
    destruct (op2_spec veq anc_unwrap h a b base (repeat 1 (Nat.max k k')) HC) as [r [R1 [R2 [R3 [R4 [R5 [R6 [R7 R8]]]]]]]].
    { unfold s_event_dims, pad. rewrite Ea, Eb, !repeat_length. apply ones_broadcast. }
    exists (PT r). split; [exact R1|]. split; [|eauto].
    split; [exact R4|]. split.
    { rewrite R2. apply (union_perm FP); auto; [apply wf_names; exact Wa|apply wf_names; exact Wb]. }
    exists (Nat.max k k'). split; [exact R3|]. intros s Hs.
    destruct (in_range_union s pl ql FP HND Ip Iq Hs) as [H1 H2].
    rewrite R8.
    + rewrite Ea, Eb, !proj_zeros by lia. now rewrite Da, Db.
    + rewrite R2. apply (in_range_perm s (union pl ql)); auto. apply Permutation_sym. apply (union_perm FP); auto; [apply wf_names; exact Wa|apply wf_names; exact Wb].
    + apply valid_zeros.
  - pose proof (stands_incl _ _ _ Hv Ip) as Ia.
    destruct Hv as [Wa [Pa [k [Ea Da]]]]. destruct Hw as [-> [Eu Du]].
    assert (HC : callable veq [a]).
    { apply over_callable; [fwf|]. intros t [<-|[]]; auto. }
    destruct u as [shu elu]. simpl in Eu, Du. subst shu.
    destruct (op2_raw veq anc_unwrap h (mkten [] elu) a base HC) as [r [R1 [R2 [R3 [R4 [R5 R8]]]]]].
    { simpl. apply bshape_nil_r. }
    exists (PT r). split; [exact R1|]. split; [|eauto]. split; [exact R4|].
    assert (Eun : union pl [] = pl) by (unfold union; simpl; apply app_nil_r). rewrite Eun. split; [now rewrite R2|].
    exists k. split; [now rewrite R3|]. intros s Hs. rewrite R8.
    + rewrite Da by auto. simpl shape. rewrite bidx_scalar. simpl el. now rewrite (Du s).
    + apply (in_range_perm s pl); auto. now apply Permutation_sym.
    + rewrite Ea. apply valid_zeros.
  - pose proof (stands_incl _ _ _ Hw Iq) as Ib.
    destruct Hw as [Wb [Pb [k [Eb Db]]]]. destruct Hv as [-> [Et Dt]].
    assert (HC : callable veq [b]).
    { apply over_callable; [fwf|]. intros t' [<-|[]]; auto. }
    destruct t as [sht elt]. simpl in Et, Dt. subst sht.
    destruct (op2_raw_left h (mkten [] elt) b base HC eq_refl) as [r [R1 [R2 [R3 [R4 R8]]]]].
    exists (PT r). split; [exact R1|]. split; [|eauto]. split; [exact R4|].
    rewrite union_nil_l. split; [now rewrite R2|].
    exists k. split; [now rewrite R3|]. intros s Hs. rewrite R8.
    + rewrite Db by auto. simpl el. now rewrite (Dt s).
    + apply (in_range_perm s ql); auto. now apply Permutation_sym.
    + rewrite Eb. apply valid_zeros.
  - destruct Hv as [-> [Et Dt]]. destruct Hw as [-> [Eu Du]]. destruct t as [sht elt], u as [shu elu]. simpl in Et, Dt, Eu, Du. subst sht shu.
    eexists. split; [rewrite raw_op2; unfold elementwise2; simpl; reflexivity|]. split.
    + split; [reflexivity|]. split; [reflexivity|]. intros s. unfold bidx. simpl. now rewrite (Dt s), (Du s).
    + intros [[a C]|[a C]]; discriminate.
Qed.

Lemma stands_op1 : forall h (v : pyval V) (pl : list plate) (f : assignment -> V) base, stands v pl f -> incl pl FP ->
  exists r, op1 h v base = Ok r /\ stands r pl (fun s => h (f s)) /\ ((exists a, v = PT a) -> exists a, r = PT a).
Proof.
  intros h v pl f base Hv Ip. destruct v as [|a|t| | | | | |]; try contradiction.
  - pose proof (stands_incl _ _ _ Hv Ip) as Ia. destruct Hv as [Wa [Pa [k [Ea Da]]]].
    assert (HC : callable veq [a]) by (apply over_callable; [fwf|]; intros t [<-|[]]; auto).
    destruct (op1_spec veq anc_unwrap h a base HC) as [r [R1 [R2 [R3 [R4 [R5 [R6 [R7 R8]]]]]]]].
    exists (PT r). split; [exact R1|]. split; [|eauto]. split; [exact R4|]. split; [now rewrite R2|].
    exists k. split; [now rewrite R3|]. intros s Hs. rewrite R8.
    + now rewrite Da.
    + apply (in_range_perm s pl); auto. now apply Permutation_sym.
    + rewrite Ea. apply valid_zeros.
  - destruct Hv as [-> [Et Dt]]. eexists. split; [reflexivity|]. split.
    + split; [reflexivity|]. split; [exact Et|]. intros s. simpl. now rewrite (Dt s).
    + intros [a C]; discriminate.
Qed.

Lemma stands_ext : forall (v : pyval V) (pl : list plate) (f g : assignment -> V), stands v pl f -> (forall s, in_range s pl -> f s = g s) -> stands v pl g.
Proof.
  intros v pl f g Hv H. destruct v as [|a|t| | | | | |]; try contradiction.
  - destruct Hv as [Wa [Pa [k [Ea Da]]]]. refine (conj Wa (conj Pa _)). exists k. split; [auto|]. intros s Hs. now rewrite Da, H.
  - destruct Hv as [-> [Et Dt]]. refine (conj eq_refl (conj Et _)). intros s. rewrite <- H; auto. intros p [].
Qed.
Lemma stands_perm : forall (v : pyval V) (pl pl' : list plate) (f : assignment -> V), stands v pl f -> Permutation pl pl' -> stands v pl' f.
Proof.
  intros v pl pl' f Hv H. destruct v as [|a|t| | | | | |]; try contradiction.
  - destruct Hv as [Wa [Pa [k [Ea Da]]]]. refine (conj Wa (conj _ _)); [eapply Permutation_trans; eauto|].
    exists k. split; [auto|]. intros s Hs. apply Da. apply (in_range_perm s pl'); auto. now apply Permutation_sym.
  - destruct Hv as [-> [Et Dt]]. refine (conj _ (conj Et Dt)). now apply Permutation_nil.
Qed.

Lemma union_self : forall l : list plate, union l l = l.
Proof. intros l. apply union_sub. intros q Hq. now apply in_map. Qed.

Lemma magic_box_spec : forall v pl f base, stands v pl f -> incl pl FP ->
  exists r, magic_box veq anc_unwrap o o_exp v base = Ok r /\ stands r pl (fun s => box o o_exp (f s)) /\ ((exists a, v = PT a) -> exists a, r = PT a).
Proof.
  intros v pl f base Hv Ip. unfold magic_box.
  destruct (stands_op1 (o_det o) v pl f base Hv Ip) as [d [D1 [D2 D3]]]. rewrite D1. cbn [bind].
  destruct (stands_op2 (o_sub o) v d pl pl f _ (base + 2) Hv D2 Ip Ip) as [x [X1 [X2 X3]]]. rewrite X1. cbn [bind].
  rewrite union_self in X2.
  destruct (stands_op1 o_exp x pl _ (base + 4) X2 Ip) as [r [R1 [R2 R3]]]. exists r. split; [exact R1|]. split; [exact R2|].
  intros H. apply R3, X3. now left.
Qed.

(** Closed sets of plates. *)
Lemma closed_perm : forall l m : list plate, Permutation l m -> closed l -> closed m.
Proof.
  intros l m P H p q Hp Hq. eapply Permutation_in; [apply Permutation_map, P|]. apply (H p q); auto.
  eapply Permutation_in; [apply Permutation_sym|]; eauto.
Qed.
Lemma closed_app : forall l m : list plate, closed l -> closed m -> closed (l ++ m).
Proof. intros l m Hl Hm p q Hp Hq. rewrite map_app. apply in_or_app. apply in_app_or in Hp. destruct Hp as [Hp|Hp]; [left; eapply Hl|right; eapply Hm]; eauto. Qed.
Lemma closed_no_gaps : forall l : list plate, closed l -> no_gaps l.
Proof. intros l H p Hp. left. intros q Hq. eapply H; eauto. Qed.
Lemma cyclic_sub : forall l m : list plate, incl l m -> cyclic l -> cyclic m.
Proof. intros l m H [c [Hc [Hi Hp]]]. exists c. split; auto. split; auto. intros x Hx; auto. Qed.

Lemma has_names : forall (l : list plate) x, has l x = true <-> In x (N l).
Proof.
  intros l x. unfold has. rewrite existsb_exists, in_map_iff. split.
  - intros [p [Hp E]]. apply String.eqb_eq in E. eauto.
  - intros [p [E Hp]]. exists p. split; auto. now apply String.eqb_eq.
Qed.
Lemma among_incl : forall l, incl (among FP l) FP.
Proof. intros l p Hp. apply filter_In in Hp. tauto. Qed.
Lemma among_NoDup : forall l, NoDup (N (among FP l)).
Proof. intros l. apply NoDup_map_filter, HND. Qed.
Lemma among_names : forall l x, incl l FP -> (In x (N (among FP l)) <-> In x (N l)).
Proof.
  intros l x Hi. split.
  - intros H. apply in_map_iff in H. destruct H as [p [<- Hp]]. apply filter_In in Hp. now apply has_names.
  - intros H. apply in_map_iff in H. destruct H as [p [<- Hp]]. apply in_map. apply filter_In. split; auto.
    apply has_names. now apply in_map.
Qed.
Lemma among_closed : forall l, incl l FP -> closed l -> closed (among FP l).
Proof.
  intros l Hi Hc p q Hp Hq. apply among_names; auto. apply filter_In in Hp. destruct Hp as [Hp Hh]. apply has_names in Hh.
  apply in_map_iff in Hh. destruct Hh as [p' [E Hp']]. assert (p' = p) as -> by (apply (NoDup_map_inj (@pname V) FP); auto using HND). eauto.
Qed.
Lemma among_union : forall l m pl ql, incl l FP -> incl m FP -> Permutation pl (among FP l) -> Permutation ql (among FP m) ->
  Permutation (union pl ql) (among FP (l ++ m)).
Proof.
  intros l m pl ql Hl Hm P Q.
  assert (A : forall l pl, Permutation pl (among FP l) -> incl pl FP /\ NoDup (N pl)).
  { intros l0 pl0 P0. split.
    - intros x Hx. apply (among_incl l0). eapply Permutation_in; eauto.
    - eapply Permutation_NoDup; [apply Permutation_map, Permutation_sym, P0|]. apply among_NoDup. }
  destruct (A _ _ P) as [P1 P2]. destruct (A _ _ Q) as [Q1 Q2].
  apply (same_names_perm FP); auto.
  - now apply u_incl.
  - apply among_incl.
  - now apply u_NoDup.
  - apply among_NoDup.
  - intros x. rewrite u_names, among_names by (now apply incl_app). rewrite map_app, in_app_iff.
    assert (B : forall l pl, incl l FP -> Permutation pl (among FP l) -> (In x (N pl) <-> In x (N l))).
    { intros l0 pl0 I0 P0. rewrite <- (among_names l0 x I0). split; apply Permutation_in; [|apply Permutation_sym]; now apply Permutation_map. }
    rewrite (B l pl), (B m ql); auto. tauto.
Qed.
Lemma among_self : forall pl, incl pl FP -> NoDup (N pl) -> Permutation pl (among FP pl).
Proof.
  intros pl Hi Hn. apply (same_names_perm FP); auto; [apply among_incl|apply among_NoDup|]. intros x. symmetry. now apply among_names.
Qed.

Hypothesis Hacyc : ~ cyclic FP.
Hypothesis Hfits : forall p, In p FP -> weight_fits FP p.

Lemma den_noplates : forall (a : stensor) s s' e, splates a = [] -> den a s e = den a s' e.
Proof. intros a s s' e H. unfold den. now rewrite H. Qed.

Lemma reduce_stands : forall a pl f detach base, stands (PT a) pl f -> incl pl FP -> closed pl -> NoDup (N pl) ->
  exists r, reduce_plates veq anc_unwrap o top_ctx (PT a) [] detach base = Ok r /\
    splates r = [] /\ stands (PT r) [] (fun _ => weighted_sum o detach FP pl f (fun _ => 0)).
Proof.
  intros a pl f detach base Hs Ip Hc Hn. pose proof (stands_incl _ _ _ Hs Ip) as Ia. destruct Hs as [Wa [Pa [k [Ea Da]]]].
  assert (Hca : closed (splates a)) by (apply (closed_perm pl); [now apply Permutation_sym|auto]).
  destruct (reduce_plates_top veq anc_unwrap o Hring (PT a) [] a (splates a) detach base) as [r [k2 [R1 [R2 [R3 [R4 [R5 R6]]]]]]].
  - constructor.
  - exact Wa.
  - apply (sound_sub veq FP); auto. apply (wf_names a Wa).
  - apply (wf_names a Wa).
  - now apply closed_no_gaps.
  - intros C. apply Hacyc. eapply cyclic_sub; eauto.
  - intros p Hp. apply (weight_fits_sub veq anc_unwrap FP); auto. intros _ q Hq. eapply Hca; eauto.
  - assert (Er : splates r = []).
    { rewrite R2. rewrite (filter_ext_in _ (fun _ => false)).
      - clear. induction (splates a); auto.
      - intros q Hq. apply negb_false_iff. apply has_names. now apply in_map. }
    exists r. split; [exact R1|]. split; [exact Er|]. split; [exact R4|]. split; [now rewrite Er|].
    exists (k + k2). split; [now rewrite R3, Ea, repeat_app|]. intros s _.
    rewrite (den_noplates r s (fun _ => 0) _ Er). rewrite repeat_app, R6.
    2:{ intros q Hq. rewrite Er in Hq. destruct Hq. }
    2:{ rewrite Ea. apply valid_zeros. }
    unfold weighted_sum.
    transitivity (sum_over o (splates a) (fun s' => o_mul o (wprod o detach FP pl s') (den a s' (repeat 0 k))) (fun _ => 0)).
    + apply (sum_over_ext anc_unwrap); [apply (wf_names a Wa)|]. intros s' _ _. f_equal. unfold wprod.
      transitivity (oprod o (map (fun p => let w := weight_at FP p s' in if detach then o_det o w else w) (splates a))).
      * f_equal. apply map_ext_in. intros p Hp.
        rewrite (weight_at_sub veq FP (splates a) p s'); auto. intros _ q Hq. eapply Hca; eauto.
      * apply (oprod_perm o Hring). now apply Permutation_map.
    + rewrite (sum_over_perm o Hring (splates a) pl); auto.
      * apply (sum_over_ext anc_unwrap); [auto|]. intros s' _ Hr. unfold wprod. f_equal. now apply Da.
      * apply (wf_names a Wa).
      * intros s1 s2 E. rewrite (wprod_ext o detach FP pl s1 s2 E). f_equal. now apply den_ext_fun.
Qed.

(** The running sum of gradient terms, and the control variates. *)
Definition known (met : list term) : Prop := incl (gplates met) FP /\ closed (gplates met).
Definition running (met : list (@term V)) (L : pyval V) : Prop := stands L (among FP (gplates met)) (gsum o met).
Definition term_ok (t : @term V) : Prop :=
  match t_g t with Some (pl, _) => incl pl FP /\ closed pl /\ NoDup (N pl) | None => True end.

Lemma gplates_app : forall l m : list (@term V), gplates (l ++ m) = gplates l ++ gplates m.
Proof. intros l m. unfold gplates. apply flat_map_app. Qed.
Lemma osum_app : forall l m, osum o (l ++ m) = o_add o (osum o l) (osum o m).
Proof. intros l m. unfold osum. induction l as [|x l IH]; simpl; [ring|]. rewrite IH. ring. Qed.
Lemma gsum_snoc : forall met t s, gsum o (met ++ [t]) s = o_add o (gsum o met s) (value_opt o (t_g t) s).
Proof. intros met t s. unfold gsum. rewrite map_app, osum_app. cbn [map]. rewrite osum_cons. change (osum o []) with (o_zero o). ring. Qed.

Lemma squeeze_spec : forall a v base, splates a = [] -> stands (PT a) [] (fun _ => v) -> s_event_shape a = [1] ->
  exists r, squeeze_first veq anc_unwrap (PT a) base = Ok (PT r) /\ splates r = [] /\ stands (PT r) [] (fun _ => v).
Proof.
  intros a v base Ep [Hw [_ [k [Ee D]]]] E1.
  assert (k = 1) as -> by (rewrite E1 in Ee; destruct k as [|[|k]]; try discriminate; reflexivity).
  assert (HC : callable veq [a]).
  { apply over_callable; [fwf|]. intros t [<-|[]]. rewrite Ep. intros x []. }
  destruct (prepare_args_laid_out veq anc_unwrap [PT a] [] default_opts [a]) as [args' [kwargs' [E [F1 F2]]]]; auto.
  { repeat constructor. }
  rewrite all_plates_single in *. change (max_event [a]) with (Nat.max 0 (s_event_dims a)) in F1. simpl Nat.max in F1.
  inversion F1 as [|? x1 ? r1 U1 F1']; subst. inversion F1'; subst. inversion F2; subst.
  inversion U1 as [? u1 L1| | | | | | | |]; subst.
  destruct (laid_out_self _ _ _ Hw L1) as [Hs X].
  unfold squeeze_first, handle_deterministic. cbn [top_ctx c_stochastic]. rewrite E. cbn [bind c_ignore torch_fn1].
  rewrite filter_none. cbn [prepare_outputs default_opts o_flatten bind].
  assert (Sh : shape (st a) = [1]) by (rewrite (wf_shape a Hw), Ep, E1; reflexivity).
  rewrite <- Hs, Sh.
  match goal with |- context [mk_tensor ?i ?t ?q ?l ?b] =>
    destruct (mk_tensor_good i t q l b []) as [r [Hr [G1 [G2 [G3 [G4 [G5 [G6 G7]]]]]]]] end.
  { apply (wf_names a Hw). } { apply (wf_pos a Hw). } { simpl. now rewrite Ep. }
  rewrite Hr. cbn [bind]. exists r. split; [reflexivity|]. split; [now rewrite G3|]. split; [exact G7|]. split; [now rewrite G3, Ep|].
  exists 0. split; [exact G6|]. intros s Hsr. unfold den. rewrite G2, G3, Ep. simpl.
  rewrite <- (D s) by (intros q []). unfold den. rewrite Ep. simpl. symmetry. apply X. rewrite Sh. repeat constructor.
Qed.

Lemma among_app_nil : forall l, among FP (l ++ []) = among FP l.
Proof. intros l. now rewrite app_nil_r. Qed.

Lemma known_snoc : forall met t g, known met -> delivered FP g (t_g t) -> known (met ++ [t]).
Proof.
  intros met t g [H1 H2] Hg. unfold known. rewrite gplates_app. unfold gplates at 2 4. simpl. rewrite app_nil_r.
  destruct g as [g|], (t_g t) as [[pl f]|]; simpl in *; try contradiction.
  - destruct Hg as [_ [A [B _]]]. split; [now apply incl_app|now apply closed_app].
  - rewrite app_nil_r. auto.
Qed.

Lemma running_snoc : forall met t g L base, known met -> running met L -> delivered FP g (t_g t) ->
  exists L', match g with Some g => op2 (o_add o) L g base | None => Ok L end = Ok L' /\ running (met ++ [t]) L' /\
    ((exists z, g = Some (PT z)) -> exists z, L' = PT z).
Proof.
  intros met t g L base [K1 K2] HL Hg. unfold running.
  destruct g as [g|], (t_g t) as [[pl f]|] eqn:Et; simpl in Hg; try contradiction.
  - destruct Hg as [Hs [Hi [Hc Hn]]].
    destruct (stands_op2 (o_add o) L g (among FP (gplates met)) pl (gsum o met) f base HL Hs (among_incl _) Hi) as [r [R1 [R2 R3]]].
    exists r. split; [exact R1|]. split.
    + apply (stands_ext _ _ (fun s => o_add o (gsum o met s) (f s))).
      * apply (stands_perm _ (union (among FP (gplates met)) pl)); [exact R2|].
        rewrite gplates_app. apply among_union; auto.
        -- unfold gplates. simpl. rewrite Et. simpl. rewrite app_nil_r. exact Hi.
        -- unfold gplates. simpl. rewrite Et. simpl. rewrite app_nil_r. now apply among_self.
      * intros s _. rewrite gsum_snoc, Et. reflexivity.
    + intros [z Ez]. apply R3. right. exists z. congruence.
  - exists L. split; [reflexivity|]. split; [|intros [z Ez]; discriminate].
    assert (E : gplates (met ++ [t]) = gplates met).
    { rewrite gplates_app. unfold gplates at 2. simpl. rewrite Et. simpl. now rewrite app_nil_r. }
    rewrite E. apply (stands_ext _ _ (gsum o met)); [exact HL|]. intros s _. rewrite gsum_snoc, Et. simpl. ring.
Qed.

Lemma boxed_total : forall (v : pyval V) w pl ql f g base, stands v (among FP pl) f -> stands w ql g -> incl pl FP -> closed pl ->
  incl ql FP -> closed ql -> NoDup (N ql) -> (exists z, v = PT z) \/ (exists z, w = PT z) ->
  exists b A r, magic_box veq anc_unwrap o o_exp v (base + 10) = Ok b /\ op2 (o_mul o) b w (base + 20) = Ok A /\
    reduce_plates veq anc_unwrap o top_ctx A [] false (base + 30) = Ok r /\ splates r = [] /\
    stands (PT r) [] (fun _ => total o FP (pl ++ ql) (fun s => o_mul o (box o o_exp (f s)) (g s))).
Proof.
  intros v w pl ql f g base Hv Hw Ip Cp Iq Cq Nq Hpt.
  destruct (magic_box_spec v (among FP pl) f (base + 10) Hv (among_incl _)) as [b [B1 [B2 B3]]].
  destruct (stands_op2 (o_mul o) b w (among FP pl) ql _ g (base + 20) B2 Hw (among_incl _) Iq) as [A [A1 [A2 A3]]].
  destruct A3 as [a ->].
  { destruct Hpt as [Hpt|Hpt]; [left; now apply B3|right; exact Hpt]. }
  assert (Pm : Permutation (union (among FP pl) ql) (among FP (pl ++ ql))) by (apply among_union; auto; now apply among_self).
  destruct (reduce_stands a (among FP (pl ++ ql)) (fun s => o_mul o (box o o_exp (f s)) (g s)) false (base + 30)) as [r [R1 [R2 R3]]].
  { exact (stands_perm _ _ _ _ A2 Pm). }
  { apply among_incl. } { apply among_closed; [now apply incl_app|now apply closed_app]. } { apply among_NoDup. }
  exists b, (PT a), r. auto.
Qed.

Lemma add_terms_spec : forall met t g cv L acc v base,
  known met -> running met L -> stands acc [] (fun _ => v) ->
  delivered FP g (t_g t) -> delivered FP cv (t_cv t) -> wrapped g cv ->
  exists L' acc', add_terms veq anc_unwrap o o_exp g cv L acc base = Ok (L', acc') /\
    known (met ++ [t]) /\ running (met ++ [t]) L' /\
    stands acc' [] (fun _ => o_add o v (match t_cv t with
               | None => o_zero o
               | Some (pl, h) => total o FP (gplates (met ++ [t]) ++ pl) (fun s => o_mul o (box o o_exp (gsum o (met ++ [t]) s)) (h s))
               end)).
Proof.
  intros met t g cv L acc v base HK HL Ha Hg Hc Hwr. unfold add_terms.
  pose proof (known_snoc met t g HK Hg) as HK'.
  destruct (running_snoc met t g L base HK HL Hg) as [L' [E1 [HL' HP]]]. rewrite E1. cbn [bind].
  destruct cv as [cv|], (t_cv t) as [[pl h]|] eqn:Et; simpl in Hc; try contradiction.
  - destruct Hc as [Hs [Hi [Hcl Hn]]]. destruct HK' as [K1 K2].
    destruct (boxed_total L' cv (gplates (met ++ [t])) pl (gsum o (met ++ [t])) h base) as [b [A [r [B1 [B2 [B3 [B4 B5]]]]]]]; auto.
    { destruct Hwr as [W|[W|W]]; [left; auto|discriminate|]. destruct W as [z Ez]. right. exists z. congruence. }
    rewrite B1. cbn [bind]. rewrite B2. cbn [bind]. rewrite B3. cbn [bind].
    assert (Sq : exists r', (if ndim (st r) =? 1 then squeeze_first veq anc_unwrap (PT r) (base + 25) else Ok (PT r)) = Ok (PT r') /\
      splates r' = [] /\ stands (PT r') [] (fun _ => total o FP (gplates (met ++ [t]) ++ pl) (fun s => o_mul o (box o o_exp (gsum o (met ++ [t]) s)) (h s)))).
    { destruct (Nat.eqb_spec (ndim (st r)) 1) as [E|E]; [|exists r; auto].
      apply squeeze_spec; auto. destruct B5 as [Wr [_ [k [Ek _]]]].
      unfold ndim in E. rewrite (wf_shape r Wr), B4 in E. simpl in E. rewrite Ek in *. rewrite repeat_length in E. now subst k. }
    destruct Sq as [r' [Q1 [Q2 Q3]]]. rewrite Q1. cbn [bind].
    destruct (stands_op2 (o_add o) acc (PT r') [] [] (fun _ => v) _ (base + 28) Ha Q3) as [x [X1 [X2 X3]]]; try (intros ? []).
    rewrite X1. cbn [bind]. exists L', x. refine (conj eq_refl (conj (conj K1 K2) (conj HL' X2))).
  - cbn [bind]. exists L', acc. refine (conj eq_refl (conj HK' (conj HL' _))).
    apply (stands_ext _ _ (fun _ => v)); auto. intros s _. ring.
Qed.

(** ** The stand-in for the parent *)
Lemma agree_FP : agree veq FP.
Proof.
  intros p q Hp Hq E. destruct (so_orderable _ _ Hsound) as [_ [_ H]].
  assert (A : ancestry FP p) by now left. assert (B : ancestry FP q) by now left.
  split; [now apply H|]. now apply (so_size _ _ Hsound).
Qed.

Lemma align_parent_spec : forall cps i (pps : list plate) (t : ten V) ev,
  incl cps FP -> incl pps FP -> (forall p, In p cps -> In (pname p) (N pps)) -> i + length cps <= length pps ->
  shape t = map pn pps ++ ev ->
  exists pps' t', align_parent veq cps i pps t = Ok (pps', t') /\ Permutation pps' pps /\ shape t' = map pn pps' ++ ev /\
    forall (s : assignment) e, el t' (map (fun p => s (pname p)) pps' ++ e) = el t (map (fun p => s (pname p)) pps ++ e).
Proof.
  induction cps as [|p cps IH]; intros i pps t ev Hc Hp Hin Hlen Hsh; simpl.
  - exists pps, t. auto.
  - assert (Hpf : In p FP) by (apply Hc; simpl; auto).
    assert (Pin : pin veq p pps = true) by (rewrite (pin_mem veq FP) by (auto using agree_FP); apply mem_In; apply Hin; simpl; auto).
    unfold pin in Pin. destruct (indexb_inb _ _ _ Pin) as [j Hj]. unfold pindex. rewrite Hj.
    simpl in Hlen.
    destruct (Nat.eqb_spec i j) as [->|Nij].
    + apply IH; auto; [intros x Hx; apply Hc; simpl; auto|intros q Hq; apply Hin; simpl; auto|lia].
    + destruct (indexb_some _ _ _ _ Hj) as [y [Hy _]].
      assert (Hjl : j < length pps) by (apply nth_error_Some; congruence).
      assert (Hnd : length pps <= ndim t) by (unfold ndim; rewrite Hsh, app_length, map_length; lia).
      unfold transpose. destruct (Nat.ltb_spec j (ndim t)); [|lia]. destruct (Nat.ltb_spec i (ndim t)); [|lia]. cbn [andb bind].
      destruct (nth_error_lt pps i ltac:(lia)) as [z Hz]. rewrite Hz.
      assert (PN : Permutation (swapl j i pps) pps) by apply swapl_perm.
      destruct (IH (i + 1) (swapl j i pps) (mkten (swapl j i (shape t)) (fun idx => el t (swapl j i idx))) ev) as [pps' [t' [E1 [E2 [E3 E4]]]]].
      * intros x Hx; apply Hc; simpl; auto.
      * intros x Hx. apply Hp. eapply Permutation_in; eauto.
      * intros q Hq. eapply Permutation_in; [apply Permutation_map, Permutation_sym, PN|]. apply Hin; simpl; auto.
      * rewrite swapl_length. lia.
      * simpl shape. rewrite Hsh. rewrite swapl_app_l by (rewrite map_length; lia). now rewrite map_swapl.
      * exists pps', t'. split; [exact E1|]. split; [eapply Permutation_trans; eauto|]. split; [exact E3|].
        intros s e. rewrite E4. simpl el. f_equal. rewrite swapl_app_l by (rewrite map_length, swapl_length; lia). f_equal.
        rewrite map_swapl. apply swapl_invol; rewrite map_length; lia.
Qed.

(** The dimensions end up in the order of the cost's. *)
Lemma align_parent_order : forall cps i (pps : list plate) (t : ten V) pps' t', align_parent veq cps i pps t = Ok (pps', t') -> NoDup (N cps) ->
  (forall k q, k < i -> nth_error pps k = Some q -> ~ In (pname q) (N cps)) ->
  (forall k, k < i -> nth_error pps' k = nth_error pps k) /\
  (forall k p, nth_error cps k = Some p -> exists q, nth_error pps' (i + k) = Some q /\ pname q = pname p).
Proof.
  induction cps as [|p cps IH]; intros i pps t pps' t' H ND Hd; simpl in H.
  - injection H as <- <-. split; auto. intros [|k] p Hk; discriminate.
  - simpl in ND. inversion ND as [|? ? ND1 ND2]; subst. unfold pindex in H. destruct (indexb (peq veq) p pps) as [j|] eqn:Hj; [|discriminate].
    destruct (indexb_some _ _ _ _ Hj) as [y [Hy Ey]]. apply peq_name in Ey.
    assert (Hij : i <= j).
    { destruct (Nat.le_gt_cases i j) as [L|L]; auto. exfalso. apply (Hd j y L Hy). rewrite Ey. now left. }
    assert (Hjl : j < length pps) by (apply nth_error_Some; congruence).
    assert (K : exists l tt, align_parent veq cps (i + 1) l tt = Ok (pps', t') /\ nth_error l i = Some y /\ forall k, k < i -> nth_error l k = nth_error pps k).
    { destruct (Nat.eqb_spec i j) as [->|Nij]; [eexists _, _; split; [exact H|auto]|].
      destruct (transpose j i t) as [tt|]; [|discriminate]. cbn [bind] in H. destruct (nth_error pps i) as [z|] eqn:Ez; [|discriminate].
      exists (swapl j i pps), tt. split; [exact H|]. split.
      - rewrite nth_error_swapl by lia. now rewrite Nat.eqb_refl.
      - intros k Hk. rewrite nth_error_swapl by lia. replace (k =? i) with false by (symmetry; apply Nat.eqb_neq; lia).
        replace (k =? j) with false by (symmetry; apply Nat.eqb_neq; lia). reflexivity. }
    destruct K as [l [tt [K1 [K2 K3]]]]. destruct (IH (i + 1) l tt pps' t' K1 ND2) as [I1 I2].
    { intros k q Hk Hq. destruct (Nat.eq_dec k i) as [->|Hne].
      - rewrite K2 in Hq. injection Hq as <-. now rewrite Ey.
      - rewrite K3 in Hq by lia. intros C. apply (Hd k q ltac:(lia) Hq). now right. }
    split.
    + intros k Hk. rewrite I1 by lia. apply K3. exact Hk.
    + intros [|k] q Hq; simpl in Hq.
      * injection Hq as <-. exists y. rewrite Nat.add_0_r, I1 by lia. auto.
      * destruct (I2 k q Hq) as [r Hr]. exists r. replace (i + Datatypes.S k) with (i + 1 + k) by lia. exact Hr.
Qed.
Lemma names_prefix : forall (l m : list plate), (forall k p, nth_error m k = Some p -> exists q, nth_error l k = Some q /\ pname q = pname p) ->
  exists r, N l = N m ++ r.
Proof.
  intros l m. revert l. induction m as [|p m IH]; intros l H; [exists (N l); reflexivity|].
  destruct (H 0 p eq_refl) as [q [Hq E]]. destruct l as [|x l]; [discriminate|]. simpl in Hq. injection Hq as ->.
  destruct (IH l) as [r Hr]; [intros k y Hy; exact (H (Datatypes.S k) y Hy)|]. exists r. simpl. now rewrite Hr, E.
Qed.

Lemma filter_all : forall (f : plate -> bool) l, (forall x, In x l -> f x = true) -> filter f l = l.
Proof. intros f l. induction l as [|x l IH]; simpl; intros H; auto. rewrite H by auto. f_equal. auto. Qed.
Lemma wide_app : forall l m : list plate, wide (l ++ m) = wide l ++ wide m.
Proof. intros l m. unfold wide. apply filter_app. Qed.
Lemma NoDup_wide : forall l : list plate, NoDup (N l) -> NoDup (N (wide l)).
Proof. intros l H. now apply NoDup_map_filter. Qed.

Lemma new_parent_spec : forall (p rc : stensor) base, over FP p -> wf rc -> incl (splates rc) FP ->
  (forall q, In q (wide (splates rc)) -> In (pname q) (N (wide (splates p)))) ->
  exists np, new_parent veq p rc base = Ok np /\ relabelled p np /\ in_order np rc.
Proof.
  intros p rc base [Wp Ip Cp] Wr Ir Hin. unfold new_parent.
  assert (Wi : incl (wide (splates rc)) FP) by (intros x Hx; apply filter_In in Hx; apply Ir; tauto).
  assert (Wj : incl (wide (splates p)) FP) by (intros x Hx; apply filter_In in Hx; apply Ip; tauto).
  destruct (align_parent_spec (multi_dim_plates rc) 0 (multi_dim_plates p) (st p) (s_event_shape p)) as [pps [t [E1 [E2 [E3 E4]]]]]; auto.
  { simpl. rewrite <- (map_length pname (multi_dim_plates rc)), <- (map_length pname (multi_dim_plates p)). apply NoDup_incl_length.
    - apply NoDup_wide. apply (wf_names rc Wr).
    - intros x Hx. apply in_map_iff in Hx. destruct Hx as [q [<- Hq]]. now apply Hin. }
  { apply (wf_shape p Wp). }
  rewrite E1. cbn [bind].
  assert (Ipps : incl pps FP) by (intros x Hx; apply Wj; eapply Permutation_in; eauto).
  assert (Npps : NoDup (N pps)).
  { eapply Permutation_NoDup; [apply Permutation_map, Permutation_sym, E2|]. apply NoDup_wide. apply (wf_names p Wp). }
  rewrite (add_plates_union veq FP) by (auto using agree_FP; apply (wf_names p Wp)).
  assert (Pm : Permutation (splates p) (union pps (splates p))).
  { apply (same_names_perm FP); auto.
    - now apply u_incl.
    - apply (wf_names p Wp).
    - apply u_NoDup; auto. apply (wf_names p Wp).
    - intros x. rewrite u_names. split; [tauto|]. intros [H|H]; auto.
      apply (Permutation_in _ (Permutation_map pname E2)) in H. apply in_map_iff in H. destruct H as [q [<- Hq]].
      apply in_map. apply filter_In in Hq. tauto. }
  assert (Wd : wide (union pps (splates p)) = pps).
  { unfold union. rewrite wide_app.
    assert (A : wide pps = pps).
    { unfold wide. apply filter_all. intros x Hx. apply (Permutation_in _ E2) in Hx. apply filter_In in Hx. tauto. }
    rewrite A. assert (B : wide (filter (fun q => negb (has pps (pname q))) (splates p)) = []).
    { destruct (wide (filter (fun q => negb (has pps (pname q))) (splates p))) as [|q l] eqn:E; auto. exfalso.
      assert (Hq : In q (q :: l)) by (simpl; auto). rewrite <- E in Hq. apply filter_In in Hq. destruct Hq as [Hq Hw].
      apply filter_In in Hq. destruct Hq as [Hq Hh]. apply negb_true_iff in Hh.
      assert (C : has pps (pname q) = true).
      { apply has_names. eapply Permutation_in; [apply Permutation_map, Permutation_sym, E2|]. apply in_map. apply filter_In. auto. }
      congruence. }
    rewrite B. apply app_nil_r. }
  destruct (mk_tensor_good base t [] (union pps (splates p)) true (s_event_shape p)) as [np [G1 [G2 [G3 [G4 [G5 [G6 [G7 G8]]]]]]]].
  { apply u_NoDup; auto. apply (wf_names p Wp). }
  { intros q Hq. apply (wf_pos p Wp). eapply Permutation_in; [apply Permutation_sym|]; eauto. }
  { now rewrite Wd. }
  exists np. split; [exact G1|]. split; [|unfold in_order; rewrite G4, Wd; apply names_prefix; intros k q Hq;
    destruct (align_parent_order _ _ _ _ _ _ E1) as [_ X]; [apply NoDup_wide, (wf_names rc Wr)|intros; lia|exact (X k q Hq)]].
  constructor; auto.
  - now rewrite G4.
  - intros s e Hs He. unfold den. rewrite G3, G4, Wd. apply E4.
Qed.

(** ** The averaged cost *)
Lemma children_first_filter : forall (f : plate -> bool) l, children_first l -> children_first (filter f l).
Proof.
  intros f l. induction l as [|p l IH]; simpl; auto. intros [H1 H2]. destruct (f p); auto. simpl. split; auto.
  intros q Hq. apply filter_In in Hq. apply H1. tauto.
Qed.

Lemma averaged_spec : forall c p base, over FP c -> over FP p -> s_event_shape c = [] -> no_gaps (wide (splates c)) ->
  exists red rc, plates_to_reduce veq c (multi_dim_plates p) = Ok red /\
    reduce_all veq anc_unwrap o top_ctx red c true base = Ok rc /\ wf rc /\ incl (splates rc) FP /\
    (forall q, In q (wide (splates rc)) -> In (pname q) (N (wide (splates p)))) /\
    averaged o FP c p rc /\ (foreign c (splates p) = [] -> red = [] /\ rc = c).
Proof.
  intros c p base [Wc Ic Cc] [Wp Ip Cp] Ec Hg.
  assert (Wi : incl (wide (splates c)) FP) by (intros x Hx; apply filter_In in Hx; apply Ic; tauto).
  assert (Wj : incl (wide (splates p)) FP) by (intros x Hx; apply filter_In in Hx; apply Ip; tauto).
  assert (Nw : NoDup (N (wide (splates c)))) by (apply NoDup_wide; apply (wf_names c Wc)).
  assert (Sw : sound veq (wide (splates c))) by (apply (sound_sub veq FP); auto).
  destruct (order_plates_spec veq (wide (splates c)) (so_orderable _ _ Sw) Hg) as [_ Ho].
  assert (Hnc : ~ cyclic (wide (splates c))) by (intros C; apply Hacyc; exact (cyclic_sub _ _ Wi C)).
  destruct (Ho Hnc) as [l [O1 [O2 [O3 O4]]]]. clear Ho.
  assert (Il : incl l FP) by (intros x Hx; apply Wi; eapply Permutation_in; eauto).
  assert (Nl : NoDup (N l)) by (eapply Permutation_NoDup; [apply Permutation_map, Permutation_sym, O3|auto]).
  set (red := filter (fun q => negb (has (wide (splates p)) (pname q))) (rev l)).
  assert (Ered : plates_to_reduce veq c (multi_dim_plates p) = Ok red).
  { unfold plates_to_reduce. change (multi_dim_plates c) with (wide (splates c)). rewrite O2. cbn [bind]. f_equal. unfold red.
    apply filter_ext_in. intros q Hq. f_equal. apply in_rev in Hq. rewrite (pin_mem veq FP) by (auto using agree_FP).
    symmetry. apply has_mem. }
  assert (Pred : Permutation red (foreign c (splates p))).
  { apply (same_names_perm FP); auto.
    - intros x Hx. apply filter_In in Hx. destruct Hx as [Hx _]. apply in_rev in Hx. auto.
    - intros x Hx. apply filter_In in Hx. destruct Hx as [Hx _]. auto.
    - apply NoDup_map_filter. rewrite map_rev. now apply NoDup_rev.
    - now apply NoDup_map_filter.
    - intros x. unfold red, foreign. rewrite !in_map_iff. split; intros [q [E Hq]]; exists q; (split; [exact E|]);
        apply filter_In in Hq; destruct Hq as [Hq Hh]; apply filter_In; split; auto.
      + apply in_rev in Hq. eapply Permutation_in; eauto.
      + apply -> in_rev. eapply Permutation_in; [apply Permutation_sym|]; eauto. }
  assert (Ir : incl red (splates c)).
  { intros x Hx. apply filter_In in Hx. destruct Hx as [Hx _]. apply in_rev in Hx. apply (Permutation_in _ O3) in Hx. apply filter_In in Hx. tauto. }
  destruct (reduce_all_spec veq anc_unwrap o Hring red FP c true base) as [rc [k [R1 [R2 [R3 [R4 [R5 R6]]]]]]]; auto.
  { apply NoDup_map_filter. rewrite map_rev. now apply NoDup_rev. }
  { apply children_first_filter. now apply parents_first_children. }
  { intros q Hq _ x Hx. eapply Cc; eauto. }
  assert (Ek : splates rc = kept c (splates p)).
  { rewrite R2. unfold kept. apply filter_ext. intros q. f_equal. rewrite mems_has. apply bool_iff. rewrite !has_names.
    split; apply Permutation_in; [|apply Permutation_sym]; now apply Permutation_map. }
  exists red, rc. split; [exact Ered|]. split; [exact R1|]. split; [exact R4|].
  split. { rewrite R2. intros x Hx. apply filter_In in Hx. apply Ic. tauto. }
  split.
  { rewrite Ek. intros q Hq. apply filter_In in Hq. destruct Hq as [Hq Hw]. apply filter_In in Hq. destruct Hq as [Hq Hf].
    apply has_names. destruct (has (wide (splates p)) (pname q)) eqn:E; auto. exfalso.
    apply negb_true_iff in Hf. assert (C : has (foreign c (splates p)) (pname q) = true).
    { apply has_names. apply in_map. apply filter_In. split; [apply filter_In; auto|]. now rewrite E. }
    congruence. }
  split.
  { split; [exact R4|]. split; [now rewrite Ek|]. exists k. split; [now rewrite R3, Ec|]. intros s Hs.
    specialize (R6 s [] ltac:(now rewrite Ek)). simpl in R6. rewrite R6 by (rewrite Ec; constructor). unfold weighted_sum.
    rewrite (sum_over_perm o Hring red (foreign c (splates p))); auto.
    - apply (sum_over_ext anc_unwrap); [now apply NoDup_map_filter|]. intros s' _ _. f_equal. unfold wprod. apply (oprod_perm o Hring).
      now apply Permutation_map.
    - apply NoDup_map_filter. rewrite map_rev. now apply NoDup_rev.
    - intros s1 s2 E. rewrite (wprod_ext o true FP red s1 s2 E). f_equal. now apply den_ext_fun. }
  intros E. rewrite E in Pred. apply Permutation_sym, Permutation_nil in Pred. rewrite Pred in R1 |- *. split; auto. simpl in R1. congruence.
Qed.

(** ** The loop over the ancestors *)
Section Cost.
Variable nodes : nat -> @snode V S.
Variable c : nat.
Hypothesis Hc : over FP (nd_t (nodes c)).
Hypothesis Hce : s_event_shape (nd_t (nodes c)) = [].
Hypothesis Hcg : no_gaps (wide (splates (nd_t (nodes c)))).
Notation control now := (fun t : @term V => match t_cv t with
               | None => o_zero o
               | Some (pl, h) => total o FP (gplates now ++ pl) (fun s => o_mul o (box o o_exp (gsum o now s)) (h s))
               end).

Lemma skip_parent : forall p base (s : lstate), scored nodes c p false -> add_parent veq anc_unwrap o o_exp nodes c base s p = Ok s.
Proof.
  intros p base [[L acc] sg] H. unfold add_parent. inversion H as [E|n lp r m E D|n lp m b E Hb Eb].
  - now rewrite E.
  - rewrite E. destruct m as [m|]; [|reflexivity]. destruct D as [->|D]; [reflexivity|discriminate].
  - destruct b; [|discriminate]. rewrite E, Hb. reflexivity.
Qed.

Lemma take_parent : forall p P base met L acc sg v, scored nodes c p true -> over FP (nd_t (nodes p)) -> estimates o FP nodes c p P ->
  known met -> running met L -> stands acc [] (fun _ => v) ->
  exists L' acc' sg' t, add_parent veq anc_unwrap o o_exp nodes c base (L, acc, sg) p = Ok (L', acc', sg') /\ P sg t sg' /\
    known (met ++ [t]) /\ running (met ++ [t]) L' /\ stands acc' [] (fun _ => o_add o v (control (met ++ [t]) t)).
Proof.
  intros p P base met L acc sg v Hs Hp He HK HL Ha.
  inversion Hs as [E|n lp r m E D|n lp m b E Hb Eb]. destruct b; [discriminate|].
  unfold add_parent. unfold estimates in He. rewrite E in He |- *. rewrite Hb. cbn [bind].
  destruct (averaged_spec (nd_t (nodes c)) (nd_t (nodes p)) base Hc Hp Hce Hcg) as [red [rc [R1 [R2 [R3 [R4 [R5 [R6 R7]]]]]]]].
  rewrite R1. cbn [bind]. rewrite R2. cbn [bind].
  destruct (new_parent_spec (nd_t (nodes p)) rc base Hp R3 R4 R5) as [np [N1 [N2 N3]]]. rewrite N1. cbn [bind].
  destruct (He np rc (reduced_name (nd_name (nodes c)) red) sg base N2 R6) as [g [cv [sg' [tm [E1 [E2 [E3 [E4 E5]]]]]]]].
  { intros Hf. destruct (R7 Hf) as [-> ->]. auto. }
  { exact N3. }
  rewrite E1. cbn [bind].
  destruct (add_terms_spec met tm g cv L acc v base HK HL Ha E3 E4 E2) as [L' [acc' [A1 [A2 [A3 A4]]]]].
  rewrite A1. cbn [bind]. exists L', acc', sg', tm. auto.
Qed.

Lemma fold_parents : forall (P : nat -> S -> term -> S -> Prop) (sc : nat -> bool) base order met L acc sg v,
  (forall p, In p order -> scored nodes c p (sc p)) ->
  (forall p, In p order -> sc p = true -> over FP (nd_t (nodes p))) ->
  (forall p, In p order -> sc p = true -> estimates o FP nodes c p (P p)) ->
  known met -> running met L -> stands acc [] (fun _ => v) ->
  exists L' acc' sg' ts, foldM (add_parent veq anc_unwrap o o_exp nodes c base) order (L, acc, sg) = Ok (L', acc', sg') /\
    trace P (filter sc order) sg ts sg' /\ known (met ++ ts) /\ running (met ++ ts) L' /\
    stands acc' [] (fun _ => o_add o v (controls o o_exp FP met ts)).
Proof.
  intros P sc base. induction order as [|p order IH]; intros met L acc sg v H1 H2 H3 HK HL Ha.
  - exists L, acc, sg, []. split; [reflexivity|]. split; [constructor|]. rewrite app_nil_r. split; [auto|]. split; [auto|].
    apply (stands_ext _ _ (fun _ => v)); auto. intros s _. simpl. ring.
  - cbn [foldM]. pose proof (H1 p (or_introl eq_refl)) as Hs.
    destruct (sc p) eqn:Ep; simpl filter; rewrite Ep.
    + destruct (take_parent p (P p) base met L acc sg v Hs (H2 p (or_introl eq_refl) Ep) (H3 p (or_introl eq_refl) Ep) HK HL Ha)
        as [L1 [acc1 [sg1 [t [E1 [E2 [E3 [E4 E5]]]]]]]]. rewrite E1. cbn [bind].
      destruct (IH (met ++ [t]) L1 acc1 sg1 _ (fun q Hq => H1 q (or_intror Hq)) (fun q Hq => H2 q (or_intror Hq))
                   (fun q Hq => H3 q (or_intror Hq)) E3 E4 E5) as [L2 [acc2 [sg2 [ts [F1 [F2 [F3 [F4 F5]]]]]]]].
      exists L2, acc2, sg2, (t :: ts). split; [exact F1|]. split; [econstructor; eauto|].
      rewrite <- app_assoc in F3, F4. split; [exact F3|]. split; [exact F4|].
      apply (stands_ext _ _ _ _ F5). intros s _. simpl. ring.
    + rewrite (skip_parent p base _ Hs). cbn [bind].
      apply IH; auto; intros q Hq; [apply H1|apply H2|apply H3]; now right.
Qed.

Lemma surrogate_cost_spec : forall (P : nat -> S -> term -> S -> Prop) (sc : nat -> bool) fuel h base order sg,
  surrogate_order fuel h c = Some order ->
  (forall p, In p order -> scored nodes c p (sc p)) ->
  (forall p, In p order -> sc p = true -> over FP (nd_t (nodes p))) ->
  (forall p, In p order -> sc p = true -> estimates o FP nodes c p (P p)) ->
  exists x sg' ts, surrogate_cost veq anc_unwrap o o_exp fuel h nodes base c sg = Ok (PT x, sg') /\
    trace P (filter sc order) sg ts sg' /\ splates x = [] /\ stands (PT x) [] (fun _ => cost_loss o o_exp FP (nd_t (nodes c)) ts).
Proof.
  intros P sc fuel h base order sg Ho H1 H2 H3. unfold surrogate_cost. rewrite Ho. cbn [bind].
  destruct (fold_parents P sc base order [] (PRaw (tscalar (o_zero o))) (PRaw (tscalar (o_zero o))) sg (o_zero o) H1 H2 H3)
    as [L [acc [sg' [ts [F1 [F2 [F3 [F4 F5]]]]]]]].
  { split; [intros x []|intros x q []]. }
  { unfold running. assert (E : among FP (gplates []) = []).
    { unfold among. simpl. clear. induction FP; auto. }
    rewrite E. split; [reflexivity|]. split; reflexivity. }
  { split; [reflexivity|]. split; reflexivity. }
  rewrite F1. cbn [bind]. simpl app in F3, F4. destruct F3 as [K1 K2].
  assert (Hst : stands (PT (nd_t (nodes c))) (splates (nd_t (nodes c))) (fun s => den (nd_t (nodes c)) s [])).
  { destruct Hc as [Wc Ic Cc]. split; [exact Wc|]. split; [apply Permutation_refl|]. exists 0. split; [exact Hce|]. auto. }
  destruct (boxed_total L (PT (nd_t (nodes c))) (gplates ts) (splates (nd_t (nodes c))) (gsum o ts) _ base F4 Hst K1 K2
              (ov_incl _ _ Hc) (ov_closed _ _ Hc) (wf_names _ (ov_wf _ _ Hc)) (or_intror (ex_intro _ _ eq_refl)))
    as [b [A [r [B1 [B2 [B3 [B4 B5]]]]]]].
  rewrite B1. cbn [bind]. rewrite B2. cbn [bind]. rewrite B3. cbn [bind].
  destruct (stands_op2 (o_add o) acc (PT r) [] [] _ _ (base + 28) F5 B5) as [x [X1 [X2 X3]]]; try (intros ? []).
  destruct X3 as [y ->]; [right; eauto|]. rewrite X1. cbn [bind]. exists y, sg', ts. split; [reflexivity|]. split; [exact F2|].
  split.
  - destruct X2 as [_ [Pm _]]. now apply Permutation_nil, Permutation_sym.
  - apply (stands_ext _ _ _ _ X2). intros s _. unfold cost_loss. ring.
Qed.
End Cost.
End Around.

(** ** Stacking and summing *)
Lemma no_plates_callable : forall xs : list stensor, Forall wf xs -> (forall x, In x xs -> splates x = []) -> callable veq xs.
Proof.
  intros xs Hw Hp. assert (E : flat_map splates xs = []).
  { clear Hw. induction xs as [|x xs IH]; simpl; auto. rewrite (Hp x) by (simpl; auto). simpl. apply IH. intros y Hy. apply Hp. simpl; auto. }
  split; auto. rewrite E. split; intros p; intros; try contradiction.
Qed.

Lemma all_plates_none : forall xs : list stensor, Forall wf xs -> (forall x, In x xs -> splates x = []) -> all_plates xs = [].
Proof.
  intros xs Hw Hp. destruct (all_plates_facts veq anc_unwrap xs (no_plates_callable xs Hw Hp)) as [H _].
  assert (E : flat_map splates xs = []).
  { clear H Hw. induction xs as [|x xs IH]; simpl; auto. rewrite (Hp x) by (simpl; auto). simpl. apply IH. intros y Hy. apply Hp. simpl; auto. }
  rewrite E in H. destruct (all_plates xs) as [|p l]; auto. exfalso. apply (H p). simpl; auto.
Qed.

Lemma indices_ones : forall k, indices (repeat 1 k) = [repeat 0 k].
Proof. induction k as [|k IH]; simpl; auto. rewrite IH. reflexivity. Qed.

Lemma max_event_le : forall (xs : list stensor) x, In x xs -> s_event_dims x <= max_event xs.
Proof. intros xs x H. unfold max_event. apply max_event_ge. now left. Qed.

Definition scalar_of (x : stensor) (v : V) : Prop := splates x = [] /\ stands (PT x) [] (fun _ => v).

Lemma F2_length : forall {A B} (R : A -> B -> Prop) l m, Forall2 R l m -> length l = length m.
Proof. intros A B R l m H. induction H; simpl; auto. Qed.
Lemma stack_spec : forall (xs : list stensor) vs base, xs <> [] -> Forall2 scalar_of xs vs ->
  exists r k, handle_deterministic veq anc_unwrap top_ctx stack_fn [PList (map PT xs)] [] [] default_opts base = Ok (PT r) /\
    splates r = [] /\ wf r /\ shape (st r) = length xs :: repeat 1 k /\
    forall i, i < length xs -> el (st r) (i :: repeat 0 k) = nth i vs (o_zero o).
Proof.
  intros xs vs base Hne HF.
  assert (Hw : Forall wf xs) by (clear Hne; induction HF as [|x v ys ws Hx HF' IH]; constructor; auto; exact (proj1 (proj2 Hx))).
  assert (Hp : forall x, In x xs -> splates x = []).
  { intros x Hx. clear -HF Hx. induction HF as [|y v ys ws Hy HF' IH]; [destruct Hx|]. destruct Hx as [<-|Hx]; auto. exact (proj1 Hy). }
  pose proof (no_plates_callable xs Hw Hp) as HC.
  pose proof (all_plates_none xs Hw Hp) as Eall.
  destruct (prepare_args_laid_out veq anc_unwrap [PList (map PT xs)] [] default_opts xs) as [args' [kwargs' [E [F1 F2]]]]; auto.
  { unfold call_tensors. simpl. rewrite !app_nil_r. clear. induction xs as [|x xs IH]; simpl; auto. now rewrite <- IH. }
  { constructor; [|constructor]. simpl. clear. induction xs as [|x xs IH]; simpl; auto. }
  rewrite Eall in *. simpl wide in F1.
  inversion F1 as [|? x1 ? r1 U1 F1']; subst. inversion F1'; subst. inversion F2; subst.
  inversion U1 as [ | | | | |l l' FL| | |]; subst.
  set (ed := max_event xs) in *.
  destruct (raws_unwrapped (laid_out [] (o_expand default_opts) ed) xs l' FL) as [us [Er Fu]].
  assert (Sh : forall i u, nth_error us i = Some u -> shape u = repeat 1 ed).
  { intros i u Hu. clear -Fu HF Hu anc_unwrap veq. revert i vs HF Hu. assert (Hm : forall x, In x xs -> s_event_dims x <= ed) by (intros x; apply max_event_le).
    clearbody ed. induction Fu as [|x u' xs us L Fu IH]; intros i vs HF Hu; [now destruct i|].
    inversion HF as [|? v ? vs' Hsc HF']; subst. destruct Hsc as [Ep [W [_ [k [Ek _]]]]]. destruct i as [|i]; simpl in Hu.
    - injection Hu as ->. destruct L as [L _]. rewrite L. simpl. rewrite Ek. unfold pad. rewrite repeat_length, <- repeat_app. f_equal.
      specialize (Hm x (or_introl eq_refl)). unfold s_event_dims in Hm. rewrite Ek, repeat_length in Hm. lia.
    - apply (IH (fun y Hy => Hm y (or_intror Hy)) i vs' HF' Hu). }
  assert (El : forall i u, nth_error us i = Some u -> nth_error vs i = Some (el u (repeat 0 ed))).
  { intros i u Hu. clear -Fu HF Hu anc_unwrap veq. revert i vs HF Hu. assert (Hm : forall x, In x xs -> s_event_dims x <= ed) by (intros x; apply max_event_le).
    clearbody ed. induction Fu as [|x u' xs us L Fu IH]; intros i vs HF Hu; [now destruct i|].
    inversion HF as [|? v ? vs' Hsc HF']; subst. destruct Hsc as [Ep [W [_ [k [Ek Dk]]]]]. destruct i as [|i]; simpl in Hu.
    - injection Hu as ->. destruct L as [_ L]. simpl. f_equal.
      specialize (Hm x (or_introl eq_refl)). unfold s_event_dims in Hm. rewrite Ek, repeat_length in Hm.
      specialize (L (fun _ => 0) (repeat 0 ed)). simpl in L. rewrite L.
      + unfold s_event_dims. rewrite Ek, repeat_length. rewrite <- (Dk (fun _ => 0)) by (intros ? []). f_equal.
        replace ed with (k + (ed - k)) by lia. rewrite repeat_app. rewrite firstn_app, repeat_length, Nat.sub_diag. simpl. rewrite app_nil_r.
        rewrite firstn_all2; auto. rewrite repeat_length. lia.
      + intros ? [].
      + rewrite Ek. unfold pad. rewrite repeat_length, <- repeat_app. replace (k + (ed - k)) with ed by lia. apply valid_zeros.
    - apply (IH (fun y Hy => Hm y (or_intror Hy)) i vs' HF' Hu). }
  assert (Lu : length us = length xs) by (symmetry; exact (F2_length _ _ _ Fu)).
  destruct us as [|u us]; [destruct xs; [contradiction|discriminate]|].
  assert (Est : tstack (u :: us) = Ok (mkten (length (u :: us) :: shape u) (fun i => match i with [] => el u [] | k :: j => el (nth k (u :: us) u) j end))).
  { unfold tstack. replace (forallb (fun u0 => list_eqb (shape u0) (shape u)) us) with true; auto. symmetry. apply forallb_forall.
    intros u0 H0. apply list_eqb_eq. destruct (In_nth_error _ _ H0) as [i Hi]. rewrite (Sh (Datatypes.S i) u0) by exact Hi. now rewrite (Sh 0 u). }
  unfold handle_deterministic. cbn [top_ctx c_stochastic]. rewrite E. cbn [bind].
  destruct xs as [|x xs]; [contradiction|]. unfold stack_fn. rewrite Er, Est. cbn [bind c_ignore].
  rewrite filter_none. cbn [prepare_outputs default_opts o_flatten bind].
  match goal with |- context [mk_tensor ?i ?t ?q ?l ?b] =>
    destruct (mk_tensor_good i t q l b (length (x :: xs) :: repeat 1 ed)) as [r [Hr [G1 [G2 [G3 [G4 [G5 [G6 G7]]]]]]]] end.
  { constructor. } { intros p []. } { cbn [shape]. rewrite (Sh 0 u) by reflexivity. now rewrite Lu. }
  rewrite Hr. cbn [bind]. exists r, ed. split; [reflexivity|]. split; [exact G3|]. split; [exact G7|].
  split. { rewrite G2. cbn [shape]. rewrite (Sh 0 u) by reflexivity. now rewrite Lu. }
  intros i Hi. rewrite G2. cbn [el]. rewrite <- Lu in Hi. destruct (nth_error_lt (u :: us) i Hi) as [u0 Hu0].
  rewrite (nth_error_nth (u :: us) i u Hu0). symmetry. apply nth_error_nth. now apply El.
Qed.

Lemma sum_stack_spec : forall (a : stensor) vs k base, splates a = [] -> wf a -> shape (st a) = length vs :: repeat 1 k ->
  (forall i, i < length vs -> el (st a) (i :: repeat 0 k) = nth i vs (o_zero o)) ->
  exists r, handle_deterministic veq anc_unwrap top_ctx (torch_fn1 (fun t => Ok (tsum o t))) [PT a] [] [] default_opts base = Ok (PT r) /\
    splates r = [] /\ shape (st r) = [] /\ el (st r) [] = osum o vs.
Proof.
  intros a vs k base Ep Hw Sh X.
  assert (HC : callable veq [a]) by (apply no_plates_callable; [fwf|intros x [<-|[]]; auto]).
  destruct (prepare_args_laid_out veq anc_unwrap [PT a] [] default_opts [a]) as [args' [kwargs' [E [F1 F2]]]]; auto.
  { repeat constructor. }
  rewrite all_plates_single in *. change (max_event [a]) with (Nat.max 0 (s_event_dims a)) in F1. simpl Nat.max in F1.
  inversion F1 as [|? x1 ? r1 U1 F1']; subst. inversion F1'; subst. inversion F2; subst.
  inversion U1 as [? u1 L1| | | | | | | |]; subst.
  destruct (laid_out_self _ _ _ Hw L1) as [Hs Y].
  unfold handle_deterministic. cbn [top_ctx c_stochastic]. rewrite E. cbn [bind c_ignore torch_fn1].
  rewrite filter_none. cbn [prepare_outputs default_opts o_flatten bind].
  match goal with |- context [mk_tensor ?i ?t ?q ?l ?b] =>
    destruct (mk_tensor_good i t q l b []) as [r [Hr [G1 [G2 [G3 [G4 [G5 [G6 G7]]]]]]]] end.
  { apply (wf_names a Hw). } { apply (wf_pos a Hw). } { simpl. now rewrite Ep. }
  rewrite Hr. cbn [bind]. exists r. split; [reflexivity|]. split; [now rewrite G3|]. rewrite G2. split; [reflexivity|].
  simpl. rewrite <- Hs, Sh. simpl. rewrite indices_ones. f_equal.
  assert (Ef : flat_map (fun i => map (cons i) [repeat 0 k]) (seq 0 (length vs)) = map (fun i => i :: repeat 0 k) (seq 0 (length vs))).
  { generalize (seq 0 (length vs)). induction l as [|i l IH]; simpl; [reflexivity|]. now f_equal. }
  rewrite Ef, map_map. transitivity (map (fun i => nth i vs (o_zero o)) (seq 0 (length vs))).
  - apply map_ext_in. intros i Hi. apply in_seq in Hi. rewrite <- X by lia. symmetry. apply Y. rewrite Sh. constructor; [lia|apply valid_zeros].
  - clear. induction vs as [|v vs IH]; simpl; auto. f_equal. rewrite <- seq_shift, map_map. exact IH.
Qed.

Lemma costs_spec : forall fuel h nodes base (ks : list (@costing V S)) sg, Forall (costing_ok veq o nodes fuel h) ks ->
  exists xs sg' tss, surrogate_costs veq anc_unwrap o o_exp fuel h nodes base (map cg_id ks) sg = Ok (map PT xs, sg') /\
    traces ks sg tss sg' /\
    Forall2 scalar_of xs (map (fun kt => cost_loss o o_exp (cg_plates (fst kt)) (nd_t (nodes (cg_id (fst kt)))) (snd kt)) (combine ks tss)).
Proof.
  intros fuel h nodes base ks sg H. revert sg. induction H as [|k ks [Ho [K1 K2 K3 K4 K5 K6 K7]] H IH]; intros sg; simpl.
  - exists [], sg, []. split; [reflexivity|]. split; constructor.
  - destruct K1 as [S1 S2 S3].
    destruct (surrogate_cost_spec (cg_plates k) S1 S2 S3 nodes (cg_id k) K2 K3 K4 (cg_est k) (cg_scored k) fuel h base (cg_order k) sg Ho K5 K6 K7)
      as [x [sg1 [ts [E1 [E2 [E3 E4]]]]]]. rewrite E1. cbn [bind].
    destruct (IH sg1) as [xs [sg' [tss [F1 [F2 F3]]]]]. rewrite F1. cbn [bind].
    exists (x :: xs), sg', (ts :: tss). split; [reflexivity|]. split; [econstructor; eauto|]. simpl. constructor; auto. now split.
Qed.

Theorem surrogate_spec : forall fuel h nodes base (ks : list (@costing V S)) sg, ks <> [] -> Forall (costing_ok veq o nodes fuel h) ks ->
  exists r sg' tss, surrogate_loss veq anc_unwrap o o_exp fuel h nodes (map cg_id ks) sg base = Ok (PT r, sg') /\
    traces ks sg tss sg' /\ splates r = [] /\ shape (st r) = [] /\
    el (st r) [] = osum o (map (fun kt => cost_loss o o_exp (cg_plates (fst kt)) (nd_t (nodes (cg_id (fst kt)))) (snd kt)) (combine ks tss)).
Proof.
  intros fuel h nodes base ks sg Hne H.
  destruct (costs_spec fuel h nodes base ks sg H) as [xs [sg' [tss [E1 [E2 E3]]]]].
  unfold surrogate_loss. destruct ks as [|k ks]; [contradiction|]. simpl map at 1.
  change (cg_id k :: map cg_id ks) with (map cg_id (k :: ks)). rewrite E1. cbn [bind].
  assert (Hx : xs <> []) by (inversion E2; subst; inversion E3; subst; discriminate).
  destruct (stack_spec xs _ base Hx E3) as [a [kk [A1 [A2 [A3 [A4 A5]]]]]]. rewrite A1. cbn [bind].
  assert (Hl : length xs = length (map (fun kt => cost_loss o o_exp (cg_plates (fst kt)) (nd_t (nodes (cg_id (fst kt)))) (snd kt)) (combine (k :: ks) tss))).
  { clear -E3. induction E3; simpl; auto. }
  rewrite Hl in A4, A5.
  destruct (sum_stack_spec a _ kk (base + 2) A2 A3 A4 A5) as [r [R1 [R2 [R3 R4]]]]. rewrite R1. cbn [bind].
  exists r, sg', tss. auto.
Qed.
End Surrogate.
