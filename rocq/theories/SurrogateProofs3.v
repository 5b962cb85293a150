(** magic_box on tensors with event dimensions, element-wise distributions, and the baselines. *)
From Coq Require Import String List Arith Bool ZArith Lia Permutation Ring.
From Coq Require Import Reals.
From Verif Require Import Curves Base Torch Plates Wrap OrderPlates Scalar Reduce Graph Surrogate ListLemmas IndexLemmas SpecTensor SpecWrap
  SpecOrder SpecReduce SpecGraph SpecSurrogate WrapProofs AlignProofs CallProofs CallProofs2 OpProofs OrderProofs ReduceProofs ReduceProofs2
  VarianceProofs PlateEqProofs GraphProofs SurrogateProofs SurrogateProofs2.
Import ListNotations.

Section Surrogate3.
Context {V S : Type}.
Variable veq : V -> V -> bool.
Variable anc_unwrap : plate V -> stensor V -> res (stensor V).
Variable o : sops V.
Hypothesis Hring : is_ring o.
Variable o_exp : V -> V.
Notation plate := (plate V).
Notation stensor := (stensor V).
Notation N l := (map (@pname V) l).
Notation op1 := (torch_op1 veq anc_unwrap top_ctx).
Notation op2 := (torch_op2 veq anc_unwrap top_ctx).
Let Hring' : ring_theory (o_zero o) (o_one o) (o_add o) (o_mul o) (o_sub o) (o_opp o) (@eq V) := Hring.
Add Ring o_ring : Hring'.

Lemma broadcasts_refl : forall l, broadcasts l l l.
Proof. induction l; constructor; auto. Qed.
Lemma pad_self : forall l, pad (length l) l = l.
Proof. intros l. unfold pad. now rewrite Nat.sub_diag, app_nil_r. Qed.

Lemma op2_same : forall f a b base, callable veq [a; b] -> s_event_shape b = s_event_shape a ->
  exists r, op2 f (PT a) (PT b) base = Ok (PT r) /\ splates r = union (splates a) (splates b) /\ s_event_shape r = s_event_shape a /\ wf r /\
    forall s e, in_range s (splates r) -> valid e (s_event_shape a) -> den r s e = f (den a s e) (den b s e).
Proof.
  intros f a b base HC E.
  destruct (op2_spec veq anc_unwrap f a b base (s_event_shape a) HC) as [r [R1 [R2 [R3 [R4 [_ [_ [_ R8]]]]]]]].
  { unfold s_event_dims. rewrite E, Nat.max_id, pad_self. apply broadcasts_refl. }
  exists r. refine (conj R1 (conj R2 (conj R3 (conj R4 _)))). intros s e Hs He. rewrite R8 by auto. rewrite E, proj_valid by auto. reflexivity.
Qed.

Lemma callable_twice : forall a b : stensor, callable veq [a] -> wf b -> splates b = splates a -> callable veq [a; b].
Proof.
  intros a b [F [A P]] Wb E. inversion F; subst. simpl in A, P. rewrite app_nil_r in A, P.
  split; [fwf|]. simpl. rewrite E, app_nil_r. split.
  - intros p q Hp Hq. apply in_app_or in Hp, Hq. apply A; tauto.
  - intros p Hp. apply in_app_or in Hp. apply P. tauto.
Qed.

Theorem magic_box_full : forall a base, callable veq [a] ->
  exists r, magic_box veq anc_unwrap o o_exp (PT a) base = Ok (PT r) /\ splates r = splates a /\ s_event_shape r = s_event_shape a /\ wf r /\
    forall s e, in_range s (splates a) -> valid e (s_event_shape a) -> den r s e = box o o_exp (den a s e).
Proof.
  intros a base HC. unfold magic_box.
  destruct (op1_spec veq anc_unwrap (o_det o) a base HC) as [d [D1 [D2 [D3 [D4 [_ [_ [_ D8]]]]]]]]. rewrite D1. cbn [bind].
  destruct (op2_same (o_sub o) a d (base + 2) (callable_twice a d HC D4 D2) D3) as [x [X1 [X2 [X3 [X4 X5]]]]]. rewrite X1. cbn [bind].
  rewrite D2, union_self in X2.
  assert (HCx : callable veq [x]).
  { destruct HC as [F [A P]]. split; [fwf|]. simpl in *. rewrite X2. auto. }
  destruct (op1_spec veq anc_unwrap o_exp x (base + 4) HCx) as [r [R1 [R2 [R3 [R4 [_ [_ [_ R8]]]]]]]].
  exists r. rewrite X2 in *. rewrite X3 in *. refine (conj R1 (conj R2 (conj R3 (conj R4 _)))).
  intros s e Hs He. rewrite R8, X5, D8 by auto. reflexivity.
Qed.

Lemma magic_box_props : evaluates o o_exp -> (forall x y, o_exp (o_add o x y) = o_mul o (o_exp x) (o_exp y)) ->
  forall l base, callable veq [l] ->
  exists r, magic_box veq anc_unwrap o o_exp (PT l) base = Ok (PT r) /\
    splates r = splates l /\ s_event_shape r = s_event_shape l /\ wf r /\
    forall s e, in_range s (splates l) -> valid e (s_event_shape l) ->
      o_det o (den r s e) = o_one o /\ o_mul o (den r s e) (o_exp (o_det o (den l s e))) = o_exp (den l s e).
Proof.
  intros He Ha l base HC. destruct (magic_box_full l base HC) as [r [R1 [R2 [R3 [R4 R5]]]]].
  exists r. refine (conj R1 (conj R2 (conj R3 (conj R4 _)))). intros s e Hs Hv. rewrite R5 by auto. split; [now apply box_one|].
  unfold box. rewrite <- Ha. f_equal. ring.
Qed.

Lemma score_backward : evaluates o o_exp -> forall (nodes : nat -> @snode V S) h univ costs FP anc bl score sg base,
  closed_under (h_parents h) univ -> incl costs univ -> costs <> [] ->
  (forall c, In c costs -> score_setup veq anc_unwrap o o_exp nodes h c (FP c) (anc c) bl score /\ closed (FP c)) ->
  (forall c a f, In c costs -> In a (anc c) -> bl a = Some f -> baseline_gives o (FP c) nodes c a f (fun _ _ _ _ => True)) ->
  (forall c p, In c costs -> In p (FP c) -> In p (splates (nd_t (nodes c))) \/ normalised o false (FP c) p) ->
  exists enough, forall fuel, enough <= fuel ->
  exists t, backward_value veq anc_unwrap o o_exp fuel h nodes costs sg base = Ok t /\ shape t = [] /\
    o_det o (el t []) = o_det o (osum o (map (fun c => let t := nd_t (nodes c) in
      weighted_sum o false (splates t) (splates t) (fun s => den t s []) (fun _ => 0)) costs)).
Proof.
  intros He nodes h univ costs FP anc bl score sg base H1 H2 H3 H4 H5 H6.
  destruct (score_value veq anc_unwrap o Hring o_exp He nodes h univ costs FP anc bl score sg base H1 H2 H3 H4 H5 H6) as [enough H].
  exists enough. intros fuel Hf. destruct (H fuel Hf) as [r [sg' [R1 [R2 [R3 R4]]]]]. exists (st r). unfold backward_value. rewrite R1.
  cbn [bind as_tensor]. auto.
Qed.

(** A distribution whose log-probability is computed element by element from the sample and a parameter tensor. *)
Lemma elementwise_log_prob : forall FP a prm f, sound veq FP -> over FP a -> over FP prm ->
  (forall q, In q (splates prm) -> In (pname q) (N (splates a))) -> s_event_shape prm = s_event_shape a ->
  has_log_prob a (fun x base => op2 f (PT x) (PT prm) base) (s_event_shape a) (fun s e => f (den a s e) (den prm s e)).
Proof.
  intros FP a prm f HS [Wa Ia Ca] [Wp Ip Cp] Hsub Ee b base [Wb Pb Eb Db].
  assert (Ib : incl (splates b) FP) by (intros x Hx; apply Ia; exact (Permutation_in _ (Permutation_sym Pb) Hx)).
  assert (HC : callable veq [b; prm]) by (apply (over_callable veq FP HS); [fwf|intros t [<-|[<-|[]]]; auto]).
  destruct (op2_same f b prm base HC) as [r [R1 [R2 [R3 [R4 R5]]]]]; [congruence|].
  exists r. rewrite union_sub in R2.
  2: { intros q Hq. eapply Permutation_in; [apply Permutation_map, Pb|auto]. }
  split; [exact R1|]. split; [exact R4|]. split; [rewrite R2; now apply Permutation_sym|]. split; [congruence|].
  intros s e Hs He. rewrite R5.
  - f_equal. apply Db; auto.
  - rewrite R2. exact (in_range_perm s _ _ Pb Hs).
  - now rewrite Eb.
Qed.


(** ** Baselines *)
Variable o_divn : V -> nat -> V.


Lemma sum_split : forall (g : nat -> V) l i, NoDup l -> In i l ->
  osum o (map g l) = o_add o (g i) (osum o (map g (filter (fun j => negb (j =? i)) l))).
Proof.
  induction l as [|x l IH]; intros i ND Hi; [destruct Hi|]. inversion ND; subst. simpl map at 1. rewrite osum_cons. simpl filter.
  destruct Hi as [->|Hi].
  - rewrite Nat.eqb_refl. simpl. f_equal.
    replace (filter (fun j => negb (j =? i)) l) with l; auto.
    match goal with H : ~ In i l |- _ => revert H end. clear. induction l as [|y l IH]; intros H; simpl; auto. simpl in H.
    destruct (Nat.eqb_spec y i); [tauto|]. simpl. f_equal. apply IH. tauto.
  - destruct (Nat.eqb_spec x i) as [->|]; [contradiction|]. cbn [negb map]. rewrite osum_cons, (IH i) by auto. ring.
Qed.

Lemma set_to_self : forall (s : assignment) x y, set_to s x (s x) y = s y.
Proof. intros s x y. unfold set_to. destruct (String.eqb_spec y x) as [->|]; auto. Qed.

Theorem batch_average_spec : forall FP rc pl f p x key (sg : S) base, sound veq FP -> stands (PT rc) pl f -> ext f -> incl pl FP -> In p pl ->
  sm_name x = pname p -> sm_n x = pn p -> 1 < pn p ->
  exists b, batch_average veq anc_unwrap o o_divn x rc key sg base = Ok (b, sg) /\
    stands b pl (fun s => o_divn (others o (fun s' => o_det o (f s')) p s) (pn p - 1)).
Proof.
  intros FP rc pl f p x key sg base HS Hrc Hf Hi Hp En Em Hn. unfold batch_average. rewrite Em, En.
  replace (pn p =? 1) with false by (symmetry; apply Nat.eqb_neq; lia).
  destruct (stands_op1 veq anc_unwrap FP HS (o_det o) (PT rc) pl f base Hrc Hi) as [d [D1 [D2 D3]]]. rewrite D1. cbn [bind].
  destruct D3 as [dt ->]; [eauto|]. cbn [as_tensor bind].
  pose proof D2 as D2'. destruct D2 as [Wd [Pd [k [Ed Dd]]]].
  assert (Id : incl (splates dt) FP) by (intros y Hy; apply Hi; exact (Permutation_in _ Pd Hy)).
  assert (HC : callable veq [dt]) by (apply (over_callable veq FP HS); [fwf|intros t [<-|[]]; auto]).
  assert (Hpd : In p (splates dt)) by exact (Permutation_in _ (Permutation_sym Pd) Hp).
  destruct (st_sum_plate veq anc_unwrap o dt p (base + 2) HC Hpd Hn) as [r [R1 [R2 [R3 [R4 [R5 R6]]]]]].
  rewrite R1. cbn [bind].
  assert (Sr : stands (PT r) (splates r) (fun s => osum o (map (fun i => o_det o (f (set_to s (pname p) i))) (seq 0 (pn p))))).
  { split; [exact R4|]. split; [apply Permutation_refl|]. exists k. split; [congruence|]. intros s Hs.
    rewrite R6; auto; [|rewrite Ed; apply valid_zeros]. apply osum_ext. intros i Hir. apply in_seq in Hir. apply Dd.
    apply (in_range_perm _ (splates dt)); auto. apply set_to_range; auto; [apply (wf_names dt Wd)|now rewrite <- R2|lia]. }
  assert (Ir : incl (splates r) FP) by (rewrite R2; intros y Hy; apply filter_In in Hy; apply Id; tauto).
  destruct (stands_op2 veq anc_unwrap FP HS (o_sub o) (PT r) (PT dt) (splates r) pl _ _ (base + 4) Sr D2' Ir Hi) as [m [M1 [M2 M3]]].
  rewrite M1. cbn [bind].
  assert (Npl : NoDup (N pl)) by (eapply Permutation_NoDup; [apply Permutation_map, Pd|apply (wf_names dt Wd)]).
  assert (Pu : Permutation (union (splates r) pl) pl).
  { apply (same_names_perm FP); auto.
    - apply (HND veq FP HS). - apply (u_incl anc_unwrap); auto. - apply u_NoDup; auto. apply (wf_names r R4).
    - intros y. rewrite (u_names anc_unwrap). split; [|tauto]. intros [Hy|Hy]; auto. rewrite R2 in Hy. apply without_names in Hy.
      eapply Permutation_in; [apply Permutation_map, Pd|tauto]. }
  destruct (stands_op1 veq anc_unwrap FP HS (fun v => o_divn v (pn p - 1)) m _ _ (base + 6) M2) as [b [B1 [B2 B3]]].
  { intros y Hy. apply Hi. exact (Permutation_in _ Pu Hy). }
  rewrite B1. cbn [bind]. exists b. split; [reflexivity|].
  apply (stands_perm _ _ pl) in B2; auto.
  apply (stands_ext _ _ _ _ B2). intros s Hs. f_equal. unfold others.
  rewrite (sum_split (fun i => o_det o (f (set_to s (pname p) i))) (seq 0 (pn p)) (s (pname p))).
  - rewrite (Hf (set_to s (pname p) (s (pname p))) s) by apply set_to_self. ring.
  - apply seq_NoDup.
  - apply in_seq. specialize (Hs p Hp). lia.
Qed.

Theorem batch_average_single : forall rc x key (sg : S) base, sm_n x = 1 ->
  batch_average veq anc_unwrap o o_divn x rc key sg base = Err ValueError.
Proof. intros rc x key sg base E. unfold batch_average. now rewrite E. Qed.

End Surrogate3.

Section Moving.
Context {V : Type}.
Variable veq : V -> V -> bool.
Variable anc_unwrap : plate V -> stensor V -> res (stensor V).
Variable o : sops V.
Hypothesis Hring : is_ring o.
Notation plate := (plate V).
Notation stensor := (stensor V).
Notation N l := (map (@pname V) l).
Let Hring' : ring_theory (o_zero o) (o_one o) (o_add o) (o_mul o) (o_sub o) (o_opp o) (@eq V) := Hring.
Add Ring o_ring2 : Hring'.

Theorem moving_average_spec : forall (rc : stensor) (decay : V) x key (sg : averages V) base, sound veq (splates rc) -> wf rc ->
  s_event_shape rc = [] -> closed (splates rc) -> ~ cyclic (splates rc) -> (forall p, In p (splates rc) -> weight_fits (splates rc) p /\ ~ padded (splates rc) p) ->
  shape (sg key) = [] ->
  exists z, moving_average veq anc_unwrap o decay x rc key sg base = Ok (PRaw z, fun k => if String.eqb k key then z else sg k) /\
    shape z = [] /\
    el z [] = o_add o (o_mul o decay (el (sg key) []))
      (o_mul o (o_sub o (o_one o) decay) (o_det o (weighted_sum o true (splates rc) (splates rc) (fun s => den rc s []) (fun _ => 0)))).
Proof.
  intros rc decay x key sg base HS Wc Ec Hcl Hac Hw Hsh. unfold moving_average.
  destruct (reduce_plates_top veq anc_unwrap o Hring (PT rc) [] rc (splates rc) true base) as [a [k [A1 [A2 [A3 [A4 [A5 A6]]]]]]]; auto.
  { constructor. } { apply (wf_names rc Wc). } { now apply closed_no_gaps. } { intros p Hp. apply Hw. exact Hp. }
  rewrite A1. cbn [bind]. assert (k = 0) by (apply A5; intros p Hp; apply Hw; exact Hp). subst k. rewrite Ec in A3. simpl in A3.
  assert (Pa : splates a = []).
  { rewrite A2. clear. assert (G : forall l m : list plate, incl m l -> filter (fun q => negb (has l (pname q))) m = []).
    { induction m as [|q m IH]; intros Hm; auto. simpl. replace (has l (pname q)) with true; [apply IH; intros y Hy; apply Hm; now right|].
      symmetry. apply has_names. apply in_map, Hm. now left. }
    apply G. intros y Hy. exact Hy. }
  assert (Da : forall s, den a s [] = weighted_sum o true (splates rc) (splates rc) (fun s => den rc s []) (fun _ => 0)).
  { intros s.
    change (den a s []) with (den a s ([] ++ repeat 0 0)). rewrite (A6 s []) by (rewrite ?Pa, ?Ec; first [intros q []|constructor]).
    unfold weighted_sum. set (F := fun s' : assignment => _).
    assert (HF : forall s1 s2 : assignment, (forall q, In q (splates rc) -> s1 (pname q) = s2 (pname q)) -> F s1 = F s2).
    { intros s1 s2 H. unfold F. f_equal.
      - f_equal. apply map_ext_in. intros q Hq. cbv zeta. f_equal. unfold weight_at. pose proof (proj1 (Hw q Hq)) as Hfit. unfold weight_fits in Hfit.
        destruct (pweight q) as [w|obj w names]; [now rewrite (H q Hq)|].
        destruct Hfit as [_ [_ [_ [Hn _]]]]. f_equal. apply map_ext_in. intros y Hy. unfold wide_names in Hy. apply filter_In in Hy.
        destruct Hy as [Hy _]. destruct (Hn y Hy) as [->|Hy']; [now apply H|].
        apply in_map_iff in Hy'. destruct Hy' as [q' [<- Hq']]. pose proof (Hcl q q' Hq Hq') as Hin. apply in_map_iff in Hin.
        destruct Hin as [q'' [<- Hq'']]. now apply H.
      - apply den_ext. intros q Hq. apply H. apply filter_In in Hq. tauto. }
    clear -HF. revert HF. generalize F. clear F. intros F HF.
    assert (G : forall l s1 s2, (forall y, (In y (N (splates rc)) -> In y (N l)) \/ s1 y = s2 y) -> 
      sum_over o l F s1 = sum_over o l F s2).
    { induction l as [|q l IH]; intros s1 s2 H; simpl.
      - apply HF. intros q Hq. destruct (H (pname q)) as [C|E]; auto. destruct (C (in_map pname _ _ Hq)).
      - apply osum_ext. intros i _. apply IH. intros y. unfold set_to. destruct (String.eqb_spec y (pname q)); auto.
        destruct (H y) as [C|E]; auto. left. intros Hy. destruct (C Hy); congruence || auto. }
    apply G. intros y. left. auto. }
  assert (HCa : forall t : stensor, wf t -> splates t = [] -> callable veq [t]).
  { intros t Wt Et. split; [fwf|]. simpl. rewrite Et. split; [intros p q []|intros p []]. }
  destruct (op1_spec veq anc_unwrap (o_det o) a (base + 2) (HCa a A4 Pa)) as [d [D1 [D2 [D3 [D4 [_ [_ [_ D8]]]]]]]].
  rewrite D1. cbn [bind].
  destruct (op2_raw_left veq anc_unwrap (o_mul o) (tscalar (o_sub o (o_one o) decay)) d (base + 4)) as [y [Y1 [Y2 [Y3 [Y4 Y5]]]]].
  { apply HCa; congruence. } { reflexivity. }
  rewrite Y1. cbn [bind].
  destruct (op2_raw_left veq anc_unwrap (o_add o) (tmap (o_mul o decay) (sg key)) y (base + 6)) as [z [Z1 [Z2 [Z3 [Z4 Z5]]]]].
  { apply HCa; congruence. } { exact Hsh. }
  rewrite Z1. cbn [bind as_tensor]. exists (st z). split; [reflexivity|].
  assert (Ez : splates z = []) by congruence.
  split; [rewrite (wf_shape z Z4), Z3, Y3, D3, A3, Ez; reflexivity|].
  pose proof (Z5 (fun _ => 0) []) as H. rewrite Y5, D8, Da in H; rewrite ?Y2, ?D2, ?Y3, ?D3, ?Pa, ?A3; try (intros q []); try constructor.
  unfold den in H at 1. rewrite Ez in H. simpl in H. rewrite H; auto; rewrite ?Y2, ?D2, ?Y3, ?D3, ?Pa, ?A3; try (intros q []); constructor.
Qed.
End Moving.

Lemma curve_evaluates : forall t0, evaluates (curve_ops t0) curve_exp.
Proof.
  intros t0. constructor; try reflexivity. unfold curve_exp, curve_ops. simpl.
  apply FunctionalExtensionality.functional_extensionality. intros t. apply exp_0.
Qed.

Lemma magic_box_curves : forall veq anc_unwrap (t0 : R) (l : stensor (R -> R)) base, callable veq [l] ->
  exists r, magic_box veq anc_unwrap (curve_ops t0) curve_exp (PT l) base = Ok (PT r) /\
    forall s e, in_range s (splates l) -> valid e (s_event_shape l) ->
      den r s e t0 = 1%R /\ (forall t, den r s e t = exp (den l s e t - den l s e t0)) /\
      forall d, derivable_pt_lim (den l s e) t0 d -> derivable_pt_lim (den r s e) t0 d.
Proof.
  intros veq anc_unwrap t0 l base HC. destruct (magic_box_full veq anc_unwrap (curve_ops t0) curve_exp l base HC) as [r [R1 [_ [_ [_ R5]]]]].
  exists r. split; [exact R1|]. intros s e Hs He. rewrite R5 by auto. unfold box, curve_exp. simpl.
  split; [|split; [reflexivity|]].
  - rewrite Rminus_eq_0. apply exp_0.
  - intros d Hd.
    replace d with (exp (den l s e t0 - den l s e t0) * d)%R by (rewrite Rminus_eq_0, exp_0; ring).
    apply (derivable_pt_lim_comp (fun t => den l s e t - den l s e t0)%R exp).
    + replace d with (d - 0)%R by ring. apply (derivable_pt_lim_minus (den l s e) (fun _ => den l s e t0)); auto. apply derivable_pt_lim_const.
    + apply derivable_pt_lim_exp.
Qed.
