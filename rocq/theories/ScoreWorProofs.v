(** What ScoreFunctionWOR returns. *)
From Coq Require Import String List Arith Bool ZArith Lia Permutation Ring.
From Verif Require Import Base Torch Plates Wrap OrderPlates Scalar Reduce Graph Surrogate Estimators ScoreWor ListLemmas IndexLemmas SpecTensor SpecWrap
  SpecOrder SpecReduce SpecGraph SpecSurrogate SpecScoreWor WrapProofs AlignProofs CallProofs CallProofs2 OpProofs OrderProofs ReduceProofs ReduceProofs2
  VarianceProofs PlateEqProofs GraphProofs SurrogateProofs SurrogateProofs2 SurrogateProofs3 EstimatorProofs RaoBlackwellProofs.
Import ListNotations.
Open Scope nat_scope.

Section WOR.
Context {V S : Type}.
Variable veq : V -> V -> bool.
Variable anc_unwrap : plate V -> stensor V -> res (stensor V).
Variable o : sops V.
Hypothesis Hring : is_ring o.
Variable o_exp : V -> V.
Variable o_div : V -> V -> V.
Variable eps : V.
Notation plate := (plate V).
Notation stensor := (stensor V).
Notation N l := (map (@pname V) l).
Notation op1 := (torch_op1 veq anc_unwrap top_ctx).
Notation op2 := (torch_op2 veq anc_unwrap top_ctx).

Lemma filter_perm' : forall {A} (f : A -> bool) l m, Permutation l m -> Permutation (filter f l) (filter f m).
Proof.
  intros A f l m H. induction H; simpl; auto.
  - destruct (f x); auto.
  - destruct (f x), (f y); auto using Permutation_refl. apply perm_swap.
  - eapply Permutation_trans; eauto.
Qed.
Lemma st_sum_stands : forall FP (v : pyval V) a (pl : list plate) f p base, sound veq FP -> v = PT a -> stands v pl f -> incl pl FP -> In p pl -> 1 < pn p ->
  exists r, st_sum veq anc_unwrap o top_ctx a [DPlate (pname p)] base = Ok (PT r) /\
    stands (PT r) (without (pname p) pl) (fun s => osum o (map (fun i => f (set_to s (pname p) i)) (seq 0 (pn p)))).
Proof.
  intros FP v a pl f p base HS -> Ha Hi Hp Hn.
  pose proof (stands_incl FP a pl f Ha Hi) as Ia. destruct Ha as [Wa [Pa [k [Ea Da]]]].
  assert (HC : callable veq [a]) by (apply (over_callable veq FP HS); [fwf|intros t [<-|[]]; auto]).
  assert (Hpa : In p (splates a)) by exact (Permutation_in _ (Permutation_sym Pa) Hp).
  destruct (st_sum_plate veq anc_unwrap o a p base HC Hpa Hn) as [r [R1 [R2 [R3 [R4 [R5 R6]]]]]].
  exists r. split; [exact R1|]. split; [exact R4|].
  assert (Pw : Permutation (splates r) (without (pname p) pl)) by (rewrite R2; now apply filter_perm').
  split; [exact Pw|]. exists k. split; [congruence|]. intros s Hs.
  assert (Hsr : in_range s (splates r)) by (intros q Hq; apply Hs; eapply Permutation_in; eauto).
  rewrite R6; auto; [|rewrite Ea; apply valid_zeros]. apply osum_ext. intros i Hir. apply in_seq in Hir. apply Da.
  apply (in_range_perm _ (splates a)); auto. apply set_to_range; auto; [apply (wf_names a Wa)|now rewrite <- R2|lia].
Qed.

(** The importance weights. *)
Variables (P : plate) (pl0 : list plate) (lp : stensor) (pert : ten V).
Hypothesis HnP : 1 < pn P.
Hypothesis Hlp : wf lp.
Hypothesis Hpl : splates lp = pl0 ++ [P].
Hypothesis Hlev : s_event_shape lp = [].
Hypothesis Hpert : shape pert = shape (st lp).
Notation pl := (pl0 ++ [P]).
(** Log-probability, threshold and weight at a choice of samples. *)
Definition L (s : assignment) : V := den lp s [].
Definition K (s : assignment) : V := el pert (map (fun p => s (pname p)) (wide pl0) ++ [pn P - 1]).
Definition W (s : assignment) : V := if s (pname P) =? pn P - 1 then o_zero o else iw_one o o_exp o_div eps (L s) (K s).

Lemma wide_snoc : wide pl = wide pl0 ++ [P].
Proof. unfold wide. rewrite filter_app. simpl. replace (1 <? pn P) with true by (symmetry; now apply Nat.ltb_lt). reflexivity. Qed.
Lemma L_ext : ext L.
Proof. intros s s' E. unfold L, den. f_equal. f_equal. apply map_ext. intros. apply E. Qed.
Lemma K_ext : ext K.
Proof. intros s s' E. unfold K. f_equal. f_equal. apply map_ext. intros. apply E. Qed.
Lemma W_ext : ext W.
Proof. intros s s' E. unfold W. rewrite (E (pname P)), (L_ext s s' E), (K_ext s s' E). reflexivity. Qed.
Lemma stands_lp : stands (PT lp) pl L.
Proof. split; [exact Hlp|]. split; [rewrite Hpl; apply Permutation_refl|]. exists 0. split; [exact Hlev|]. reflexivity. Qed.

Lemma stands_iw : stands (PT (iw_tensor o o_exp o_div eps lp pert)) pl W.
Proof.
  assert (Esh : shape (st lp) = map pn (wide pl0) ++ [pn P]).
  { rewrite (wf_shape lp Hlp), Hpl, Hlev, wide_snoc, map_app, app_nil_r. reflexivity. }
  split.
  - destruct Hlp as [A1 A2 A3 A4]. constructor; simpl; auto.
  - split; [simpl; rewrite Hpl; apply Permutation_refl|]. exists 0. split; [exact Hlev|]. intros s Hs.
    unfold den, iw_tensor. cbv zeta. cbn [st splates el shape]. rewrite Hpert, Esh, last_last. rewrite Hpl, wide_snoc, map_app. simpl repeat. rewrite app_nil_r.
    simpl map. rewrite last_last, removelast_last. unfold W, L, K, den. rewrite Hpl, wide_snoc, map_app, app_nil_r. reflexivity.
Qed.

Lemma without_incl : forall x (l m : list plate), incl l m -> incl (without x l) m.
Proof. intros x l m H q Hq. apply filter_In in Hq. apply H. tauto. Qed.

Variable FP : list plate.
Hypothesis HS : sound veq FP.
Hypothesis Hin : incl pl FP.

Ltac inc := repeat first [assumption | apply (u_incl anc_unwrap) | apply without_incl | intros ? []].
(** A plate that occurs in the union of two lists, one of which has it. *)
Lemma union_has : forall (l m : list plate), incl l FP -> incl m FP -> In P l \/ In P m -> In P (union l m).
Proof.
  intros l m Hl Hm H. assert (Hx : In (pname P) (N (union l m))).
  { apply (u_names anc_unwrap). destruct H as [H|H]; [left|right]; now apply in_map. }
  apply in_map_iff in Hx. destruct Hx as [q [Eq Hq]]. 
  assert (Hqf : In q FP) by (revert Hq; apply (u_incl anc_unwrap); auto).
  assert (HPf : In P FP) by (destruct H; auto).
  replace P with q; auto. apply (NoDup_map_inj (@pname V) FP); auto. apply (HND veq FP HS).
Qed.

Ltac inP := first [assumption | apply in_or_app; right; left; reflexivity | apply union_has; [solve [inc]|solve [inc]|first [left; solve [inP]|right; solve [inP]]]].
Ltac two h A B X :=
  match type of A with stands ?v ?pa ?fa => match type of B with stands ?w ?pb ?fb =>
  match goal with |- context [torch_op2 _ _ _ h v w ?b] =>
    let r := fresh "r" in let E := fresh "E" in let T := fresh "T" in
    destruct (stands_op2 veq anc_unwrap FP HS h v w pa pb fa fb b A B ltac:(inc) ltac:(inc)) as [r [E [X T]]]; rewrite E; cbn [bind as_tensor]; clear E;
    destruct T as [? ->]; [first [left; eexists; reflexivity | right; eexists; reflexivity]|]; cbn [bind as_tensor] end end end.
Ltac one h A X :=
  match type of A with stands ?v ?pa ?fa =>
  match goal with |- context [torch_op1 _ _ _ h v ?b] =>
    let r := fresh "r" in let E := fresh "E" in let T := fresh "T" in
    destruct (stands_op1 veq anc_unwrap FP HS h v pa fa b A ltac:(inc)) as [r [E [X T]]]; rewrite E; cbn [bind as_tensor]; clear E;
    destruct T as [? ->]; [eexists; reflexivity|]; cbn [bind as_tensor] end end.
Ltac tot A X :=
  match type of A with stands (PT ?a) ?pa ?fa =>
  match goal with |- context [st_sum _ _ _ _ a _ ?b] =>
    let r := fresh "r" in let E := fresh "E" in
    destruct (st_sum_stands FP (PT a) a pa fa P b HS eq_refl A ltac:(inc) ltac:(inP) HnP) as [r [E X]]; rewrite E; cbn [bind as_tensor]; clear E end end.

Lemma set_to_twice : forall (s : assignment) x i j y, set_to (set_to s x i) x j y = set_to s x j y.
Proof. intros s x i j y. unfold set_to. now destruct (String.eqb y x). Qed.
Lemma sum_at : forall (f : assignment -> V) s i, ext f ->
  osum o (map (fun j => f (set_to (set_to s (pname P) i) (pname P) j)) (seq 0 (pn P))) = over_samples o (pn P) (fun j => f (set_to s (pname P) j)).
Proof. intros f s i Hf. unfold over_samples. apply osum_ext. intros j _. apply Hf. intros y. apply set_to_twice. Qed.

Definition samples_of (f : assignment -> V) (s : assignment) (i : nat) : V := f (set_to s (pname P) i).

Theorem wor_spec : forall biased use_baseline x (rc : stensor) ql C nm (sg : S) base, stands (PT rc) ql C -> incl ql FP -> In P ql -> ext C ->
  exists g gp, (@wor_estimator V S veq anc_unwrap o o_exp o_div eps (pname P) biased use_baseline lp pert x rc nm sg base) = (Ok (pair_of (PT g) PNone, sg)) /\
    stands (PT g) gp (fun s => wor_term o o_div biased use_baseline (pn P) (samples_of W s) (fun i => o_exp (samples_of L s i)) (samples_of C s)) /\
    incl gp FP /\ (forall y, In y (N gp) <-> (In y (N pl) \/ In y (N ql)) /\ y <> pname P).
Proof.
  intros biased use_baseline x rc ql C nm sg base Hrc Hql HP HC. unfold wor_estimator.
  replace (existsb (fun p => String.eqb (pname p) (pname P)) (splates rc)) with true.
  2: { symmetry. apply existsb_exists. exists P. split; [|apply String.eqb_refl]. destruct Hrc as [_ [Pm _]]. now apply (Permutation_in _ (Permutation_sym Pm)). }
  pose proof stands_iw as HW. pose proof stands_lp as HL.
  pose proof (stands_num (o_one o)) as H1.
  destruct use_baseline; [destruct biased|].
  - unfold compute_iw_t. cbv zeta. cbn [bind].
    two (o_mul o) HW Hrc HX. tot HX HBS. one o_exp HL Hpr. tot HW HWS. two (o_sub o) HWS HW HY. two (o_add o) HY Hpr HY2. one (o_det o) HY2 HWiS.
    two o_div HBS HWS HB. two (o_sub o) Hrc HB HD. one (o_det o) HD HDD. two o_div HW HWiS HR. two (o_mul o) HR HDD HM. tot HM HG.
    eexists _, _. split; [reflexivity|]. split; [eapply stands_ext; [exact HG|]|].
    + intros s Hs. cbv beta. unfold wor_term, eq11. cbv zeta. unfold over_samples at 1. apply osum_ext. intros i Hi. unfold samples_of.
      rewrite !(sum_at W s i W_ext). rewrite (sum_at (fun s => o_mul o (W s) (C s)) s i); [reflexivity|].
      intros a b Eab. now rewrite (W_ext a b Eab), (HC a b Eab).
    + split; [inc|]. intros y. repeat rewrite without_names || rewrite (u_names anc_unwrap). tauto.
  - unfold compute_iw_t. cbv zeta. cbn [bind].
    two (o_mul o) HW Hrc HX. tot HX HBS. one o_exp HL Hpr. two (o_sub o) H1 Hpr HY. two (o_add o) HY HW HY2. two (o_mul o) Hrc HY2 HY3.
    two (o_sub o) HY3 HBS HD. one (o_det o) HD HDD. two (o_mul o) HW HDD HM. tot HM HG.
    eexists _, _. split; [reflexivity|]. split; [eapply stands_ext; [exact HG|]|].
    + intros s Hs. cbv beta. unfold wor_term, eq10. cbv zeta. unfold over_samples at 1. apply osum_ext. intros i Hi. unfold samples_of.
      rewrite (sum_at (fun s => o_mul o (W s) (C s)) s i); [reflexivity|].
      intros a b Eab. now rewrite (W_ext a b Eab), (HC a b Eab).
    + split; [inc|]. intros y. repeat rewrite without_names || rewrite (u_names anc_unwrap). simpl. tauto.
  - unfold compute_iw_t. cbv zeta. destruct biased; cbn [bind].
    + tot HW HWS. one (o_det o) HWS HWD. two o_div HW HWD HR. one (o_det o) Hrc HD. two (o_mul o) HD HR HM. tot HM HG.
      eexists _, _. split; [reflexivity|]. split; [eapply stands_ext; [exact HG|]|].
      * intros s Hs. cbv beta. unfold wor_term, eq9. cbv zeta. unfold over_samples at 1. apply osum_ext. intros i Hi. unfold samples_of.
        rewrite (sum_at W s i W_ext). reflexivity.
      * split; [inc|]. intros y. repeat rewrite without_names || rewrite (u_names anc_unwrap). tauto.
    + one (o_det o) Hrc HD. two (o_mul o) HD HW HM. tot HM HG.
      eexists _, _. split; [reflexivity|]. split; [eapply stands_ext; [exact HG|]|].
      * intros s Hs. reflexivity.
      * split; [inc|]. intros y. repeat rewrite without_names || rewrite (u_names anc_unwrap). tauto.
Qed.
End WOR.
