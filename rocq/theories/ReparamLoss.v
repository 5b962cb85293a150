(** The loss of programs with Reparameterization, GumbelSoftmax or Infer. *)
From Coq Require Import String List Arith Bool ZArith Lia Permutation Ring.
From Verif Require Import Base Torch Plates Wrap OrderPlates Scalar Reduce Graph Sampling Surrogate Estimators TensorFns Arm Relax Reparam ListLemmas IndexLemmas SpecTensor SpecWrap
  SpecOrder SpecReduce SpecGraph SpecSampling SpecSurrogate WrapProofs AlignProofs CallProofs CallProofs2 OpProofs OrderProofs ReduceProofs ReduceProofs2
  VarianceProofs PlateEqProofs GraphProofs SurrogateProofs SurrogateProofs2 SurrogateProofs3 CallN CallV GetitemProofs RaoBlackwellProofs SamplingProofs BroadcastProofs OnePlate ArmProofs AnyPlate RelaxLoss.
Import ListNotations.
Open Scope nat_scope.

Section ReparamLoss.
Context {V : Type}.
Variable veq : V -> V -> bool.
Variable anc_unwrap : plate V -> stensor V -> res (stensor V).
Variable o : sops V.
Hypothesis Hring : is_ring o.
Variable o_exp : V -> V.
Variable recip : nat -> V.
Notation plate := (plate V).
Notation stensor := (stensor V).
Let Hring' : ring_theory (o_zero o) (o_one o) (o_add o) (o_mul o) (o_sub o) (o_opp o) (@eq V) := Hring.
Add Ring o_ring : Hring'.

Variables (name : string) (n : nat) (E : list nat) (F : (list nat -> V) -> V) (mc : nat -> res (ten V)) (val : nat -> list nat -> V).
Hypothesis Hn : 1 <= n.
Hypothesis Hmc : exists t, mc n = Ok t /\ shape t = n :: E /\ forall i e, i < n -> valid e E -> el t (i :: e) = val i e.
Hypothesis HF : forall b b', (forall e, valid e E -> b e = b' e) -> F b = F b'.

Let W : ten V := tscalar (recip n).
Let HW : shape W = [] \/ (1 < n /\ shape W = [n]) := or_introl eq_refl.
Notation P := (P name n W).
Notation hold := (holds name n W).
Notation D := (dims_of n).
Notation pre := (pre n).

Lemma reparam_x : exists x rg, method_sample veq recip name n mc None None [ParT true] [] [] 0 = Ok (x, rg) /\ sid x = 0 /\ hold (PT x) E val.
Proof.
  destruct Hmc as [t [T1 [T2 T3]]].
  destruct (sample_spec veq anc_unwrap recip name n mc None [ParT true] 0 t n E) as [x [X1 [X2 [X3 [X4 [X5 [X6 [_ [_ X7]]]]]]]]]; auto; try lia.
  { exact (callable_nil veq). }
  exists x. eexists. split; [exact X1|]. split; [exact X2|]. exists x. split; [reflexivity|]. split; [exact X3|].
  split; [exact X4|]. split; [exact X6|]. intros i e Hi Hv. rewrite <- T3 by auto.
  specialize (X7 (at_ i) e). rewrite X4 in X7. specialize (X7 ltac:(intros q [<-|[]]; exact Hi)).
  rewrite <- (any_den name n W x i e) with (s := at_ i); auto.
Qed.
Lemma reparam_c : forall x, hold (PT x) E val -> hold (PT (sample_cost 1 F x)) [] (fun i _ => F (val i)).
Proof.
  intros y HY. pose proof (holds_shape name n W _ _ _ HY) as Sy. pose proof (holds_dims name n W _ _ _ HY) as Dy. destruct HY as [a [Ea [Y1 [Y2 [Y3 Y4]]]]]. injection Ea as <-. exists (sample_cost 1 F y). split; [reflexivity|].
  split; [|split; [exact Y2|split; [reflexivity|]]].
  - constructor; unfold sample_cost; cbn [splates st shape s_event_shape s_plate_dims].
    + apply (wf_names y Y1).
    + apply (wf_pos y Y1).
    + rewrite Y2, any_wide, Sy, Dy, firstn_app, firstn_all, Nat.sub_diag. reflexivity.
    + rewrite Dy, Y2. symmetry. apply any_wide_length.
  - intros i e Hi Hv. unfold sample_cost. cbn [st el]. rewrite Dy, firstn_pre. apply HF. intros e' He'. now apply Y4.
Qed.
Lemma pathwise_order : surrogate_order 20 pathwise_graph 1 = Some [0; 1].
Proof. vm_compute. reflexivity. Qed.

(** No term is added: the loss is the average of the costs. *)
Theorem pathwise_loss : forall m lp base, me_pathwise m 0 1 = Ok true ->
  exists t, pathwise_program veq anc_unwrap o o_exp recip name n m lp F mc base = Ok t /\ shape t = [] /\
    el t [] = osum o (map (fun i => o_mul o (recip n) (o_mul o (box o o_exp (o_zero o)) (F (val i)))) (seq 0 n)).
Proof.
  intros m lp base Hm. destruct reparam_x as [x [rg [X1 [X2 X3]]]]. pose proof (reparam_c x X3) as C3.
  unfold pathwise_program. rewrite X1. cbn [bind]. set (nodes := pathwise_tensors name n m lp F x).
  unfold backward_value, surrogate_loss. cbn [surrogate_costs]. unfold surrogate_cost. rewrite pathwise_order. cbn [bind foldM].
  unfold add_parent. cbn [nodes pathwise_tensors nd_sto]. rewrite Hm. cbn [bind nd_t nd_name].
  change (nd_t (nodes 1)) with (sample_cost 1 F x).
  change (magic_box veq anc_unwrap o o_exp (PRaw (tscalar (o_zero o))) (base + 10)) with (Ok (PRaw (tscalar (box o o_exp (o_zero o))))). cbn [bind].
  destruct (holds_scalar veq anc_unwrap name n W Hn (o_mul o) (box o o_exp (o_zero o)) _ _ _ (base + 20) C3) as [m' [M1 M2]]. rewrite M1. cbn [bind].
  destruct (holds_reduce veq anc_unwrap o Hring name n W Hn HW _ _ _ (base + 30) M2) as [rr [R3' R4']]. rewrite R3'. cbn [bind].
  destruct (free_scalar veq anc_unwrap (o_add o) (o_zero o) (PT rr) _ _ (base + 28) R4') as [z [Z1 Z2]]. rewrite Z1. cbn [bind].
  destruct (free_total veq anc_unwrap o 2 (le_n 2) z [] _ base (base + 2) Z2) as [s [S1 [t [T1 T2]]]]. rewrite S1. cbn [bind]. rewrite T1. cbn [bind].
  destruct T2 as [tt' [-> [T3 [T4 [T5 T6]]]]]. cbn [as_tensor bind]. exists (st tt'). split; [reflexivity|].
  split; [rewrite (wf_shape _ T3), T4, T5; reflexivity|]. rewrite T6 by constructor. cbn [indices map osum fold_right].
  transitivity (osum o (map (fun i => o_mul o (wv W i) (o_mul o (box o o_exp (o_zero o)) (F (val i)))) (seq 0 n))); [ring|reflexivity].
Qed.

(** Infer: the score function is added. *)
Variable L : list nat -> V -> V.
Definition lsum (i : nat) : V := osum o (map (fun e => L e (val i e)) (indices E)).
Lemma infer_estimate : forall x cost nm k base, hold (PT x) E val ->
  exists g, score_estimator veq anc_unwrap o o_exp None (mkSample x name k (components_log_prob veq anc_unwrap L)) cost nm tt base = Ok (Some g, None, tt) /\ hold g [] (fun i _ => lsum i).
Proof.
  intros x cost nm k base HX. unfold score_estimator. cbn [sm_log_prob sm_t]. unfold components_log_prob. rewrite (holds_dims name n W _ _ _ HX).
  destruct (holds_call1 veq anc_unwrap name n W Hn (fun t => Ok (mkten (shape t) (fun i => L (skipn (length D) i) (el t i)))) (PT x) E E val (fun i e => L e (val i e)) base HX) as [lp [L1 L2]].
  { intros t Ht H. eexists. split; [reflexivity|]. split; [exact Ht|]. intros i e Hi He. cbn [el]. rewrite H by auto. f_equal. unfold dims_of, AnyPlate.pre. destruct (1 <? n); reflexivity. }
  rewrite L1. cbn [bind]. pose proof L2 as L3. destruct L3 as [a [-> [A1 [A2 [A3 A4]]]]].
  assert (En : val_ndim (PT a) - length D = length E /\ (length D <? val_ndim (PT a)) = negb (length E =? 0)).
  { cbn [val_ndim]. unfold ndim. rewrite (holds_shape name n W _ _ _ L2), app_length. split; [lia|]. destruct (length E); [apply Nat.ltb_ge; simpl; lia|apply Nat.ltb_lt; simpl; lia]. }
  destruct En as [E1 E2]. cbv zeta. rewrite E1, E2. clear E1 E2. destruct E as [|k0 es0] eqn:EE.
  { cbn [length Nat.eqb negb bind]. exists (PT a). split; [reflexivity|]. eapply holds_ext; [exact L2|]. intros i e Hi He. inversion He; subst e. unfold lsum. rewrite EE. cbn [indices map osum fold_right]. ring. }
  cbn [length Nat.eqb negb]. change (S (length es0)) with (length (k0 :: es0)).
  assert (HC : callable veq [a]) by (apply (any_callable veq anc_unwrap name n W Hn); [auto|intros t [<-|[]]; auto]).
  destruct (sum_dims_spec veq anc_unwrap o a (k0 :: es0) 0 (base + 1) HC) as [r [R1 [R2 [R3 [R4 R5]]]]].
  { rewrite app_nil_r. exact A3. } { discriminate. }
  assert (Ed : s_plate_dims a = length D) by (rewrite <- (holds_dims name n W _ _ _ L2); reflexivity). rewrite Ed in R1. rewrite R1. cbn [bind].
  exists (PT r). split; [reflexivity|]. exists r. split; [reflexivity|]. split; [exact R4|]. split; [congruence|]. split; [exact R3|].
  intros i e Hi Hv. inversion Hv; subst e. specialize (R5 (at_ i)). rewrite A2 in R5. specialize (R5 (any_range name n W i Hi)). simpl repeat in R5.
  rewrite (any_den name n W r i) in R5 by (auto; congruence). rewrite R5. unfold lsum. rewrite EE. f_equal. apply map_ext_in. intros e' He'. apply in_indices in He'.
  rewrite app_nil_r. rewrite (any_den name n W a i) by auto. now apply A4.
Qed.

Theorem infer_loss : forall base,
  exists t, pathwise_program veq anc_unwrap o o_exp recip name n (infer_method veq anc_unwrap o o_exp) (components_log_prob veq anc_unwrap L) F mc base = Ok t /\ shape t = [] /\
    el t [] = osum o (map (fun i => o_mul o (recip n) (o_mul o (box o o_exp (lsum i)) (F (val i)))) (seq 0 n)).
Proof.
  intros base. destruct reparam_x as [x [rg [X1 [X2 X3]]]]. pose proof (reparam_c x X3) as C3.
  unfold pathwise_program. rewrite X1. cbn [bind]. set (nodes := pathwise_tensors name n (infer_method veq anc_unwrap o o_exp) (components_log_prob veq anc_unwrap L) F x).
  unfold backward_value, surrogate_loss. cbn [surrogate_costs]. unfold surrogate_cost. rewrite pathwise_order. cbn [bind foldM].
  pose proof (holds_over name n W _ _ _ X3) as Ox. pose proof (holds_over name n W _ _ _ C3) as Oc. pose proof (holds_plates name n W _ _ _ X3) as Px. pose proof (holds_plates name n W _ _ _ C3) as Pc.
  unfold add_parent. cbn [nodes pathwise_tensors nd_sto]. change (me_pathwise (infer_method veq anc_unwrap o o_exp) 0 1) with (Ok false). cbn [bind nd_t nd_name].
  change (nd_t (nodes 1)) with (sample_cost 1 F x). change (nd_t (nodes 0)) with x.
  destruct (averaged_spec veq anc_unwrap o Hring [P] (any_sound veq anc_unwrap name n W Hn) ltac:(apply lone_acyclic; reflexivity) ltac:(intros p [<-|[]]; apply (any_fits name n W HW))
    (sample_cost 1 F x) x base Oc Ox eq_refl) as [red [rc [R1 [R2 [R3 [R4 [R5 [R6 R7]]]]]]]].
  { rewrite Pc. intros p Ip. left. intros q Hq. apply filter_In in Ip. destruct Ip as [[<-|[]] _]. destruct Hq. }
  destruct R7 as [-> ->]. { unfold foreign. rewrite Px, Pc. apply no_foreign. }
  rewrite R1. cbn [bind]. rewrite R2. cbn [bind].
  destruct (new_parent_spec veq anc_unwrap [P] (any_sound veq anc_unwrap name n W Hn) x (sample_cost 1 F x) base Ox R3 R4 R5) as [np [N1 [N2 _]]]. rewrite N1. cbn [bind].
  assert (Hnp : hold (PT np) E val).
  { destruct X3 as [? [Ea [Q1 [Q2 [Q3 Q4]]]]]. injection Ea as <-. destruct N2 as [K1 K2 K3 K4]. rewrite Px in K2. apply Permutation_length_1_inv in K2.
    exists np. split; [reflexivity|]. split; [exact K1|]. split; [exact K2|]. split; [congruence|]. intros i e Hi Hv.
    specialize (K4 (at_ i) e). rewrite Px, Q3 in K4. specialize (K4 (any_range name n W i Hi) Hv).
    rewrite !(any_den name n W _ i e) in K4 by auto. rewrite K4. auto. }
  cbn [me_estimator infer_method].
  match goal with |- context [score_estimator veq anc_unwrap o o_exp None (mkSample np name ?k _) _ ?nm tt base] =>
    destruct (infer_estimate np (sample_cost 1 F x) nm k base Hnp) as [g [G1 G2]]; rewrite G1 end. cbn [bind].
  unfold add_terms.
  destruct (holds_scalar veq anc_unwrap name n W Hn (o_add o) (o_zero o) g _ _ base G2) as [L' [L1 L2]]. rewrite L1. cbn [bind].
  destruct (holds_box veq anc_unwrap o o_exp name n W Hn _ _ _ (base + 10) L2) as [b [B1 B2]]. rewrite B1. cbn [bind].
  destruct (holds_same veq anc_unwrap name n W Hn (o_mul o) b (PT (sample_cost 1 F x)) _ _ _ (base + 20) B2 C3) as [m [M1 M2]]. rewrite M1. cbn [bind].
  destruct (holds_reduce veq anc_unwrap o Hring name n W Hn HW _ _ _ (base + 30) M2) as [rr [R3' R4']]. rewrite R3'. cbn [bind].
  destruct (free_scalar veq anc_unwrap (o_add o) (o_zero o) (PT rr) _ _ (base + 28) R4') as [z [Z1 Z2]]. rewrite Z1. cbn [bind].
  destruct (free_total veq anc_unwrap o 2 (le_n 2) z [] _ base (base + 2) Z2) as [s [S1 [t [T1 T2]]]]. rewrite S1. cbn [bind]. rewrite T1. cbn [bind].
  destruct T2 as [tt' [-> [T3 [T4 [T5 T6]]]]]. cbn [as_tensor bind]. exists (st tt'). split; [reflexivity|].
  split; [rewrite (wf_shape _ T3), T4, T5; reflexivity|]. rewrite T6 by constructor. cbn [indices map osum fold_right].
  transitivity (osum o (map (fun i => o_mul o (wv W i) (o_mul o (box o o_exp (o_add o (o_zero o) (lsum i))) (F (val i)))) (seq 0 n))); [ring|].
  f_equal. apply map_ext. intros i. change (wv W i) with (recip n). replace (o_add o (o_zero o) (lsum i)) with (lsum i) by ring. reflexivity.
Qed.
End ReparamLoss.
