(** Calculations with storch tensors that all have the same single plate, of any number of samples: OnePlate.v, where a plate of one sample has no dimension. *)
From Coq Require Import String List Arith Bool ZArith Lia Permutation Ring.
From Verif Require Import Base Torch Plates Wrap OrderPlates Scalar Reduce Graph Surrogate ListLemmas IndexLemmas SpecTensor SpecWrap
  SpecOrder SpecReduce SpecGraph SpecSurrogate WrapProofs AlignProofs CallProofs CallProofs2 OpProofs OrderProofs ReduceProofs ReduceProofs2
  VarianceProofs PlateEqProofs GraphProofs SurrogateProofs SurrogateProofs2 SurrogateProofs3 CallN CallV GetitemProofs RaoBlackwellProofs BroadcastProofs Estimators ArmProofs OnePlate.
Import ListNotations.
Open Scope nat_scope.

(** The dimension of the samples, and the index of a sample in it. *)
Definition dims_of (n : nat) : list nat := if 1 <? n then [n] else [].
Definition pre (n i : nat) : list nat := if 1 <? n then [i] else [].
Lemma pre_valid : forall n i, i < n -> valid (pre n i) (dims_of n).
Proof. intros n i H. unfold pre, dims_of. destruct (1 <? n); repeat constructor. exact H. Qed.
Lemma pre_cell : forall n i e s, i < n -> valid e s -> valid (pre n i ++ e) (dims_of n ++ s).
Proof. intros. apply valid_app; auto. now apply pre_valid. Qed.

Section AnyPlate.
Context {V : Type}.
Variable veq : V -> V -> bool.
Variable anc_unwrap : plate V -> stensor V -> res (stensor V).
Variable o : sops V.
Hypothesis Hring : is_ring o.
Variable o_exp : V -> V.
Notation plate := (plate V).
Notation stensor := (stensor V).
Let Hring' : ring_theory (o_zero o) (o_one o) (o_add o) (o_mul o) (o_sub o) (o_opp o) (@eq V) := Hring.
Add Ring o_ring : Hring'.
Notation op1 := (torch_op1 veq anc_unwrap top_ctx).
Notation op2 := (torch_op2 veq anc_unwrap top_ctx).

Variables (name : string) (n : nat) (w : ten V).
Hypothesis Hn : 1 <= n.
Hypothesis Hw : shape w = [] \/ (1 < n /\ shape w = [n]).
Notation P := (P name n w).
Notation wv := (wv w).

Lemma any_wide : map (@pn V) (wide [P]) = dims_of n.
Proof. unfold wide, dims_of. simpl. destruct (1 <? n); reflexivity. Qed.
Lemma any_wide_length : length (wide [P]) = length (dims_of n).
Proof. rewrite <- any_wide. symmetry. apply map_length. Qed.
Lemma any_sound : sound veq [P].
Proof. apply lone_sound; auto. unfold peq, plate_eq_base, OnePlate.P. cbn [pcls pname pn pweight]. rewrite String.eqb_refl, !Nat.eqb_refl. reflexivity. Qed.
Lemma any_fits : weight_fits [P] P.
Proof. exact Hw. Qed.
Lemma any_closed : closed [P].
Proof. intros p q [<-|[]] []. Qed.
Lemma any_den : forall (a : stensor) i e, splates a = [P] -> forall s, s name = i -> den a s e = el (st a) (pre n i ++ e).
Proof. intros a i e H s <-. unfold den. rewrite H. unfold wide, pre. simpl. destruct (1 <? n); reflexivity. Qed.
Lemma any_range : forall i, i < n -> in_range (at_ i) [P].
Proof. intros i Hi p [<-|[]]. exact Hi. Qed.

Definition holds (v : pyval V) (ev : list nat) (f : nat -> list nat -> V) : Prop :=
  exists a, v = PT a /\ wf a /\ splates a = [P] /\ s_event_shape a = ev /\ forall i e, i < n -> valid e ev -> el (st a) (pre n i ++ e) = f i e.
Lemma holds_ext : forall v ev f g, holds v ev f -> (forall i e, i < n -> valid e ev -> f i e = g i e) -> holds v ev g.
Proof. intros v ev f g [a [-> [W [Pl [E D]]]]] H. exists a. repeat split; auto; try apply W. intros i e Hi He. rewrite D by auto. auto. Qed.
Lemma holds_shape : forall x e f, holds (PT x) e f -> shape (st x) = dims_of n ++ e.
Proof. intros x e f [a [Ea [A1 [A2 [A3 _]]]]]. injection Ea as <-. rewrite (wf_shape x A1), A2, A3, any_wide. reflexivity. Qed.
Lemma holds_dims : forall x e f, holds (PT x) e f -> s_plate_dims x = length (dims_of n).
Proof. intros x e f [a [Ea [A1 [A2 _]]]]. injection Ea as <-. rewrite (wf_dims x A1), A2. apply any_wide_length. Qed.
Lemma any_callable : forall ts : list stensor, Forall wf ts -> (forall t, In t ts -> splates t = [P]) -> callable veq ts.
Proof. intros ts H1 H2. apply (over_callable veq [P] any_sound); auto. intros t Ht. rewrite (H2 t Ht). apply incl_refl. Qed.

Lemma holds_op1 : forall h v ev f base, holds v ev f -> exists r, op1 h v base = Ok r /\ holds r ev (fun i e => h (f i e)).
Proof.
  intros h v ev f base [a [-> [W [Pl [E D]]]]].
  destruct (op1_spec veq anc_unwrap h a base) as [r [R1 [R2 [R3 [R4 [_ [_ [_ R5]]]]]]]].
  { apply any_callable; [auto|]. intros t [<-|[]]. auto. }
  exists (PT r). split; [exact R1|]. exists r. split; [reflexivity|]. split; [exact R4|]. split; [congruence|]. split; [congruence|].
  intros i e Hi He. specialize (R5 (at_ i) e). rewrite Pl, E in R5. specialize (R5 (any_range i Hi) He).
  rewrite (any_den r i e) in R5 by (auto; congruence). rewrite (any_den a i e) in R5 by auto. rewrite R5, D; auto.
Qed.
Lemma holds_same : forall h v x ev f g base, holds v ev f -> holds x ev g -> exists r, op2 h v x base = Ok r /\ holds r ev (fun i e => h (f i e) (g i e)).
Proof.
  intros h v x ev f g base [a [-> [W [Pl [E D]]]]] [b [-> [W' [Pl' [E' D']]]]].
  destruct (op2_spec veq anc_unwrap h a b base ev) as [r [R1 [R2 [R3 [R4 [_ [_ [_ R5]]]]]]]].
  { apply any_callable; [repeat constructor; apply W || apply W'|]. intros t [<-|[<-|[]]]; auto. }
  { unfold s_event_dims. rewrite E, E', Nat.max_id, pad_self. apply broadcasts_self. }
  assert (Er : splates r = [P]).
  { rewrite R2, Pl, Pl'. unfold union. simpl. rewrite String.eqb_refl. reflexivity. }
  exists (PT r). split; [exact R1|]. exists r. split; [reflexivity|]. split; [exact R4|]. split; [exact Er|]. split; [congruence|].
  intros i e Hi He. specialize (R5 (at_ i) e). rewrite Er in R5. specialize (R5 (any_range i Hi) He).
  rewrite (any_den r i e) in R5 by auto. rewrite R5, E, E'. rewrite !proj_valid by auto.
  rewrite (any_den a i) by auto. rewrite (any_den b i) by auto. rewrite D, D'; auto.
Qed.
Lemma holds_scalar : forall h (c : V) v ev f base, holds v ev f -> exists r, op2 h (PRaw (tscalar c)) v base = Ok r /\ holds r ev (fun i e => h c (f i e)).
Proof.
  intros h c v ev f base [a [-> [W [Pl [E D]]]]].
  destruct (op2_scalar veq anc_unwrap h c a base true) as [r [R1 [R2 [R3 [R4 [_ [_ [_ R5]]]]]]]].
  { apply any_callable; [auto|]. intros t [<-|[]]. auto. }
  exists (PT r). split; [exact R1|]. exists r. split; [reflexivity|]. split; [exact R4|]. split; [congruence|]. split; [congruence|].
  intros i e Hi He. specialize (R5 (at_ i) e). rewrite Pl, E in R5. specialize (R5 (any_range i Hi) He).
  rewrite (any_den r i e) in R5 by (auto; congruence). rewrite (any_den a i e) in R5 by auto. rewrite R5, D; auto.
Qed.
Lemma holds_box : forall v ev f base, holds v ev f -> exists r, magic_box veq anc_unwrap o o_exp v base = Ok r /\ holds r ev (fun i e => box o o_exp (f i e)).
Proof.
  intros v ev f base H. unfold magic_box.
  destruct (holds_op1 (o_det o) v ev f base H) as [d [D1 D2]]. rewrite D1. cbn [bind].
  destruct (holds_same (o_sub o) v d ev f _ (base + 2) H D2) as [x [X1 X2]]. rewrite X1. cbn [bind].
  destruct (holds_op1 o_exp x ev _ (base + 4) X2) as [r [R1 R2]]. exists r. split; [exact R1|exact R2].
Qed.
Lemma holds_reduce : forall v ev f base, holds v ev f -> exists a, reduce_plates veq anc_unwrap o top_ctx v [] false base = Ok a /\
  free (PT a) ev (fun e => osum o (map (fun i => o_mul o (wv i) (f i e)) (seq 0 n))).
Proof.
  intros v ev f base [a [-> [W [Pl [E D]]]]].
  destruct (reduce_plates_top veq anc_unwrap o Hring (PT a) [] a (splates a) false base) as [r [k [R1 [R2 [R3 [R4 [R5 R6]]]]]]].
  - constructor.
  - exact W.
  - rewrite Pl. exact any_sound.
  - apply (wf_names a W).
  - rewrite Pl. apply closed_no_gaps, any_closed.
  - rewrite Pl. apply lone_acyclic. reflexivity.
  - rewrite Pl. intros p [<-|[]]. exact any_fits.
  - assert (k = 0) as ->. { apply R5. rewrite Pl. intros p [<-|[]]. unfold padded. simpl. auto. }
    simpl in R3. rewrite app_nil_r in R3. assert (Er : splates r = []) by (rewrite R2, Pl; simpl; now rewrite String.eqb_refl).
    exists r. split; [exact R1|]. exists r. split; [reflexivity|]. split; [exact R4|]. split; [exact Er|]. split; [congruence|].
    intros e He. specialize (R6 (at_ 0) e). rewrite Er, E in R6. specialize (R6 (fun p (H : In p []) => match H with end) He).
    cbn [repeat] in R6. rewrite app_nil_r in R6. unfold den at 1 in R6. rewrite Er in R6. simpl in R6. rewrite R6.
    unfold weighted_sum. rewrite Pl. simpl sum_over. f_equal. apply map_ext_in. intros i Hi. apply in_seq in Hi.
    rewrite (any_den a i e) by (auto; unfold set_to; simpl; now rewrite String.eqb_refl). rewrite D by (auto; lia).
    unfold weight_at, OnePlate.wv. cbn [pweight OnePlate.P pname]. unfold set_to. rewrite String.eqb_refl. ring.
Qed.

(** A call with one tensor, with or without a torch tensor. *)
Notation det := (handle_deterministic veq anc_unwrap top_ctx).
Lemma unwrapped_one : forall (R : stensor -> ten V -> Prop) x l args, Forall2 (unwrapped R) [PT x; PRaw l] args -> exists u, args = [PRaw u; PRaw l] /\ R x u.
Proof.
  intros R x l args F1.
  inversion F1 as [|? x1 ? r1 U1 G1]; subst. inversion G1 as [|? x2 ? r2 U2 G2]; subst. inversion G2; subst.
  inversion U1 as [? u1 L1| | | | | | | |]; subst. inversion U2; subst. eauto.
Qed.
Lemma holds_call1 : forall g x ea eb f h base, holds x ea f ->
  (forall t, shape t = dims_of n ++ ea -> (forall i e, i < n -> valid e ea -> el t (pre n i ++ e) = f i e) ->
     exists t', g t = Ok t' /\ shape t' = dims_of n ++ eb /\ forall i e, i < n -> valid e eb -> el t' (pre n i ++ e) = h i e) ->
  exists y, det (torch_fn1 g) [x] [] [] default_opts base = Ok y /\ holds y eb h.
Proof.
  intros g x ea eb f h base HX H. pose proof HX as HX'. destruct HX' as [a [-> [A1 [A2 [A3 A4]]]]].
  assert (HC : callable veq [a]) by (apply any_callable; [auto|intros t [<-|[]]; auto]).
  pose proof (holds_shape _ _ _ HX) as Sh.
  destruct (prepare_single veq anc_unwrap a default_opts HC eq_refl eq_refl eq_refl eq_refl eq_refl) as [t [T1 [T2 T3]]].
  destruct (H t) as [t' [G1 [G2 G3]]].
  { congruence. } { intros i e Hi He. rewrite <- T3 by (rewrite Sh; now apply pre_cell). auto. }
  destruct (call_done veq anc_unwrap (torch_fn1 g) [PT a] [] [PRaw t] [] [a] default_opts base) as [_ [C _]]; [discriminate|exact HC|reflexivity|exact T1|].
  destruct (C t' eb) as [r [R1 [R2 [R3 [R4 [R5 _]]]]]].
  - simpl. rewrite G1. reflexivity.
  - rewrite all_plates_single, A2, any_wide. exact G2.
  - exists (PT r). split; [exact R1|]. exists r. rewrite all_plates_single, A2 in R2. repeat split; auto; try apply R5. intros i e Hi He. rewrite R3. auto.
Qed.
Lemma holds_call2 : forall fn q x ea eb f h base, holds x ea f ->
  (forall t, shape t = dims_of n ++ ea -> (forall i e, i < n -> valid e ea -> el t (pre n i ++ e) = f i e) ->
     exists t', fn [PRaw t; PRaw q] [] = Ok (PRaw t') /\ shape t' = dims_of n ++ eb /\ forall i e, i < n -> valid e eb -> el t' (pre n i ++ e) = h i e) ->
  exists y, det fn [x; PRaw q] [] [] default_opts base = Ok y /\ holds y eb h.
Proof.
  intros fn q x ea eb f h base HX H. pose proof HX as HX'. destruct HX' as [a [-> [A1 [A2 [A3 A4]]]]].
  assert (HC : callable veq [a]) by (apply any_callable; [auto|intros t [<-|[]]; auto]).
  pose proof (holds_shape _ _ _ HX) as Sh.
  destruct (prepare_args_laid_out veq anc_unwrap [PT a; PRaw q] [] default_opts [a]) as [args' [kwargs' [E0 [F1 F2]]]]; auto.
  { repeat constructor. }
  destruct (unwrapped_one _ _ _ _ F1) as [t [-> L1]]. apply F2_none in F2. subst kwargs'.
  rewrite all_plates_single in L1. change (max_event [a]) with (Nat.max 0 (s_event_dims a)) in L1. simpl Nat.max in L1.
  destruct (laid_out_self _ _ _ A1 L1) as [T2 T3].
  destruct (H t) as [t' [G1 [G2 G3]]].
  { congruence. } { intros i e Hi He. rewrite <- T3 by (rewrite Sh; now apply pre_cell). auto. }
  destruct (call_done veq anc_unwrap fn [PT a; PRaw q] [] [PRaw t; PRaw q] [] [a] default_opts base) as [_ [C _]]; [discriminate|exact HC|reflexivity|exact E0|].
  destruct (C t' eb) as [r [R1 [R2 [R3 [R4 [R5 _]]]]]].
  - exact G1.
  - rewrite all_plates_single, A2, any_wide. exact G2.
  - exists (PT r). split; [exact R1|]. exists r. rewrite all_plates_single, A2 in R2. repeat split; auto; try apply R5. intros i e Hi He. rewrite R3. auto.
Qed.
Lemma holds_sum_event : forall v (es : list nat) f base, es <> [] \/ n = 1 -> holds v es f ->
  exists y, Estimators.sum_event veq anc_unwrap o v base = Ok y /\ holds y [] (fun i _ => osum o (map (f i) (indices es))).
Proof.
  intros v es f base Hes HX. pose proof HX as HX'. destruct HX' as [a [-> [X1 [X2 [X3 X4]]]]]. unfold Estimators.sum_event. cbn [as_tensor bind].
  assert (En : ndim (st a) - s_plate_dims a = length es).
  { unfold ndim. rewrite (wf_shape a X1), app_length, map_length, (wf_dims a X1), X3. lia. }
  cbv zeta. rewrite En. destruct es as [|k0 es0].
  { destruct Hes as [|H1]; [congruence|]. cbn [length seq]. unfold ndim. rewrite (holds_shape _ _ _ HX). unfold dims_of. rewrite H1. cbn [Nat.ltb Nat.leb app length seq].
    unfold sum_dims. apply (holds_call1 _ (PT a) [] [] f _ base HX). intros t Ht H. unfold dims_of in Ht |- *. rewrite H1 in Ht |- *. cbn [Nat.ltb Nat.leb app] in Ht |- *.
    unfold torch_reduce. rewrite Ht. cbn. eexists. split; [reflexivity|]. split; [reflexivity|]. intros i e Hi He. cbn [el].
    rewrite <- (H i []) by (lia || constructor). unfold pre. rewrite H1. reflexivity. }
  set (es := k0 :: es0) in *. clear Hes.
  assert (Ed : (match seq (s_plate_dims a) (length es) with [] => seq 0 (ndim (st a)) | _ => seq (s_plate_dims a) (length es) end) = seq (s_plate_dims a) (length es)) by reflexivity.
  assert (HC : callable veq [a]) by (apply any_callable; [auto|intros t [<-|[]]; auto]).
  destruct (sum_dims_spec veq anc_unwrap o a es 0 base HC) as [r [R1 [R2 [R3 [R4 R5]]]]]; auto.
  { rewrite app_nil_r. exact X3. } { discriminate. }
  exists (PT r). split; [rewrite Ed; exact R1|]. exists r. split; [reflexivity|]. split; [exact R4|]. split; [congruence|]. split; [exact R3|].
  intros i e Hi Hv. inversion Hv; subst e. specialize (R5 (at_ i)). rewrite X2 in R5. specialize (R5 (any_range i Hi)). simpl repeat in R5.
  rewrite (any_den r i) in R5 by (auto; congruence). rewrite R5. f_equal. apply map_ext_in. intros e' He'. apply in_indices in He'.
  rewrite app_nil_r. rewrite (any_den a i) by auto. now apply X4.
Qed.
Lemma holds_over : forall x e f, holds (PT x) e f -> over [P] x.
Proof. intros x e f [a [Ea [H1 [H2 _]]]]. injection Ea as <-. constructor; auto; rewrite H2; [apply incl_refl|apply any_closed]. Qed.
Lemma holds_plates : forall x e f, holds (PT x) e f -> splates x = [P].
Proof. intros x e f [a [Ea [_ [Q _]]]]. injection Ea as <-. exact Q. Qed.
End AnyPlate.
