(** The loss of a program with DisARM: any number of pairs of samples, any event shape with at least one dimension. *)
From Coq Require Import String List Arith Bool ZArith Lia Permutation Ring.
From Verif Require Import Base Torch Plates Wrap OrderPlates Scalar Reduce Graph Sampling Surrogate Estimators TensorFns Arm ListLemmas IndexLemmas SpecTensor SpecWrap
  SpecOrder SpecReduce SpecGraph SpecSampling SpecSurrogate WrapProofs AlignProofs CallProofs CallProofs2 OpProofs OrderProofs ReduceProofs ReduceProofs2
  VarianceProofs PlateEqProofs GraphProofs SurrogateProofs SurrogateProofs2 SurrogateProofs3 CallN CallV GetitemProofs RaoBlackwellProofs SamplingProofs BroadcastProofs OnePlate ArmProofs.
Import ListNotations.
Open Scope nat_scope.

Lemma ones_zero : forall k e, valid e (repeat 1 k) -> e = repeat 0 k.
Proof. induction k as [|m IH]; intros e Hv; inversion Hv; subst; simpl; auto. f_equal; [lia|auto]. Qed.
Lemma indices_ones : forall k, indices (repeat 1 k) = [repeat 0 k].
Proof. induction k as [|k IH]; [reflexivity|]. cbn [repeat indices seq flat_map]. rewrite IH. reflexivity. Qed.

Section Disarm.
Context {V : Type}.
Variable veq : V -> V -> bool.
Variable anc_unwrap : plate V -> stensor V -> res (stensor V).
Variable o : sops V.
Hypothesis Hring : is_ring o.
Variable o_exp : V -> V.
Variable recip : nat -> V.
Variable half : V.
Variable gt0 : V -> bool.
Variable dw : V -> V -> V -> V.
Notation plate := (plate V).
Notation stensor := (stensor V).
Let Hring' : ring_theory (o_zero o) (o_one o) (o_add o) (o_mul o) (o_sub o) (o_opp o) (@eq V) := Hring.
Add Ring o_ring : Hring'.

Variables (name : string) (n : nat) (ev : list nat) (F : (list nat -> V) -> V) (eps : nat -> ten V) (logits : ten V).
Hypothesis Hn : 1 <= n.
Hypothesis Hev : ev <> [].
Hypothesis He : shape (eps n) = n :: ev.
Hypothesis Hl : shape logits = ev.
Hypothesis HF : forall b b', (forall e, valid e ev -> b e = b' e) -> F b = F b'.

Let W : ten V := tscalar (recip (2 * n)).
Let HW : shape W = [] \/ shape W = [2 * n] := or_introl eq_refl.
Notation P := (P name (2 * n) W).
Notation hold := (hold name (2 * n) W).
Let Hn2 : 2 <= 2 * n := Hn2 n Hn.
Notation bval := (bval o gt0 n eps logits).
Notation cval := (cval o gt0 n F eps logits).

Lemma disarm_x : exists x b, method_sample veq recip name n (fun k => sample_disarm o gt0 (eps k) logits) None None [ParT true] [] [] 0 = Ok (x, b) /\ hold (PT x) ev bval.
Proof.
  destruct (sample_arm_spec o n ev eps logits Hn He Hl) as [t [T1 [T2 T3]]].
  destruct (sample_spec veq anc_unwrap recip name n (fun k => sample_disarm o gt0 (eps k) logits) None [ParT true] 0 (arm_post o gt0 t) (2 * n) ev)
    as [x [X1 [X2 [X3 [X4 [X5 [X6 [_ [_ X7]]]]]]]]]; auto; try lia.
  { apply callable_nil. } { unfold sample_disarm. rewrite T1. reflexivity. }
  exists x, true. split; [exact X1|]. exists x. split; [reflexivity|]. split; [exact X3|].
  split; [exact X4|]. split; [exact X6|]. intros i e Hi Hv. unfold ArmProofs.bval. rewrite <- T3 by auto.
  specialize (X7 (at_ i) e). rewrite X4 in X7. specialize (X7 ltac:(intros q [<-|[]]; exact Hi)).
  rewrite <- (den_P name (2 * n) W Hn2 x i e) with (s := at_ i); auto.
Qed.

Lemma disarm_c : forall y, hold (PT y) ev bval -> hold (PT (row_cost 1 F y)) [] (fun i _ => cval i).
Proof.
  intros y [a [Ea [Y1 [Y2 [Y3 Y4]]]]]. injection Ea as <-. exists (row_cost 1 F y). split; [reflexivity|].
  pose proof (wf_shape y Y1) as Sy. rewrite Y2, (P_wide name (2 * n) W Hn2), Y3 in Sy. cbn [map app] in Sy. change (pn P) with (2 * n) in Sy.
  split; [|split; [exact Y2|split; [reflexivity|]]].
  - constructor; unfold row_cost; cbn [splates st shape s_event_shape s_plate_dims].
    + apply (wf_names y Y1).
    + apply (wf_pos y Y1).
    + rewrite Y2, (P_wide name (2 * n) W Hn2), Sy. reflexivity.
    + rewrite Y2, (P_wide name (2 * n) W Hn2). reflexivity.
  - intros i e Hi Hv. unfold row_cost. cbn [st el]. simpl nth. apply HF. intros e' He'. now apply Y4.
Qed.

(** comp_estimator. *)
Definition mval (i : nat) (e : list nat) : V := if i <? n then o_mul o (o_det o (dw (bval i e) (bval (n + i) e) (el logits e))) (el logits e) else o_zero o.
Definition other_val (i : nat) : V := if i <? n then cval (n + i) else o_zero o.

Lemma none_front : forall {A} (t : ten A) sh hi lo, shape t = 2 * n :: sh -> lo + n = hi -> hi <= 2 * n ->
  none_get 0 lo hi t = Ok (mkten (n :: sh) (fun i => el t (upd 0 (lo + nth 0 i 0) i))).
Proof. intros A t sh hi lo Ht E H. unfold none_get. rewrite (slice_front n Hn t sh hi lo Ht E H). reflexivity. Qed.
Lemma none_set_front : forall (t u : ten V) sh, shape t = 2 * n :: sh -> shape u = n :: sh -> exists r, none_set 0 0 n t u = Ok r /\ shape r = 2 * n :: sh /\
  forall i e, i < 2 * n -> valid e sh -> el r (i :: e) = if i <? n then el u (i :: e) else el t (i :: e).
Proof.
  intros t u sh Ht Hu. unfold none_set, slice_shape. rewrite Ht. cbn [nth_error bind upd repeat app]. replace (Nat.min n (2 * n) - 0) with n by lia.
  unfold expand at 1. rewrite Hu. replace (expandable_rev (rev (n :: sh)) (rev (n :: sh))) with true by (symmetry; apply expandable_rev_refl).
  cbn [bind].
  match goal with |- context [slice_set 0 0 n t ?u'] => destruct (slice_set_front n Hn t u' sh Ht eq_refl) as [r [R1 [R2 R3]]] end.
  exists r. split; [exact R1|]. split; [exact R2|]. intros i e Hi Hv. rewrite R3 by auto. destruct (Nat.ltb_spec i n) as [H|H]; [|reflexivity].
  cbn [el]. rewrite bidx_valid by (constructor; auto). reflexivity.
Qed.

Lemma disarm_comp_spec : forall (t c : ten V), shape t = 2 * n :: ev -> shape c = 2 * n :: repeat 1 (length ev) ->
  (forall i e, i < 2 * n -> valid e ev -> el t (i :: e) = bval i e) ->
  (forall i, i < 2 * n -> el c (i :: repeat 0 (length ev)) = cval i) ->
  exists lp b, disarm_comp o dw 0 n [PRaw t; PRaw c; PRaw logits] [] = Ok (PTuple (map (@PRaw V) [lp; b])) /\
    shape lp = 2 * n :: ev /\ shape b = 2 * n :: repeat 1 (length ev) /\
    (forall i e, i < 2 * n -> valid e ev -> el lp (i :: e) = mval i e) /\
    (forall i, i < 2 * n -> el b (i :: repeat 0 (length ev)) = other_val i).
Proof.
  intros t c Ht Hc Xt Xc. unfold disarm_comp.
  rewrite (none_front c _ (2 * n) n Hc) by lia. cbn [bind]. rewrite (none_front t ev n 0 Ht) by lia. cbn [bind]. rewrite (none_front t ev (2 * n) n Ht) by lia. cbn [bind].
  unfold elementwise2 at 1. cbn [shape]. rewrite bshape_same. cbn [bind].
  unfold elementwise2 at 1. cbn [shape]. rewrite Hl, bshape_front. cbn [bind].
  unfold elementwise2 at 1. unfold tmap. cbn [shape]. rewrite Hl, bshape_front. cbn [bind].
  match goal with |- context [none_set 0 0 n (zeros_like o t) ?u] => destruct (none_set_front (zeros_like o t) u ev Ht eq_refl) as [lp [L1 [L2 L3]]] end.
  rewrite L1. cbn [bind].
  match goal with |- context [none_set 0 0 n (zeros_like o c) ?u] => destruct (none_set_front (zeros_like o c) u (repeat 1 (length ev)) Hc eq_refl) as [b [B1 [B2 B3]]] end.
  rewrite B1. cbn [bind]. exists lp, b. split; [reflexivity|]. split; [exact L2|]. split; [exact B2|]. split.
  - intros i e Hi Hv. rewrite L3 by auto. unfold mval. destruct (Nat.ltb_spec i n) as [H|H]; [|reflexivity]. cbn [el].
    assert (Hv' : valid (i :: e) (n :: ev)) by (constructor; auto). rewrite !(bidx_front i e ev Hv). rewrite !(bidx_valid _ _ Hv'). cbn [el fst snd nth upd]. simpl upd. rewrite !Xt by (auto; lia). rewrite ?(bidx_front i e ev Hv). reflexivity.
  - intros i Hi. assert (Hz : valid (repeat 0 (length ev)) (repeat 1 (length ev))) by apply valid_zeros. rewrite B3 by auto. unfold other_val.
    destruct (Nat.ltb_spec i n) as [H|H]; [|reflexivity]. cbn [el nth]. simpl upd. rewrite Xc by lia. reflexivity.
Qed.

Lemma hold_sum_event : forall v f base, hold v ev f -> exists r, sum_event veq anc_unwrap o v base = Ok r /\ hold r [] (fun i _ => osum o (map (f i) (indices ev))).
Proof.
  intros v f base [a [-> [X1 [X2 [X3 X4]]]]]. unfold sum_event. cbn [as_tensor bind].
  assert (En : ndim (st a) - s_plate_dims a = length ev).
  { unfold ndim. rewrite (wf_shape a X1), app_length, map_length, (wf_dims a X1), X3. lia. }
  cbv zeta. rewrite En.
  assert (Ed : (match seq (s_plate_dims a) (length ev) with [] => seq 0 (ndim (st a)) | _ => seq (s_plate_dims a) (length ev) end) = seq (s_plate_dims a) (length ev)).
  { destruct ev; [congruence|]. reflexivity. }
  assert (HC : callable veq [a]) by (apply (P_callable veq anc_unwrap name (2 * n) W Hn2); [auto|intros t [<-|[]]; auto]).
  destruct (sum_dims_spec veq anc_unwrap o a ev 0 base HC) as [r [R1 [R2 [R3 [R4 R5]]]]]; auto.
  { rewrite app_nil_r. exact X3. }
  exists (PT r). split; [rewrite Ed; exact R1|]. exists r. split; [reflexivity|]. split; [exact R4|]. split; [congruence|]. split; [exact R3|].
  intros i e Hi Hv. inversion Hv; subst e. specialize (R5 (at_ i)). rewrite X2 in R5. specialize (R5 (at_range name (2 * n) W i Hi)). simpl repeat in R5.
  rewrite (den_P name (2 * n) W Hn2 r i) in R5 by (auto; congruence). rewrite R5. f_equal. apply map_ext_in. intros e' He'. apply in_indices in He'.
  rewrite app_nil_r. rewrite (den_P name (2 * n) W Hn2 a i) by auto. now apply X4.
Qed.

(** The estimator. *)
Definition gval (i : nat) : V := o_mul o half (osum o (map (mval i) (indices ev))).
Lemma disarm_compute : forall x c base, hold (PT x) ev bval -> hold (PT c) [] (fun i _ => cval i) -> forall nm k lp0 (sg : unit),
  exists m cv, me_estimator (method_of (fun _ _ => Ok false) (disarm_estimator veq anc_unwrap o half dw (PRaw logits))) (mkSample x name k lp0) c nm sg base
     = (do s <- sum_event veq anc_unwrap o m (base + 4); do g <- torch_op2 veq anc_unwrap top_ctx (o_mul o) (PRaw (tscalar half)) s (base + 6);
        do (a, b) <- unpack2 (pair_of g cv); Ok (a, b, sg)) /\
     hold m ev mval /\ hold cv (repeat 1 (length ev)) (fun i _ => other_val i).
Proof.
  intros x c base [a [Ea [X1 [X2 [X3 X4]]]]] [a' [Ea' [C1 [C2 [C3 C4]]]]] nm k lp0 sg. injection Ea as <-. injection Ea' as <-.
  cbn [me_estimator method_of]. unfold disarm_estimator. cbn [sm_t sm_name]. unfold get_plate. rewrite X2. cbn [find_plate]. change (pname P) with name. rewrite String.eqb_refl. cbn [bind].
  unfold get_plate_dim_index, multi_dim_plates. rewrite X2. change (mdp [P]) with (wide [P]). rewrite (P_wide name (2 * n) W Hn2). cbn [find_dim]. change (pname P) with name. rewrite String.eqb_refl. cbn [bind].
  change (pn P) with (2 * n). rewrite (half_n n).
  assert (HC : callable veq [x; c]).
  { apply (P_callable veq anc_unwrap name (2 * n) W Hn2); [repeat constructor; apply X1 || apply C1|]. intros t [<-|[<-|[]]]; auto. }
  assert (AP : all_plates [x; c] = [P]).
  { unfold all_plates. cbn [fold_left]. rewrite X2, C2. unfold union at 2. simpl. unfold union. simpl. rewrite String.eqb_refl. reflexivity. }
  assert (ME : max_event [x; c] = length ev).
  { unfold max_event. simpl. unfold s_event_dims. rewrite X3, C3. simpl. lia. }
  destruct (prepare_args_laid_out veq anc_unwrap [PT x; PT c; PRaw logits] [] default_opts [x; c]) as [args' [kwargs' [E [F1 F2]]]]; auto.
  { repeat constructor. }
  destruct (unwrapped_ttr _ _ _ _ _ F1) as [u1 [u2 [-> [L1 L2]]]]. apply F2_none in F2. subst kwargs'.
  rewrite AP, ME, (P_wide name (2 * n) W Hn2) in L1, L2. destruct L1 as [S1 Y1], L2 as [S2 Y2]. simpl o_expand in *.
  assert (Hx : forall q, has (splates x) (pname P) || q = true) by (intros q; rewrite X2; simpl; now rewrite String.eqb_refl).
  assert (Hcc : forall q, has (splates c) (pname P) || q = true) by (intros q; rewrite C2; simpl; now rewrite String.eqb_refl).
  simpl map in S1, S2. rewrite Hx in S1. rewrite Hcc in S2. rewrite X3 in S1, Y1. rewrite C3 in S2, Y2.
  rewrite pad_self in S1, Y1. unfold pad in S2, Y2. cbn [length app] in S2, Y2. rewrite Nat.sub_0_r in S2, Y2. change (pn P) with (2 * n) in S1, S2. cbn [app] in S1, S2.
  destruct (disarm_comp_spec u1 u2 S1 S2) as [lp [b [A1 [A2 [A3 [A4 A5]]]]]].
  { intros i e Hi Hv. specialize (Y1 (at_ i) e (at_range name (2 * n) W i Hi) Hv). simpl in Y1. rewrite Hx in Y1. unfold at_ at 1 in Y1. cbn [app] in Y1.
    rewrite Y1. rewrite firstn_all2 by (unfold s_event_dims; rewrite X3, (valid_length _ _ Hv); lia). rewrite (den_P name (2 * n) W Hn2 x i) by auto. auto. }
  { intros i Hi. specialize (Y2 (at_ i) (repeat 0 (length ev)) (at_range name (2 * n) W i Hi) (valid_zeros _)). simpl in Y2. rewrite Hcc in Y2. unfold at_ at 1 in Y2. cbn [app] in Y2.
    rewrite Y2. unfold s_event_dims. rewrite C3. simpl firstn. rewrite (den_P name (2 * n) W Hn2 c i) by auto. apply C4; auto. constructor. }
  destruct (call_done veq anc_unwrap (disarm_comp o dw 0 n) [PT x; PT c; PRaw logits] [] [PRaw u1; PRaw u2; PRaw logits] [] [x; c] default_opts base)
    as [_ [_ [_ C]]]; [discriminate|exact HC|reflexivity|exact E|].
  destruct (C [lp; b] A1 [ev; repeat 1 (length ev)]) as [rs [R1 R2]].
  { rewrite AP, (P_wide name (2 * n) W Hn2). repeat constructor; simpl; auto. }
  destruct (F2_two _ _ _ _ R2) as [r1 [r2 [-> [M1 M2]]]].
  rewrite R1. cbn [bind map unpair].
  unfold made in M1, M2. cbn [fst snd] in M1, M2. destruct M1 as [M1 [M1' [M1e [M1w _]]]]. destruct M2 as [M2 [M2' [M2e [M2w _]]]]. rewrite AP in M1, M2.
  assert (G : hold (PT r1) ev mval).
  { exists r1. split; [reflexivity|]. split; [exact M1w|]. split; [exact M1|]. split; [exact M1e|]. rewrite M1'. exact A4. }
  assert (B : hold (PT r2) (repeat 1 (length ev)) (fun i _ => other_val i)).
  { exists r2. split; [reflexivity|]. split; [exact M2w|]. split; [exact M2|]. split; [exact M2e|]. rewrite M2'. intros i e Hi Hv. rewrite (ones_zero _ _ Hv). auto. }
  exists (PT r1), (PT r2). split; [|split; [exact G|exact B]].
  destruct (sum_event veq anc_unwrap o (PT r1) (base + 4)) as [m|]; [|reflexivity]. cbn [bind].
  destruct (torch_op2 veq anc_unwrap top_ctx (o_mul o) (PRaw (tscalar half)) m (base + 6)) as [g|]; reflexivity.
Qed.
Lemma disarm_estimate : forall x c base, hold (PT x) ev bval -> hold (PT c) [] (fun i _ => cval i) -> forall nm k lp0 (sg : unit),
  exists g cv, me_estimator (method_of (fun _ _ => Ok false) (disarm_estimator veq anc_unwrap o half dw (PRaw logits))) (mkSample x name k lp0) c nm sg base
     = Ok (Some g, Some cv, sg) /\ hold g [] (fun i _ => gval i) /\ hold cv (repeat 1 (length ev)) (fun i _ => other_val i).
Proof.
  intros x c base X C nm k lp0 sg. destruct (disarm_compute x c base X C nm k lp0 sg) as [m0 [cv [E [G B]]]]. rewrite E.
  destruct (hold_sum_event m0 mval (base + 4) G) as [m [B1 B2]]. rewrite B1. cbn [bind].
  destruct (hold_scalar veq anc_unwrap name (2 * n) W Hn2 (o_mul o) half m _ _ (base + 6) B2) as [d [D1 D2]]. rewrite D1. cbn [bind].
  destruct D2 as [a [-> D2]]. exists (PT a), cv. destruct B as [b [-> B]]. split; [reflexivity|]. split; [exists a; split; auto|exists b; split; auto].
Qed.

Lemma disarm_order : surrogate_order 20 disarm_graph 1 = Some [0; 1].
Proof. vm_compute. reflexivity. Qed.
Lemma hold_over : forall x e f, hold (PT x) e f -> over [P] x.
Proof. intros x e f [a [Ea [H1 [H2 _]]]]. injection Ea as <-. constructor; auto; rewrite H2; [apply incl_refl|apply P_closed]. Qed.

(** With scalar variables there are no event dimensions, and the sum is over the plate. *)
Lemma scalar_sum : forall v f base, hold v [] f -> sum_event veq anc_unwrap o v base = Err ValueError.
Proof.
  intros v f base [a [-> [X1 [X2 [X3 X4]]]]]. unfold sum_event. cbn [as_tensor bind].
  assert (Sh : shape (st a) = [2 * n]) by (rewrite (wf_shape a X1), X2, X3, (P_wide name (2 * n) W Hn2); reflexivity).
  assert (Pd : s_plate_dims a = 1) by (rewrite (wf_dims a X1), X2, (P_wide name (2 * n) W Hn2); reflexivity).
  cbv zeta. unfold ndim. rewrite Sh, Pd. cbn [length Nat.sub seq map]. unfold sum_dims.
  assert (HC : callable veq [a]) by (apply (P_callable veq anc_unwrap name (2 * n) W Hn2); [auto|intros t [<-|[]]; auto]).
  destruct (prepare_single veq anc_unwrap a default_opts HC) as [u [E [Hs _]]]; auto.
  destruct (call_done veq anc_unwrap (torch_fn1 (torch_reduce (osum o) [Z.of_nat 0])) _ _ _ _ [a] default_opts base ltac:(discriminate) HC eq_refl E) as [_ [_ [K _]]].
  assert (R : exists t, torch_reduce (osum o) [Z.of_nat 0] u = Ok t /\ shape t = []).
  { unfold torch_reduce, ndim. rewrite <- Hs, Sh. cbn [length mapM]. change (Reduce.norm_dim 1 (Z.of_nat 0)) with (@Ok nat 0). cbn [bind]. unfold reduce_dims, ndim. rewrite <- Hs, Sh. simpl. eauto. }
  destruct R as [t [R1 R2]]. apply (K t).
  - unfold torch_fn1. rewrite R1. reflexivity.
  - intros evc E'. rewrite R2, all_plates_single, X2, (P_wide name (2 * n) W Hn2) in E'. discriminate.
Qed.
Lemma disarm_scalar : ev = [] -> forall base, disarm_program veq anc_unwrap o o_exp recip half gt0 dw name n F eps logits base = Err ValueError.
Proof.
  intros Hev0 base. destruct disarm_x as [x [rg [X1 X3]]]. pose proof (disarm_c x X3) as C3.
  unfold disarm_program. rewrite X1. cbn [bind]. set (nodes := disarm_tensors veq anc_unwrap o half dw name F logits x).
  unfold backward_value, surrogate_loss. cbn [surrogate_costs]. unfold surrogate_cost. rewrite disarm_order. cbn [bind foldM].
  pose proof (hold_over _ _ _ X3) as Ox. pose proof (hold_over _ _ _ C3) as Oc.
  assert (Px : splates x = [P]) by (destruct X3 as [? [Ea [_ [Q _]]]]; injection Ea as <-; exact Q).
  assert (Pc : splates (row_cost 1 F x) = [P]) by (destruct C3 as [? [Ea [_ [Q _]]]]; injection Ea as <-; exact Q).
  unfold add_parent. cbn [nodes disarm_tensors nd_sto]. cbn [me_pathwise method_of bind nd_t nd_name].
  change (nd_t (nodes 1)) with (row_cost 1 F x). change (nd_t (nodes 0)) with x.
  destruct (averaged_spec veq anc_unwrap o Hring [P] (P_sound veq anc_unwrap name (2 * n) W Hn2) ltac:(apply lone_acyclic; reflexivity) ltac:(intros p [<-|[]]; apply (P_fits name (2 * n) W Hn2 HW))
    (row_cost 1 F x) x base Oc Ox eq_refl) as [red [rc [R1 [R2 [R3 [R4 [R5 [R6 R7]]]]]]]].
  { rewrite Pc, (P_wide name (2 * n) W Hn2). apply closed_no_gaps, P_closed. }
  destruct R7 as [-> ->]. { unfold foreign. rewrite Px, Pc, !(P_wide name (2 * n) W Hn2). simpl. now rewrite String.eqb_refl. }
  rewrite R1. cbn [bind]. rewrite R2. cbn [bind].
  destruct (new_parent_spec veq anc_unwrap [P] (P_sound veq anc_unwrap name (2 * n) W Hn2) x (row_cost 1 F x) base Ox R3 R4 R5) as [np [N1 [N2 _]]]. rewrite N1. cbn [bind].
  assert (Hnp : hold (PT np) ev bval).
  { destruct X3 as [? [Ea [Q1 [Q2 [Q3 Q4]]]]]. injection Ea as <-. destruct N2 as [K1 K2 K3 K4]. rewrite Px in K2. apply Permutation_length_1_inv in K2.
    exists np. split; [reflexivity|]. split; [exact K1|]. split; [exact K2|]. split; [congruence|]. intros i e Hi Hv.
    specialize (K4 (at_ i) e). rewrite Px, Q3 in K4. specialize (K4 (at_range name (2 * n) W i Hi) Hv).
    rewrite !(den_P name (2 * n) W Hn2 _ i e) in K4 by auto. rewrite K4. auto. }
  match goal with |- context [me_estimator ?m (mkSample np name ?k ?l) _ ?nm tt base] =>
    destruct (disarm_compute np (row_cost 1 F x) base Hnp C3 nm k l tt) as [g [cv [G1 [G2 G3]]]]; rewrite G1 end.
  rewrite Hev0 in G2. rewrite (scalar_sum _ _ _ G2). reflexivity.
Qed.
Theorem disarm_loss : forall base, exists t, disarm_program veq anc_unwrap o o_exp recip half gt0 dw name n F eps logits base = Ok t /\ shape t = [] /\
  el t [] = osum o (map (fun i => o_mul o (recip (2 * n)) (o_mul o (box o o_exp (gval i)) (o_add o (other_val i) (cval i)))) (seq 0 (2 * n))).
Proof.
  intros base. destruct disarm_x as [x [rg [X1 X3]]]. pose proof (disarm_c x X3) as C3.
  unfold disarm_program. rewrite X1. cbn [bind]. set (nodes := disarm_tensors veq anc_unwrap o half dw name F logits x).
  unfold backward_value, surrogate_loss. cbn [surrogate_costs]. unfold surrogate_cost. rewrite disarm_order. cbn [bind foldM].
  pose proof (hold_over _ _ _ X3) as Ox. pose proof (hold_over _ _ _ C3) as Oc.
  assert (Px : splates x = [P]) by (destruct X3 as [? [Ea [_ [Q _]]]]; injection Ea as <-; exact Q).
  assert (Pc : splates (row_cost 1 F x) = [P]) by (destruct C3 as [? [Ea [_ [Q _]]]]; injection Ea as <-; exact Q).
  unfold add_parent. cbn [nodes disarm_tensors nd_sto]. cbn [me_pathwise method_of bind nd_t nd_name].
  change (nd_t (nodes 1)) with (row_cost 1 F x). change (nd_t (nodes 0)) with x.
  destruct (averaged_spec veq anc_unwrap o Hring [P] (P_sound veq anc_unwrap name (2 * n) W Hn2) ltac:(apply lone_acyclic; reflexivity) ltac:(intros p [<-|[]]; apply (P_fits name (2 * n) W Hn2 HW))
    (row_cost 1 F x) x base Oc Ox eq_refl) as [red [rc [R1 [R2 [R3 [R4 [R5 [R6 R7]]]]]]]].
  { rewrite Pc, (P_wide name (2 * n) W Hn2). apply closed_no_gaps, P_closed. }
  destruct R7 as [-> ->]. { unfold foreign. rewrite Px, Pc, !(P_wide name (2 * n) W Hn2). simpl. now rewrite String.eqb_refl. }
  rewrite R1. cbn [bind]. rewrite R2. cbn [bind].
  destruct (new_parent_spec veq anc_unwrap [P] (P_sound veq anc_unwrap name (2 * n) W Hn2) x (row_cost 1 F x) base Ox R3 R4 R5) as [np [N1 [N2 _]]]. rewrite N1. cbn [bind].
  assert (Hnp : hold (PT np) ev bval).
  { destruct X3 as [? [Ea [Q1 [Q2 [Q3 Q4]]]]]. injection Ea as <-. destruct N2 as [K1 K2 K3 K4]. rewrite Px in K2. apply Permutation_length_1_inv in K2.
    exists np. split; [reflexivity|]. split; [exact K1|]. split; [exact K2|]. split; [congruence|]. intros i e Hi Hv.
    specialize (K4 (at_ i) e). rewrite Px, Q3 in K4. specialize (K4 (at_range name (2 * n) W i Hi) Hv).
    rewrite !(den_P name (2 * n) W Hn2 _ i e) in K4 by auto. rewrite K4. auto. }
  match goal with |- context [me_estimator ?m (mkSample np name ?k ?l) _ ?nm tt base] =>
    destruct (disarm_estimate np (row_cost 1 F x) base Hnp C3 nm k l tt) as [g [cv [G1 [G2 G3]]]]; rewrite G1 end. cbn [bind].
  unfold add_terms.
  destruct (hold_scalar veq anc_unwrap name (2 * n) W Hn2 (o_add o) (o_zero o) g _ _ base G2) as [L [L1 L2]]. rewrite L1. cbn [bind].
  destruct (hold_box veq anc_unwrap o o_exp name (2 * n) W Hn2 _ _ _ (base + 10) L2) as [b [B1 B2]]. rewrite B1. cbn [bind].
  set (bx := fun i => box o o_exp (o_add o (o_zero o) (gval i))).
  set (ones := repeat 1 (length ev)).
  assert (Lo : length ones = length ev) by apply repeat_length.
  assert (A : exists A, torch_op2 veq anc_unwrap top_ctx (o_mul o) b cv (base + 20) = Ok A /\ hold A ones (fun i _ => o_mul o (bx i) (other_val i))).
  { destruct (hold_op2 veq anc_unwrap name (2 * n) W Hn2 (o_mul o) b cv [] ones ones _ _ (base + 20) B2 G3) as [A [A1 A2]].
    - cbn [length Nat.max]. rewrite pad_self. unfold pad. cbn [length app]. rewrite Nat.sub_0_r, Lo. apply broadcasts_self.
    - intros e Hv. rewrite (proj_valid ones) by auto. split; auto. destruct e; constructor.
    - exists A. split; [exact A1|exact A2]. }
  destruct A as [A [A1 A2]]. rewrite A1. cbn [bind].
  destruct (hold_reduce veq anc_unwrap o Hring name (2 * n) W Hn2 HW _ _ _ (base + 30) A2) as [A' [A3 A4]]. rewrite A3. cbn [bind].
  set (tA := osum o (map (fun i => o_mul o (wv W i) (o_mul o (bx i) (other_val i))) (seq 0 (2 * n)))).
  assert (A5 : free (PT A') ones (fun _ => tA)) by exact A4. clear A4.
  assert (Sq : exists v k, (if ndim (st A') =? 1 then squeeze_first veq anc_unwrap (PT A') (base + 25) else Ok (PT A')) = Ok v /\ free v (repeat 1 k) (fun _ => tA)).
  { assert (Sh : ndim (st A') = length ev).
    { destruct A5 as [? [Ea [Q1 [Q2 [Q3 _]]]]]. injection Ea as <-. unfold ndim. rewrite (wf_shape _ Q1), Q2, Q3. exact Lo. }
    rewrite Sh. destruct (Nat.eqb_spec (length ev) 1) as [H|H].
    - destruct (free_squeeze veq anc_unwrap (2 * n) Hn2 (PT A') ones _ (base + 25) A5 ltac:(congruence)) as [v [ev' [Q1 [Q2 Q3]]]].
      destruct Q2 as [->|[_ ->]]; [exists v, (length ev)|exists v, 0]; split; auto; exact Q1.
    - exists (PT A'), (length ev). split; [reflexivity|]. exact A5. }
  destruct Sq as [v [k [Q1 Q3]]]. rewrite Q1. cbn [bind].
  destruct (free_scalar veq anc_unwrap (o_add o) (o_zero o) v _ _ (base + 28) Q3) as [acc [K1 K2]]. rewrite K1. cbn [bind].
  rewrite B1. cbn [bind].
  destruct (hold_same veq anc_unwrap name (2 * n) W Hn2 (o_mul o) b (PT (row_cost 1 F x)) _ _ _ (base + 20) B2 C3) as [m [M1 M2]].
  rewrite M1. cbn [bind].
  destruct (hold_reduce veq anc_unwrap o Hring name (2 * n) W Hn2 HW _ _ _ (base + 30) M2) as [r [R3' R4']]. rewrite R3'. cbn [bind].
  set (tB := osum o (map (fun i => o_mul o (wv W i) (o_mul o (bx i) (cval i))) (seq 0 (2 * n)))).
  assert (R6' : free (PT r) [] (fun _ => tB)) by exact R4'.
  assert (X : exists z, torch_op2 veq anc_unwrap top_ctx (o_add o) acc (PT r) (base + 28) = Ok z /\ free z (repeat 1 k) (fun _ => o_add o (o_add o (o_zero o) tA) tB)).
  { destruct (free_op2 veq anc_unwrap (o_add o) acc (PT r) (repeat 1 k) [] (repeat 1 k) _ _ (base + 28) K2 R6') as [z [Z1 Z2]].
    - cbn [length]. rewrite Nat.max_0_r, pad_self. unfold pad. cbn [length app]. rewrite Nat.sub_0_r, repeat_length. apply broadcasts_self.
    - intros e Hv. rewrite (proj_valid (repeat 1 k)) by auto. split; auto. destruct e; constructor.
    - exists z. split; [exact Z1|exact Z2]. }
  destruct X as [z [Z1 Z2]]. rewrite Z1. cbn [bind].
  destruct (free_total veq anc_unwrap o (2 * n) Hn2 z (repeat 1 k) _ base (base + 2) Z2) as [s [S1 [t [T1 T2]]]]. rewrite S1. cbn [bind]. rewrite T1. cbn [bind].
  destruct T2 as [tt' [-> [T3 [T4 [T5 T6]]]]]. cbn [as_tensor bind]. exists (st tt'). split; [reflexivity|].
  split; [rewrite (wf_shape _ T3), T4, T5; reflexivity|]. rewrite T6 by constructor. rewrite indices_ones. cbn [map osum fold_right].
  unfold tA, tB, bx. transitivity (o_add o (osum o (map (fun i => o_mul o (wv W i) (o_mul o (box o o_exp (gval i)) (other_val i))) (seq 0 (2 * n))))
     (osum o (map (fun i => o_mul o (wv W i) (o_mul o (box o o_exp (gval i)) (cval i))) (seq 0 (2 * n))))).
  { assert (Z : forall i, o_add o (o_zero o) (gval i) = gval i) by (intros; ring).
    rewrite (osum_ext o _ (fun i => o_mul o (wv W i) (o_mul o (box o o_exp (gval i)) (other_val i)))) by (intros; now rewrite Z).
    rewrite (osum_ext o (fun i => o_mul o (wv W i) (o_mul o (box o o_exp (o_add o (o_zero o) (gval i))) (cval i)))
      (fun i => o_mul o (wv W i) (o_mul o (box o o_exp (gval i)) (cval i)))) by (intros; now rewrite Z). ring. }
  rewrite <- (osum_add o Hring). apply osum_ext. intros i Hi. change (wv W i) with (recip (2 * n)). ring.
Qed.
End Disarm.
