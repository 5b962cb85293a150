(** The loss of a program with ARM: any number of pairs of samples, any event shape. *)
From Coq Require Import String List Arith Bool ZArith Lia Permutation Ring.
From Verif Require Import Base Torch Plates Wrap OrderPlates Scalar Reduce Graph Sampling Surrogate Estimators TensorFns Arm ListLemmas IndexLemmas SpecTensor SpecWrap
  SpecOrder SpecReduce SpecGraph SpecSampling SpecSurrogate WrapProofs AlignProofs CallProofs CallProofs2 OpProofs OrderProofs ReduceProofs ReduceProofs2
  VarianceProofs PlateEqProofs GraphProofs SurrogateProofs SurrogateProofs2 SurrogateProofs3 CallN CallV GetitemProofs RaoBlackwellProofs SamplingProofs BroadcastProofs OnePlate.
Import ListNotations.
Open Scope nat_scope.

Lemma unwrapped_ttr : forall {V} (R : stensor V -> ten V -> Prop) x c l args, Forall2 (unwrapped R) [PT x; PT c; PRaw l] args ->
  exists u1 u2, args = [PRaw u1; PRaw u2; PRaw l] /\ R x u1 /\ R c u2.
Proof.
  intros V R x c l args F1.
  inversion F1 as [|? x1 ? r1 U1 G1]; subst. inversion G1 as [|? x2 ? r2 U2 G2]; subst. inversion G2 as [|? x3 ? r3 U3 G3]; subst. inversion G3; subst.
  inversion U1 as [? u1 L1| | | | | | | |]; subst. inversion U2 as [? u2 L2| | | | | | | |]; subst. inversion U3; subst. eauto.
Qed.
Lemma F2_two : forall {A B} (R : A -> B -> Prop) a b l, Forall2 R [a; b] l -> exists x y, l = [x; y] /\ R a x /\ R b y.
Proof. intros A B R a b l F. inversion F as [|? x ? r M1 G]; subst. inversion G as [|? y ? r' M2 G']; subst. inversion G'; subst. eauto. Qed.
Lemma F2_none : forall {A B} (R : A -> B -> Prop) l, Forall2 R [] l -> l = [].
Proof. intros A B R l F. now inversion F. Qed.

Lemma valid_one : forall e, valid e [1] -> e = [0].
Proof. intros e H. inversion H as [|i ? e' ? Hi H']; subst. inversion H'; subst. f_equal. lia. Qed.

Section ArmLoss.
Context {V : Type}.
Variable veq : V -> V -> bool.
Variable anc_unwrap : plate V -> stensor V -> res (stensor V).
Variable o : sops V.
Hypothesis Hring : is_ring o.
Variable o_exp : V -> V.
Variable recip : nat -> V.
Variable half : V.
Variable lgp : V -> V -> V.
Variable gt0 : V -> bool.
Notation plate := (plate V).
Notation stensor := (stensor V).
Let Hring' : ring_theory (o_zero o) (o_one o) (o_add o) (o_mul o) (o_sub o) (o_opp o) (@eq V) := Hring.
Add Ring o_ring : Hring'.

Variables (name : string) (n : nat) (ev : list nat) (F : (list nat -> V) -> V) (eps : nat -> ten V) (logits : ten V).
Hypothesis Hn : 1 <= n.
Hypothesis He : shape (eps n) = n :: ev.
Hypothesis Hl : shape logits = ev.
Hypothesis HF : forall b b', (forall e, valid e ev -> b e = b' e) -> F b = F b'.

Let W (i : nat) : V := if i <? (2 * n) / 2 then recip ((2 * n) / 2) else o_zero o.
Let WT : ten V := mkten [2 * n] (fun i => W (nth 0 i 0)).
Let HWT : shape WT = [] \/ shape WT = [2 * n] := or_intror eq_refl.
Notation P := (P name (2 * n) WT).
Notation hold := (hold name (2 * n) WT).
Lemma Hn2 : 2 <= 2 * n. Proof. lia. Qed.
Lemma half_n : (2 * n) / 2 = n. Proof. rewrite Nat.mul_comm. now apply Nat.div_mul. Qed.

(** The sample with number i, and what post_sample makes of it. *)
Definition zval (i : nat) (e : list nat) : V :=
  if i <? n then o_add o (el (eps n) (i :: e)) (el logits e) else o_add o (o_opp o (el (eps n) (i - n :: e))) (el logits e).
Definition bval (i : nat) (e : list nat) : V := if gt0 (zval i e) then o_one o else o_zero o.
Definition cval (i : nat) : V := F (bval i).

Lemma sample_arm_spec : exists t, sample_arm o (eps n) logits = Ok t /\ shape t = 2 * n :: ev /\ forall i e, i < 2 * n -> valid e ev -> el t (i :: e) = zval i e.
Proof.
  unfold sample_arm, elementwise2, tmap. cbn [shape el]. rewrite He, Hl, bshape_front. cbn [bind].
  unfold torch_cat. cbn [shape ndim]. unfold ndim. cbn [shape length]. unfold TensorFns.norm_dim. change (0 <? 0)%Z with false. cbv iota.
  replace ((0 <=? 0)%Z && (0 <? Z.of_nat (S (length ev)))%Z) with true by (symmetry; apply andb_true_iff; split; [reflexivity|apply Z.ltb_lt; lia]).
  change (Z.to_nat 0) with 0. cbv zeta iota. cbn [bind]. cbn [forallb shape length map nth]. rewrite Nat.eqb_refl.
  replace (list_eqb (remove_at 0 (n :: ev)) (remove_at 0 (n :: ev))) with true by (symmetry; now apply list_eqb_eq).
  simpl andb. cbv iota. eexists. split; [reflexivity|]. split; [reflexivity|].
  intros i e Hi Hv. cbn [el cat_at shape nth]. unfold zval. destruct (Nat.ltb_spec i n) as [H|H].
  - change (Ancestral.set_at 0 i (i :: e)) with (i :: e). rewrite bidx_valid by (constructor; auto). rewrite bidx_front by auto. reflexivity.
  - assert (H' : i - n < n) by lia. replace (i - n <? n) with true by (symmetry; now apply Nat.ltb_lt).
    change (Ancestral.set_at 0 (i - n) (i :: e)) with (i - n :: e). rewrite bidx_valid by (constructor; auto). rewrite bidx_front by auto. reflexivity.
Qed.

Lemma callable_nil : callable veq [].
Proof. split; [constructor|]. split; [intros p q []|intros p []]. Qed.
Lemma arm_x : exists x, arm_sample veq o recip gt0 false name n eps logits = Ok x /\ sid x = 0 /\ hold (PT x) ev zval.
Proof.
  destruct sample_arm_spec as [t [T1 [T2 T3]]].
  destruct (sample_spec veq anc_unwrap recip name n (fun k => sample_arm o (eps k) logits) (Some (true_samples recip (o_zero o) 2)) [ParT true] 0 t (2 * n) ev)
    as [x [X1 [X2 [X3 [X4 [X5 [X6 [_ [_ X7]]]]]]]]]; auto; try lia.
  { exact callable_nil. }
  unfold arm_sample. rewrite X1. cbn [bind]. exists x. split; [reflexivity|]. split; [exact X2|]. exists x. split; [reflexivity|]. split; [exact X3|].
  split; [exact X4|]. split; [exact X6|]. intros i e Hi Hv. rewrite <- T3 by auto.
  specialize (X7 (at_ i) e). rewrite X4 in X7. specialize (X7 ltac:(intros q [<-|[]]; exact Hi)).
  rewrite <- (den_P name (2 * n) WT Hn2 x i e) with (s := at_ i); auto.
Qed.
Lemma arm_y : exists y, arm_sample veq o recip gt0 true name n eps logits = Ok y /\ sid y = 1 /\ hold (PT y) ev bval.
Proof.
  destruct arm_x as [x [X1 [X2 [a [Ea [X3 [X4 [X5 X6]]]]]]]]. injection Ea as <-.
  unfold arm_sample in X1 |- *. unfold method_sample in X1 |- *. destruct (collect_params veq [ParT true] [] [] false) as [[q1 q2] q3]. cbv zeta in X1 |- *.
  destruct (existsb (fun p => String.eqb (pname p) name) q2); [discriminate|].
  destruct (monte_carlo recip name n (fun k => sample_arm o (eps k) logits) q1 q2 0) as [[x0 p0]|]; [|discriminate]. cbn [bind] in X1 |- *. injection X1 as X1.
  match goal with |- context [mk_tensor _ (arm_post _ _ (st ?z))] => change (z = x) in X1; rewrite X1 end.
  destruct (mk_tensor_good (0 + 1) (arm_post o gt0 (st x)) [sid x] (splates x) true ev) as [y [Y1 [Y2 [Y3 [Y4 [Y5 [Y6 [Y7 Y8]]]]]]]].
  { apply (wf_names x X3). } { apply (wf_pos x X3). } { simpl. rewrite (wf_shape x X3), X5. reflexivity. }
  rewrite Y1. cbn [bind]. exists y. split; [reflexivity|]. split; [exact Y2|]. exists y. split; [reflexivity|]. split; [exact Y8|]. split; [congruence|]. split; [exact Y7|].
  intros i e Hi Hv. rewrite Y3. unfold arm_post, tmap. cbn [el]. unfold bval. rewrite X6 by auto. reflexivity.
Qed.

Lemma arm_c : forall y, hold (PT y) ev bval -> hold (PT (row_cost 2 F y)) [] (fun i _ => cval i).
Proof.
  intros y [a [Ea [Y1 [Y2 [Y3 Y4]]]]]. injection Ea as <-. exists (row_cost 2 F y). split; [reflexivity|].
  pose proof (wf_shape y Y1) as Sy. rewrite Y2, (P_wide name (2 * n) WT Hn2), Y3 in Sy. cbn [map app] in Sy. change (pn P) with (2 * n) in Sy.
  split; [|split; [exact Y2|split; [reflexivity|]]].
  - constructor; unfold row_cost; cbn [splates st shape s_event_shape s_plate_dims].
    + apply (wf_names y Y1).
    + apply (wf_pos y Y1).
    + rewrite Y2, (P_wide name (2 * n) WT Hn2), Sy. reflexivity.
    + rewrite Y2, (P_wide name (2 * n) WT Hn2). reflexivity.
  - intros i e Hi Hv. unfold row_cost. cbn [st el]. simpl nth. apply HF. intros e' He'. now apply Y4.
Qed.

(** comp_estimator. *)
Definition lval (i : nat) (e : list nat) : V := if i <? n then lgp (el logits e) (o_det o (zval i e)) else o_zero o.
Definition base_val (i : nat) : V := if i <? n then o_mul o half (o_add o (cval i) (cval (n + i))) else o_zero o.

Lemma slice_front : forall (t : ten V) sh hi lo, shape t = 2 * n :: sh -> lo + n = hi -> hi <= 2 * n ->
  slice_get 0 lo hi t = Ok (mkten (n :: sh) (fun i => el t (upd 0 (lo + nth 0 i 0) i))).
Proof. intros t sh hi lo Ht E H. unfold slice_get, slice_shape. rewrite Ht. cbn [nth_error bind upd]. replace (Nat.min hi (2 * n) - lo) with n by lia. reflexivity. Qed.
Lemma slice_set_front : forall (t u : ten V) sh, shape t = 2 * n :: sh -> shape u = n :: sh -> exists r, slice_set 0 0 n t u = Ok r /\ shape r = 2 * n :: sh /\
  forall i e, i < 2 * n -> valid e sh -> el r (i :: e) = if i <? n then el u (i :: e) else el t (i :: e).
Proof.
  intros t u sh Ht Hu. unfold slice_set, slice_shape. rewrite Ht. cbn [nth_error bind upd]. replace (Nat.min n (2 * n) - 0) with n by lia.
  unfold expand. rewrite Hu. replace (expandable_rev (rev (n :: sh)) (rev (n :: sh))) with true by (symmetry; apply expandable_rev_refl).
  cbn [bind]. eexists. split; [reflexivity|]. split; [reflexivity|]. intros i e Hi Hv. cbn [el nth]. simpl (0 <=? i). cbn [andb]. destruct (Nat.ltb_spec i n) as [H|H]; [|reflexivity].
  simpl upd. rewrite Nat.sub_0_r. rewrite bidx_valid by (constructor; auto). reflexivity.
Qed.

Lemma arm_comp_spec : forall (t c : ten V), shape t = 2 * n :: ev -> shape c = 2 * n :: repeat 1 (length ev) ->
  (forall i e, i < 2 * n -> valid e ev -> el t (i :: e) = zval i e) ->
  (forall i, i < 2 * n -> el c (i :: repeat 0 (length ev)) = cval i) ->
  exists lp b, arm_comp o half lgp 0 n [PRaw t; PRaw c; PRaw logits] [] = Ok (PTuple (map (@PRaw V) [lp; b])) /\
    shape lp = 2 * n :: ev /\ shape b = 2 * n :: repeat 1 (length ev) /\
    (forall i e, i < 2 * n -> valid e ev -> el lp (i :: e) = lval i e) /\
    (forall i, i < 2 * n -> el b (i :: repeat 0 (length ev)) = base_val i).
Proof.
  intros t c Ht Hc Xt Xc. unfold arm_comp.
  rewrite (slice_front t ev n 0 Ht) by lia. cbn [bind]. rewrite (slice_front c _ n 0 Hc) by lia. cbn [bind]. rewrite (slice_front c _ (2 * n) n Hc) by lia. cbn [bind].
  unfold elementwise2 at 1. cbn [shape]. rewrite bshape_same. cbn [bind].
  destruct (slice_set_front (zeros_like o c) (tmap (o_mul o half) (mkten (n :: repeat 1 (length ev)) (fun idx : list nat =>
     o_add o (el (mkten (n :: repeat 1 (length ev)) (fun i => el c (upd 0 (0 + nth 0 i 0) i))) (bidx (n :: repeat 1 (length ev)) idx))
       (el (mkten (n :: repeat 1 (length ev)) (fun i => el c (upd 0 (n + nth 0 i 0) i))) (bidx (n :: repeat 1 (length ev)) idx)))))
     (repeat 1 (length ev)) Hc eq_refl) as [b [B1 [B2 B3]]].
  rewrite B1. cbn [bind]. unfold elementwise2, tmap. cbn [shape el]. rewrite Hl.
  assert (Eb : bshape ev (n :: ev) = Some (n :: ev)).
  { unfold bshape. simpl rev. replace (bshape_rev (rev ev) (rev ev ++ [n])) with (Some (rev ev ++ [n])).
    - simpl. rewrite rev_app_distr, rev_involutive. reflexivity.
    - symmetry. clear. induction (rev ev) as [|x l IH]; simpl; auto. now rewrite IH, Nat.eqb_refl. }
  rewrite Eb. cbn [bind].
  match goal with |- context [slice_set 0 0 n (zeros_like o t) ?u] => destruct (slice_set_front (zeros_like o t) u ev Ht eq_refl) as [lp [L1 [L2 L3]]] end.
  rewrite L1. cbn [bind]. exists lp, b. split; [reflexivity|]. split; [exact L2|]. split; [exact B2|]. split.
  - intros i e Hi Hv. rewrite L3 by auto. unfold lval. destruct (Nat.ltb_spec i n) as [H|H]; [|reflexivity]. cbn [el].
    rewrite bidx_front by auto. rewrite bidx_valid by (constructor; auto). simpl. rewrite Xt by auto. reflexivity.
  - intros i Hi. assert (Hz : valid (repeat 0 (length ev)) (repeat 1 (length ev))) by apply valid_zeros. rewrite B3 by auto. unfold base_val.
    destruct (Nat.ltb_spec i n) as [H|H]; [|reflexivity]. unfold tmap. cbn [el]. rewrite bidx_valid by (constructor; auto). simpl. rewrite !Xc by lia. reflexivity.
Qed.

(** The estimator. *)
Lemma arm_estimate : forall x c base, hold (PT x) ev zval -> hold (PT c) [] (fun i _ => cval i) -> forall nm k lp0 (sg : unit),
  exists g cv, me_estimator (method_of (fun _ _ => Ok false) (arm_estimator veq anc_unwrap o o_exp half lgp (PRaw logits))) (mkSample x name k lp0) c nm sg base
     = Ok (Some g, Some cv, sg) /\ hold g ev lval /\ hold cv ev (fun i e => o_mul o (o_sub o (o_one o) (box o o_exp (lval i e))) (base_val i)).
Proof.
  intros x c base [a [Ea [X1 [X2 [X3 X4]]]]] [a' [Ea' [C1 [C2 [C3 C4]]]]] nm k lp0 sg. injection Ea as <-. injection Ea' as <-.
  cbn [me_estimator method_of]. unfold arm_estimator. cbn [sm_t sm_name]. unfold get_plate. rewrite X2. cbn [find_plate]. change (pname P) with name. rewrite String.eqb_refl. cbn [bind].
  unfold get_plate_dim_index, multi_dim_plates. rewrite X2. change (mdp [P]) with (wide [P]). rewrite (P_wide name (2 * n) WT Hn2). cbn [find_dim]. change (pname P) with name. rewrite String.eqb_refl. cbn [bind].
  change (pn P) with (2 * n). rewrite half_n.
  assert (HC : callable veq [x; c]).
  { apply (P_callable veq anc_unwrap name (2 * n) WT Hn2); [repeat constructor; apply X1 || apply C1|]. intros t [<-|[<-|[]]]; auto. }
  assert (AP : all_plates [x; c] = [P]).
  { unfold all_plates. cbn [fold_left]. rewrite X2, C2. unfold union at 2. simpl. unfold union. simpl. rewrite String.eqb_refl. reflexivity. }
  assert (ME : max_event [x; c] = length ev).
  { unfold max_event. simpl. unfold s_event_dims. rewrite X3, C3. simpl. lia. }
  destruct (prepare_args_laid_out veq anc_unwrap [PT x; PT c; PRaw logits] [] default_opts [x; c]) as [args' [kwargs' [E [F1 F2]]]]; auto.
  { repeat constructor. }
  destruct (unwrapped_ttr _ _ _ _ _ F1) as [u1 [u2 [-> [L1 L2]]]]. apply F2_none in F2. subst kwargs'.
  rewrite AP, ME, (P_wide name (2 * n) WT Hn2) in L1, L2. destruct L1 as [S1 Y1], L2 as [S2 Y2]. simpl o_expand in *.
  assert (Hx : forall q, has (splates x) (pname P) || q = true) by (intros q; rewrite X2; simpl; now rewrite String.eqb_refl).
  assert (Hcc : forall q, has (splates c) (pname P) || q = true) by (intros q; rewrite C2; simpl; now rewrite String.eqb_refl).
  simpl map in S1, S2. rewrite Hx in S1. rewrite Hcc in S2. rewrite X3 in S1, Y1. rewrite C3 in S2, Y2.
  rewrite pad_self in S1, Y1. unfold pad in S2, Y2. cbn [length app] in S2, Y2. rewrite Nat.sub_0_r in S2, Y2. change (pn P) with (2 * n) in S1, S2. cbn [app] in S1, S2.
  destruct (arm_comp_spec u1 u2 S1 S2) as [lp [b [A1 [A2 [A3 [A4 A5]]]]]].
  { intros i e Hi Hv. specialize (Y1 (at_ i) e (at_range name (2 * n) WT i Hi) Hv). simpl in Y1. rewrite Hx in Y1. unfold at_ at 1 in Y1. cbn [app] in Y1.
    rewrite Y1. rewrite firstn_all2 by (unfold s_event_dims; rewrite X3, (valid_length _ _ Hv); lia). rewrite (den_P name (2 * n) WT Hn2 x i) by auto. auto. }
  { intros i Hi. specialize (Y2 (at_ i) (repeat 0 (length ev)) (at_range name (2 * n) WT i Hi) (valid_zeros _)). simpl in Y2. rewrite Hcc in Y2. unfold at_ at 1 in Y2. cbn [app] in Y2.
    rewrite Y2. unfold s_event_dims. rewrite C3. simpl firstn. rewrite (den_P name (2 * n) WT Hn2 c i) by auto. apply C4; auto. constructor. }
  destruct (call_done veq anc_unwrap (arm_comp o half lgp 0 n) [PT x; PT c; PRaw logits] [] [PRaw u1; PRaw u2; PRaw logits] [] [x; c] default_opts base)
    as [_ [_ [_ C]]]; [discriminate|exact HC|reflexivity|exact E|].
  destruct (C [lp; b] A1 [ev; repeat 1 (length ev)]) as [rs [R1 R2]].
  { rewrite AP, (P_wide name (2 * n) WT Hn2). repeat constructor; simpl; auto. }
  destruct (F2_two _ _ _ _ R2) as [r1 [r2 [-> [M1 M2]]]].
  rewrite R1. cbn [bind map unpair].
  unfold made in M1, M2. cbn [fst snd] in M1, M2. destruct M1 as [M1 [M1' [M1e [M1w _]]]]. destruct M2 as [M2 [M2' [M2e [M2w _]]]]. rewrite AP in M1, M2.
  assert (G : hold (PT r1) ev lval).
  { exists r1. split; [reflexivity|]. split; [exact M1w|]. split; [exact M1|]. split; [exact M1e|]. rewrite M1'. exact A4. }
  assert (B : hold (PT r2) (repeat 1 (length ev)) (fun i _ => base_val i)).
  { exists r2. split; [reflexivity|]. split; [exact M2w|]. split; [exact M2|]. split; [exact M2e|]. rewrite M2'. intros i e Hi Hv.
    assert (e = repeat 0 (length ev)) as ->. { clear -Hv. revert e Hv. induction (length ev) as [|m IH]; intros e Hv; inversion Hv; subst; simpl; auto. f_equal; [lia|auto]. }
    auto. }
  destruct (hold_box veq anc_unwrap o o_exp name (2 * n) WT Hn2 _ _ _ (base + 4) G) as [mb [B1 B2]]. rewrite B1. cbn [bind].
  destruct (hold_scalar veq anc_unwrap name (2 * n) WT Hn2 (o_sub o) (o_one o) mb _ _ (base + 14) B2) as [d [D1 D2]]. rewrite D1. cbn [bind].
  destruct (hold_row veq anc_unwrap name (2 * n) WT Hn2 (o_mul o) d (PT r2) _ _ _ _ (base + 16) D2 B) as [cv [V1 V2]]; [lia|]. rewrite V1. cbn [bind].
  destruct V2 as [a [-> V2]]. exists (PT r1), (PT a). split; [reflexivity|]. split; [exact G|]. exists a. split; auto.
Qed.

Lemma arm_order : surrogate_order 20 arm_graph 2 = Some [0; 1; 2].
Proof. vm_compute. reflexivity. Qed.

Lemma hold_over : forall x e f, hold (PT x) e f -> over [P] x.
Proof. intros x e f [a [Ea [H1 [H2 _]]]]. injection Ea as <-. constructor; auto; rewrite H2; [apply incl_refl|apply P_closed]. Qed.

Definition sample_loss (i : nat) (e : list nat) : V :=
  let b := box o o_exp (lgp (el logits e) (o_det o (zval i e))) in
  o_add o (o_mul o b (o_mul o (o_sub o (o_one o) b) (o_mul o half (o_add o (cval i) (cval (n + i)))))) (o_mul o b (cval i)).

Theorem arm_loss : forall base, exists t, arm_program veq anc_unwrap o o_exp recip half lgp gt0 name n F eps logits base = Ok t /\ shape t = [] /\
  el t [] = osum o (map (fun e => o_mul o (recip n) (osum o (map (fun i => sample_loss i e) (seq 0 n)))) (indices ev)).
Proof.
  intros base. destruct arm_x as [x [X1 [X2 X3]]]. destruct arm_y as [y [Y1 [Y2 Y3]]]. pose proof (arm_c y Y3) as C3.
  unfold arm_program. rewrite X1, Y1. cbn [bind]. set (nodes := arm_tensors veq anc_unwrap o o_exp half lgp name F logits x y).
  unfold backward_value, surrogate_loss. cbn [surrogate_costs]. unfold surrogate_cost. rewrite arm_order. cbn [bind foldM].
  pose proof (hold_over _ _ _ X3) as Ox. pose proof (hold_over _ _ _ C3) as Oc.
  assert (Px : splates x = [P]) by (destruct X3 as [? [Ea [_ [Q _]]]]; injection Ea as <-; exact Q).
  assert (Pc : splates (row_cost 2 F y) = [P]) by (destruct C3 as [? [Ea [_ [Q _]]]]; injection Ea as <-; exact Q).
  (* the sample *)
  unfold add_parent. cbn [nodes arm_tensors nd_sto]. cbn [me_pathwise method_of bind nd_t nd_name].
  change (nd_t (nodes 2)) with (row_cost 2 F y). change (nd_t (nodes 0)) with x.
  destruct (averaged_spec veq anc_unwrap o Hring [P] (P_sound veq anc_unwrap name (2 * n) WT Hn2) ltac:(apply lone_acyclic; reflexivity) ltac:(intros p [<-|[]]; apply (P_fits name (2 * n) WT Hn2 HWT))
    (row_cost 2 F y) x base Oc Ox eq_refl) as [red [rc [R1 [R2 [R3 [R4 [R5 [R6 R7]]]]]]]].
  { rewrite Pc, (P_wide name (2 * n) WT Hn2). apply closed_no_gaps, P_closed. }
  destruct R7 as [-> ->]. { unfold foreign. rewrite Px, Pc, !(P_wide name (2 * n) WT Hn2). simpl. now rewrite String.eqb_refl. }
  rewrite R1. cbn [bind]. rewrite R2. cbn [bind].
  destruct (new_parent_spec veq anc_unwrap [P] (P_sound veq anc_unwrap name (2 * n) WT Hn2) x (row_cost 2 F y) base Ox R3 R4 R5) as [np [N1 [N2 _]]]. rewrite N1. cbn [bind].
  assert (Hnp : hold (PT np) ev zval).
  { destruct X3 as [? [Ea [Q1 [Q2 [Q3 Q4]]]]]. injection Ea as <-. destruct N2 as [K1 K2 K3 K4]. rewrite Px in K2. apply Permutation_length_1_inv in K2.
    exists np. split; [reflexivity|]. split; [exact K1|]. split; [exact K2|]. split; [congruence|]. intros i e Hi Hv.
    specialize (K4 (at_ i) e). rewrite Px, Q3 in K4. specialize (K4 (at_range name (2 * n) WT i Hi) Hv).
    rewrite !(den_P name (2 * n) WT Hn2 _ i e) in K4 by auto. rewrite K4. auto. }
  match goal with |- context [me_estimator ?m (mkSample np name ?k ?l) _ ?nm tt base] =>
    destruct (arm_estimate np (row_cost 2 F y) base Hnp C3 nm k l tt) as [g [cv [G1 [G2 G3]]]]; rewrite G1 end. cbn [bind].
  unfold add_terms.
  destruct (hold_scalar veq anc_unwrap name (2 * n) WT Hn2 (o_add o) (o_zero o) g _ _ base G2) as [L [L1 L2]]. rewrite L1. cbn [bind].
  destruct (hold_box veq anc_unwrap o o_exp name (2 * n) WT Hn2 _ _ _ (base + 10) L2) as [b [B1 B2]]. rewrite B1. cbn [bind].
  destruct (hold_same veq anc_unwrap name (2 * n) WT Hn2 (o_mul o) b cv _ _ _ (base + 20) B2 G3) as [A [A1 A2]]. rewrite A1. cbn [bind].
  destruct (hold_reduce veq anc_unwrap o Hring name (2 * n) WT Hn2 HWT _ _ _ (base + 30) A2) as [A' [A3 A4]]. rewrite A3. cbn [bind].
  set (fA := fun e => osum o (map (fun i => o_mul o (W i) (o_mul o (box o o_exp (o_add o (o_zero o) (lval i e))) (o_mul o (o_sub o (o_one o) (box o o_exp (lval i e))) (base_val i)))) (seq 0 (2 * n)))) in A4.
  assert (Sq : exists v ev', (if ndim (st A') =? 1 then squeeze_first veq anc_unwrap (PT A') (base + 25) else Ok (PT A')) = Ok v /\ (ev' = ev \/ (ev = [1] /\ ev' = [])) /\
    free v ev' (fun e => fA (if list_eqb ev [1] then [0] else e))).
  { assert (Sh : ndim (st A') = length ev).
    { destruct A4 as [? [Ea [Q1 [Q2 [Q3 _]]]]]. injection Ea as <-. unfold ndim. rewrite (wf_shape _ Q1), Q2, Q3. reflexivity. }
    rewrite Sh. destruct (Nat.eqb_spec (length ev) 1) as [H|H].
    - apply (free_squeeze veq anc_unwrap (2 * n) Hn2); auto.
    - exists (PT A'), ev. split; [reflexivity|]. split; [auto|]. apply (free_ext _ _ _ _ A4). intros e _.
      destruct (list_eqb ev [1]) eqn:El; [|reflexivity]. apply list_eqb_eq in El. rewrite El in H. now contradiction H. }
  destruct Sq as [v [ev' [Q1 [Q2 Q3]]]]. rewrite Q1. cbn [bind].
  destruct (free_scalar veq anc_unwrap (o_add o) (o_zero o) v _ _ (base + 28) Q3) as [acc [K1 K2]]. rewrite K1. cbn [bind].
  (* the other tensors *)
  rewrite B1. cbn [bind].
  destruct (hold_row veq anc_unwrap name (2 * n) WT Hn2 (o_mul o) b (PT (row_cost 2 F y)) _ 0 _ cval (base + 20) B2 C3) as [m [M1 M2]]; [lia|].
  rewrite M1. cbn [bind].
  destruct (hold_reduce veq anc_unwrap o Hring name (2 * n) WT Hn2 HWT _ _ _ (base + 30) M2) as [r [R3' R4']]. rewrite R3'. cbn [bind].
  set (fB := fun e => osum o (map (fun i => o_mul o (W i) (o_mul o (box o o_exp (o_add o (o_zero o) (lval i e))) (cval i))) (seq 0 (2 * n)))) in R4'.
  assert (X : exists z, torch_op2 veq anc_unwrap top_ctx (o_add o) acc (PT r) (base + 28) = Ok z /\ free z ev (fun e => o_add o (fA e) (fB e))).
  { destruct Q2 as [->|[Hev1 ->]].
    - destruct (free_op2 veq anc_unwrap (o_add o) acc (PT r) ev ev ev _ _ (base + 28) K2 R4') as [z [Z1 Z2]].
      + rewrite Nat.max_id, pad_self. apply broadcasts_self.
      + intros e Hv. rewrite proj_valid by auto. auto.
      + exists z. split; [exact Z1|]. apply (free_ext _ _ _ _ Z2). intros e Hv. rewrite !proj_valid by auto. f_equal.
        assert (E1 : (if list_eqb ev [1] then [0] else e) = e).
        { destruct (list_eqb ev [1]) eqn:El; [|reflexivity]. apply list_eqb_eq in El. rewrite El in Hv. inversion Hv as [|i ? e' ? Hi Hv']; subst. inversion Hv'; subst.
          f_equal. lia. }
        rewrite E1. unfold fA. ring.
    - destruct (free_op2 veq anc_unwrap (o_add o) acc (PT r) [] ev ev _ _ (base + 28) K2 R4') as [z [Z1 Z2]].
      + rewrite Hev1. simpl. repeat constructor.
      + intros e Hv. split; [destruct e; constructor|]. rewrite proj_valid by auto. auto.
      + exists z. split; [exact Z1|]. apply (free_ext _ _ _ _ Z2). intros e Hv. rewrite (proj_valid ev) by auto. f_equal.
        assert (e = [0]) as -> by (apply valid_one; congruence). replace (list_eqb ev [1]) with true by (rewrite Hev1; reflexivity). unfold fA. ring. }
  destruct X as [z [Z1 Z2]]. rewrite Z1. cbn [bind].
  destruct (free_total veq anc_unwrap o (2 * n) Hn2 z ev _ base (base + 2) Z2) as [s [S1 [t [T1 T2]]]]. rewrite S1. cbn [bind]. rewrite T1. cbn [bind].
  destruct T2 as [tt' [-> [T3 [T4 [T5 T6]]]]]. cbn [as_tensor bind]. exists (st tt'). split; [reflexivity|].
  split; [rewrite (wf_shape _ T3), T4, T5; reflexivity|]. rewrite T6 by constructor.
  f_equal. apply map_ext. intros e. unfold fA, fB. rewrite <- (osum_add o Hring).
  assert (Z0 : forall k, osum o (map (fun i => o_add o (o_mul o (W i) (o_mul o (box o o_exp (o_add o (o_zero o) (lval i e)))
     (o_mul o (o_sub o (o_one o) (box o o_exp (lval i e))) (base_val i)))) (o_mul o (W i) (o_mul o (box o o_exp (o_add o (o_zero o) (lval i e))) (cval i)))) (seq n k)) = o_zero o).
  { intros k. rewrite (osum_ext o _ (fun _ => o_zero o)); [apply (osum_zero o Hring)|]. intros i Hi. apply in_seq in Hi. unfold W. rewrite half_n.
    replace (i <? n) with false by (symmetry; apply Nat.ltb_ge; lia). ring. }
  replace (2 * n) with (n + n) by lia. rewrite seq_app, map_app, (SurrogateProofs.osum_app o Hring). rewrite Z0.
  rewrite (osum_mul_l o Hring). match goal with |- o_add o ?u _ = ?v => transitivity u; [ring|] end.
  apply osum_ext. intros i Hi. apply in_seq in Hi. unfold W, sample_loss, lval, base_val. rewrite half_n.
  replace (i <? n) with true by (symmetry; apply Nat.ltb_lt; lia). cbv zeta.
  replace (o_add o (o_zero o) (lgp (el logits e) (o_det o (zval i e)))) with (lgp (el logits e) (o_det o (zval i e))) by ring. ring.
Qed.
End ArmLoss.
