(** The loss of a program with RELAX: any number of samples, any event shape, with at least one dimension if there is more than one sample. *)
From Coq Require Import String List Arith Bool ZArith Lia Permutation Ring.
From Verif Require Import Base Torch Plates Wrap OrderPlates Scalar Reduce Graph Sampling Surrogate Estimators TensorFns Arm Relax ListLemmas IndexLemmas SpecTensor SpecWrap
  SpecOrder SpecReduce SpecGraph SpecSampling SpecSurrogate WrapProofs AlignProofs CallProofs CallProofs2 OpProofs OrderProofs ReduceProofs ReduceProofs2
  VarianceProofs PlateEqProofs GraphProofs SurrogateProofs SurrogateProofs2 SurrogateProofs3 CallN CallV GetitemProofs RaoBlackwellProofs SamplingProofs BroadcastProofs OnePlate ArmProofs AnyPlate.
Import ListNotations.
Open Scope nat_scope.

Lemma expandable_lead : forall q ev, expandable_rev (rev ev) (rev (q ++ ev)) = true.
Proof. intros q ev. rewrite rev_app_distr. induction (rev ev) as [|x l IH]; [destruct (rev q); reflexivity|]. simpl. rewrite IH, Nat.eqb_refl. reflexivity. Qed.
Lemma expand_lead : forall {A} q ev (t : ten A), shape t = ev -> expand (q ++ ev) t = Ok (mkten (q ++ ev) (fun i => el t (bidx ev i))).
Proof. intros A q ev t H. unfold expand. rewrite H, expandable_lead. reflexivity. Qed.
Lemma bidx_lead : forall q e ev, valid e ev -> bidx ev (q ++ e) = e.
Proof.
  intros q e ev H. unfold bidx. pose proof (valid_length _ _ H) as L. rewrite app_length. replace (length q + length e - length ev) with (length q) by lia.
  rewrite skipn_app, skipn_all, Nat.sub_diag. simpl. now apply zip_clip_valid.
Qed.
Lemma removelast_snoc : forall {A} (l : list A) x, removelast (l ++ [x]) = l.
Proof. intros. rewrite removelast_app by discriminate. apply app_nil_r. Qed.
Lemma removelast_lead : forall {A} (q l : list A) x, removelast (q ++ l ++ [x]) = q ++ l.
Proof. intros. rewrite app_assoc. apply removelast_snoc. Qed.
Lemma last_lead : forall (q l : list nat) x, last (q ++ l ++ [x]) 0 = x.
Proof. intros. rewrite app_assoc. apply last_last. Qed.
Lemma valid_snoc : forall e k ev K, valid e ev -> k < K -> valid (e ++ [k]) (ev ++ [K]).
Proof. intros. apply valid_app; auto. repeat constructor. auto. Qed.
Lemma valid_snoc_inv : forall e ev K, valid e (ev ++ [K]) -> exists e0 k, e = e0 ++ [k] /\ valid e0 ev /\ k < K.
Proof.
  intros e ev K H. destruct (ListLemmas.valid_app_inv e ev [K] H) as [e0 [e1 [-> [H1 H2]]]]. inversion H2 as [|k ? e2 ? Hk H3]; subst. inversion H3; subst. eauto.
Qed.

Section RelaxLoss.
Context {V : Type}.
Variable veq : V -> V -> bool.
Variable anc_unwrap : plate V -> stensor V -> res (stensor V).
Variable o : sops V.
Hypothesis Hring : is_ring o.
Variable o_exp : V -> V.
Variable recip : nat -> V.
Variable ro : rops V.
Variable tau eta : V.
Notation plate := (plate V).
Notation stensor := (stensor V).
Let Hring' : ring_theory (o_zero o) (o_one o) (o_add o) (o_mul o) (o_sub o) (o_opp o) (@eq V) := Hring.
Add Ring o_ring : Hring'.

Variables (name : string) (n : nat) (ev : list nat) (K : nat) (F c : (list nat -> V) -> V) (u : nat -> ten V) (v probs : ten V).
Hypothesis Hn : 1 <= n.
Hypothesis HK : 1 <= K.
Let E := ev ++ [K].
Hypothesis Hu : shape (u n) = n :: E.
Hypothesis Hp : shape probs = E.
Hypothesis HF : forall b b', (forall e, valid e E -> b e = b' e) -> F b = F b'.
Hypothesis Hc : forall b b', (forall e, valid e E -> b e = b' e) -> c b = c b'.

Let W : ten V := tscalar (recip n).
Let HW : shape W = [] \/ (1 < n /\ shape W = [n]) := or_introl eq_refl.
Notation P := (P name n W).
Notation hold := (holds name n W).
Notation D := (dims_of n).
Notation pre := (pre n).
Notation det := (handle_deterministic veq anc_unwrap top_ctx).

(** Scalar variables: there are no event dimensions, and the sum is over the plate. *)
Lemma scalar_sum : 2 <= n -> forall w f base, hold w [] f -> sum_event veq anc_unwrap o w base = Err ValueError.
Proof.
  intros H2 w f base [a [-> [X1 [X2 [X3 X4]]]]]. unfold sum_event. cbn [as_tensor bind].
  assert (Sh : shape (st a) = [n]) by (rewrite (wf_shape a X1), X2, X3, (P_wide name n W H2); reflexivity).
  assert (Pd : s_plate_dims a = 1) by (rewrite (wf_dims a X1), X2, (P_wide name n W H2); reflexivity).
  cbv zeta. unfold ndim. rewrite Sh, Pd. cbn [length Nat.sub seq map]. unfold sum_dims.
  assert (HC : callable veq [a]) by (apply (P_callable veq anc_unwrap name n W H2); [auto|intros t [<-|[]]; auto]).
  destruct (prepare_single veq anc_unwrap a default_opts HC) as [t [E0 [Hs _]]]; auto.
  destruct (call_done veq anc_unwrap (torch_fn1 (torch_reduce (osum o) [Z.of_nat 0])) _ _ _ _ [a] default_opts base ltac:(discriminate) HC eq_refl E0) as [_ [_ [Q _]]].
  assert (R : exists t', torch_reduce (osum o) [Z.of_nat 0] t = Ok t' /\ shape t' = []).
  { unfold torch_reduce, ndim. rewrite <- Hs, Sh. cbn [length mapM]. change (Reduce.norm_dim 1 (Z.of_nat 0)) with (@Ok nat 0). cbn [bind]. unfold reduce_dims, ndim. rewrite <- Hs, Sh. simpl. eauto. }
  destruct R as [t' [R1 R2]]. apply (Q t').
  - unfold torch_fn1. rewrite R1. reflexivity.
  - intros evc E'. rewrite R2, all_plates_single, X2, (P_wide name n W H2) in E'. discriminate.
Qed.

(** What the program calculates for the sample with number i. *)
Definition prow (e : list nat) (j : nat) : V := el probs (e ++ [j]).
Definition zval (i : nat) (e : list nat) : V := relaxed_row o o_exp ro tau K (prow (removelast e)) (fun j => el (u n) (i :: removelast e ++ [j])) (last e 0).
Definition zrow (i : nat) (e : list nat) (j : nat) : V := zval i (e ++ [j]).
Definition bval (i : nat) (e : list nat) : V := hard_row o ro K (zrow i (removelast e)) (last e 0).
Definition brow (i : nat) (e : list nat) (j : nat) : V := bval i (e ++ [j]).
Definition tval (i : nat) (e : list nat) : V := cond_row o o_exp ro tau K (brow i (removelast e)) (prow (removelast e)) (fun j => el v (pre i ++ removelast e ++ [j])) (last e 0).
Definition lval (i : nat) (e : list nat) : V := log_prob_row ro K (prow e) (brow i e).


Lemma argmax_ext : forall s s' m js, (forall j, In j (m :: js) -> s j = s' j) -> argmax_from ro s m js = argmax_from ro s' m js.
Proof.
  intros s s' m js. revert m. induction js as [|j js IH]; intros m H; [reflexivity|]. cbn [argmax_from]. rewrite (H m), (H j) by (simpl; auto).
  destruct (r_lt ro (s' m) (s' j)); apply IH; intros k Hk; apply H; simpl in *; tauto.
Qed.
Lemma row_argmax_ext : forall s s', (forall j, j < K -> s j = s' j) -> row_argmax ro K s = row_argmax ro K s'.
Proof. intros s s' H. apply argmax_ext. intros j [<-|Hj]; [apply H; lia|]. apply in_seq in Hj. apply H. lia. Qed.
Lemma argmax_in : forall s m js, In (argmax_from ro s m js) (m :: js).
Proof.
  intros s m js. revert m. induction js as [|j js IH]; intros m; [simpl; auto|]. cbn [argmax_from]. destruct (r_lt ro (s m) (s j)).
  - right. apply IH.
  - destruct (IH m) as [H|H]; [left; exact H|right; right; exact H].
Qed.
Lemma row_argmax_range : forall s, row_argmax ro K s < K.
Proof. intros s. unfold row_argmax. destruct (argmax_in s 0 (seq 1 (K - 1))) as [<-|H]; [lia|]. apply in_seq in H. lia. Qed.
Lemma softmax_ext : forall s s' k, (forall j, j < K -> s j = s' j) -> k < K -> row_softmax o o_exp ro K s k = row_softmax o o_exp ro K s' k.
Proof.
  intros s s' k H Hk. unfold row_softmax. rewrite (H k Hk). do 4 f_equal. apply map_ext_in. intros j Hj. apply in_seq in Hj. f_equal. apply H. lia.
Qed.
Lemma relaxed_ext : forall p p' w w' k, (forall j, j < K -> p j = p' j) -> (forall j, j < K -> w j = w' j) -> k < K ->
  relaxed_row o o_exp ro tau K p w k = relaxed_row o o_exp ro tau K p' w' k.
Proof. intros p p' w w' k H1 H2 Hk. apply softmax_ext; auto. intros j Hj. now rewrite H1, H2. Qed.
Lemma hard_ext : forall s s' k, (forall j, j < K -> s j = s' j) -> hard_row o ro K s k = hard_row o ro K s' k.
Proof. intros s s' k H. unfold hard_row. now rewrite (row_argmax_ext s s' H). Qed.
Lemma cond_ext : forall b b' p p' w w' k, (forall j, j < K -> b j = b' j) -> (forall j, j < K -> p j = p' j) -> (forall j, j < K -> w j = w' j) -> k < K ->
  cond_row o o_exp ro tau K b p w k = cond_row o o_exp ro tau K b' p' w' k.
Proof.
  intros b b' p p' w w' k H1 H2 H3 Hk. unfold cond_row. cbv zeta. apply softmax_ext; auto. intros j Hj.
  rewrite (row_argmax_ext b b' H1), (H1 j Hj), (H2 j Hj), (H3 j Hj), (H3 _ (row_argmax_range b')). reflexivity.
Qed.
Lemma log_prob_ext : forall p p' b b', (forall j, j < K -> p j = p' j) -> (forall j, j < K -> b j = b' j) -> log_prob_row ro K p b = log_prob_row ro K p' b'.
Proof. intros p p' b b' H1 H2. unfold log_prob_row. rewrite (row_argmax_ext b b' H2), (H1 _ (row_argmax_range b')). reflexivity. Qed.

Lemma width_E : forall (t : ten V) q, shape t = q ++ E -> width t = K.
Proof. intros t q H. unfold width. rewrite H. apply last_lead. Qed.
Lemma row_at_snoc : forall (t : ten V) q e k j, row_at t (q ++ e ++ [k]) j = el t (q ++ e ++ [j]).
Proof. intros. unfold row_at. rewrite removelast_lead, <- app_assoc. reflexivity. Qed.
Lemma expand_probs : forall q, exists p, expand (q ++ E) probs = Ok p /\ forall i e j, valid e ev -> j < K -> el p (i ++ e ++ [j]) = prow e j.
Proof.
  intros q. eexists. split; [apply (expand_lead q E probs Hp)|]. intros i e j He Hj. cbn [el]. rewrite bidx_lead by (apply valid_snoc; auto). reflexivity.
Qed.

Lemma rsample_spec : exists t, rsample_gumbel_softmax o o_exp ro tau (u n) probs = Ok t /\ shape t = n :: E /\ forall i e, i < n -> valid e E -> el t (i :: e) = zval i e.
Proof.
  destruct (expand_probs [n]) as [p [P1 P2]]. unfold rsample_gumbel_softmax. rewrite Hu. change (n :: E) with ([n] ++ E). rewrite P1. cbn [bind]. eexists. split; [reflexivity|]. split; [reflexivity|].
  intros i e Hi He. destruct (valid_snoc_inv _ _ _ He) as [e0 [k [-> [H1 H2]]]]. cbn [el]. change (i :: e0 ++ [k]) with ([i] ++ e0 ++ [k]). rewrite (width_E (u n) [n] Hu), last_lead. unfold zval. rewrite removelast_snoc, last_last.
  apply relaxed_ext; auto; intros j Hj; rewrite row_at_snoc; auto.
Qed.
Lemma discretize_spec : forall (t : ten V), shape t = D ++ E -> (forall i e, i < n -> valid e E -> el t (pre i ++ e) = zval i e) ->
  shape (discretize o ro t) = D ++ E /\ forall i e, i < n -> valid e E -> el (discretize o ro t) (pre i ++ e) = bval i e.
Proof.
  intros t Ht H. split; [exact Ht|]. intros i e Hi He. destruct (valid_snoc_inv _ _ _ He) as [e0 [k [-> [H1 H2]]]]. unfold discretize. cbn [el].
  rewrite (width_E t D Ht), last_lead. unfold bval. rewrite removelast_snoc, last_last. apply hard_ext. intros j Hj. rewrite row_at_snoc. apply H; auto. now apply valid_snoc.
Qed.
Lemma cond_spec : forall (t : ten V), shape t = D ++ E -> (forall i e, i < n -> valid e E -> el t (pre i ++ e) = bval i e) ->
  exists t', cond_sample o o_exp ro tau v [PRaw t; PRaw probs] [] = Ok (PRaw t') /\ shape t' = D ++ E /\ forall i e, i < n -> valid e E -> el t' (pre i ++ e) = tval i e.
Proof.
  intros t Ht H. destruct (expand_probs D) as [p [P1 P2]]. unfold cond_sample. rewrite Ht, P1. cbn [bind]. eexists. split; [reflexivity|]. split; [reflexivity|].
  intros i e Hi He. destruct (valid_snoc_inv _ _ _ He) as [e0 [k [-> [H1 H2]]]]. cbn [el]. rewrite (width_E t D Ht), last_lead. unfold tval. rewrite removelast_snoc, last_last.
  apply cond_ext; auto; intros j Hj; rewrite row_at_snoc; auto. apply H; auto. now apply valid_snoc.
Qed.
Lemma log_prob_spec : forall (t : ten V), shape t = D ++ E -> (forall i e, i < n -> valid e E -> el t (pre i ++ e) = bval i e) ->
  exists t', log_prob ro [PRaw t; PRaw probs] [] = Ok (PRaw t') /\ shape t' = D ++ ev /\ forall i e, i < n -> valid e ev -> el t' (pre i ++ e) = lval i e.
Proof.
  intros t Ht H. destruct (expand_probs D) as [p [P1 P2]]. unfold log_prob. rewrite Ht, P1. cbn [bind]. eexists. split; [reflexivity|]. split; [apply removelast_lead|].
  intros i e Hi He. cbn [el]. rewrite (width_E t D Ht). unfold lval.
  apply log_prob_ext; intros j Hj; rewrite <- app_assoc, row_at_snoc; auto. apply H; auto. now apply valid_snoc.
Qed.
Lemma firstn_pre : forall i e, firstn (length D) (pre i ++ e) = pre i.
Proof. intros i e. unfold dims_of, AnyPlate.pre. destruct (1 <? n); reflexivity. Qed.
Lemma per_sample_spec : forall (t : ten V) f, shape t = D ++ E -> (forall i e, i < n -> valid e E -> el t (pre i ++ e) = f i e) ->
  exists t', per_sample (length D) c t = Ok t' /\ shape t' = D ++ [] /\ forall i e, i < n -> valid e [] -> el t' (pre i ++ e) = c (f i).
Proof.
  intros t f Ht H. unfold per_sample. eexists. split; [reflexivity|]. cbn [shape]. rewrite Ht, firstn_app, firstn_all, Nat.sub_diag, app_nil_r, app_nil_r. split; [reflexivity|].
  intros i e Hi _. cbn [el]. rewrite firstn_pre. apply Hc. intros e' He'. auto.
Qed.

Lemma callable_nil : callable veq [].
Proof. split; [constructor|]. split; [intros p q []|intros p []]. Qed.
Lemma relax_x : exists x, relax_sample veq o o_exp recip ro tau false name n u probs = Ok x /\ sid x = 0 /\ hold (PT x) E zval.
Proof.
  destruct rsample_spec as [t [T1 [T2 T3]]].
  destruct (sample_spec veq anc_unwrap recip name n (fun k => rsample_gumbel_softmax o o_exp ro tau (u k) probs) None [ParT true] 0 t n E)
    as [x [X1 [X2 [X3 [X4 [X5 [X6 [_ [_ X7]]]]]]]]]; auto; try lia.
  { exact callable_nil. }
  unfold relax_sample. rewrite X1. cbn [bind]. exists x. split; [reflexivity|]. split; [exact X2|]. exists x. split; [reflexivity|]. split; [exact X3|].
  split; [exact X4|]. split; [exact X6|]. intros i e Hi Hv. rewrite <- T3 by auto.
  specialize (X7 (at_ i) e). rewrite X4 in X7. specialize (X7 ltac:(intros q [<-|[]]; exact Hi)).
  rewrite <- (any_den name n W x i e) with (s := at_ i); auto.
Qed.
Lemma relax_y : exists y, relax_sample veq o o_exp recip ro tau true name n u probs = Ok y /\ sid y = 1 /\ hold (PT y) E bval.
Proof.
  destruct relax_x as [x [X1 [X2 HX]]]. pose proof (holds_shape name n W _ _ _ HX) as Sx. destruct HX as [a [Ea [X3 [X4 [X5 X6]]]]]. injection Ea as <-.
  unfold relax_sample in X1 |- *. unfold method_sample in X1 |- *. destruct (collect_params veq [ParT true] [] [] false) as [[q1 q2] q3]. cbv zeta in X1 |- *.
  destruct (existsb (fun p => String.eqb (pname p) name) q2); [discriminate|].
  destruct (monte_carlo recip name n (fun k => rsample_gumbel_softmax o o_exp ro tau (u k) probs) q1 q2 0) as [[x0 p0]|]; [|discriminate]. cbn [bind] in X1 |- *. injection X1 as X1.
  match goal with |- context [mk_tensor _ (discretize _ _ (st ?z))] => change (z = x) in X1; rewrite X1 end.
  destruct (discretize_spec (st x) Sx X6) as [D1 D2].
  destruct (mk_tensor_good (0 + 1) (discretize o ro (st x)) [sid x] (splates x) true E) as [y [Y1 [Y2 [Y3 [Y4 [Y5 [Y6 [Y7 Y8]]]]]]]].
  { apply (wf_names x X3). } { apply (wf_pos x X3). } { change (shape (discretize o ro (st x))) with (shape (st x)). rewrite (wf_shape x X3), X5. reflexivity. }
  rewrite Y1. cbn [bind]. exists y. split; [reflexivity|]. split; [exact Y2|]. exists y. split; [reflexivity|]. split; [exact Y8|]. split; [congruence|]. split; [exact Y7|].
  intros i e Hi Hv. rewrite Y3. auto.
Qed.
Definition cost_val (i : nat) : V := F (bval i).
Lemma relax_c : forall y, hold (PT y) E bval -> hold (PT (sample_cost 2 F y)) [] (fun i _ => cost_val i).
Proof.
  intros y HY. pose proof (holds_shape name n W _ _ _ HY) as Sy. pose proof (holds_dims name n W _ _ _ HY) as Dy. destruct HY as [a [Ea [Y1 [Y2 [Y3 Y4]]]]]. injection Ea as <-. exists (sample_cost 2 F y). split; [reflexivity|].
  split; [|split; [exact Y2|split; [reflexivity|]]].
  - constructor; unfold sample_cost; cbn [splates st shape s_event_shape s_plate_dims].
    + apply (wf_names y Y1).
    + apply (wf_pos y Y1).
    + rewrite Y2, any_wide, Sy, Dy, firstn_app, firstn_all, Nat.sub_diag. reflexivity.
    + rewrite Dy, Y2. symmetry. apply any_wide_length.
  - intros i e Hi Hv. unfold sample_cost. cbn [st el]. rewrite Dy, firstn_pre. apply HF. intros e' He'. now apply Y4.
Qed.

Lemma relax_comp_spec : forall x cost nm k lp0 base, hold (PT x) E zval -> exists lp cz ct,
  relax_comp veq anc_unwrap o o_exp ro tau c v probs (mkSample x nm k lp0) cost base = Ok (lp, cz, ct) /\
  hold lp ev lval /\ hold cz [] (fun i _ => c (zval i)) /\ hold ct [] (fun i _ => c (tval i)).
Proof.
  intros x cost nm k lp0 base HX. unfold relax_comp. cbn [sm_t]. rewrite (holds_dims name n W _ _ _ HX).
  destruct (holds_call1 veq anc_unwrap name n W Hn (fun t => Ok (discretize o ro t)) (PT x) E E zval bval (base + 100) HX) as [h [H1 H2]].
  { intros t Ht H. destruct (discretize_spec t Ht H) as [D1 D2]. eauto. }
  rewrite H1. cbn [bind].
  destruct (holds_call2 veq anc_unwrap name n W Hn (cond_sample o o_exp ro tau v) probs h E E bval tval (base + 102) H2 cond_spec) as [t [T1 T2]]. rewrite T1. cbn [bind].
  assert (Ta : exists a, t = PT a) by (destruct T2 as [a [-> _]]; eauto). destruct Ta as [ta ->]. cbn [as_tensor bind]. rewrite (holds_dims name n W _ _ _ T2).
  destruct (holds_call1 veq anc_unwrap name n W Hn (per_sample (length D) c) (PT x) E [] zval (fun i _ => c (zval i)) (base + 104) HX (fun t => per_sample_spec t zval)) as [cz [Z1 Z2]]. rewrite Z1. cbn [bind].
  destruct (holds_call1 veq anc_unwrap name n W Hn (per_sample (length D) c) (PT ta) E [] tval (fun i _ => c (tval i)) (base + 106) T2 (fun t => per_sample_spec t tval)) as [ct [C1 C2]]. rewrite C1. cbn [bind].
  destruct (holds_call2 veq anc_unwrap name n W Hn (log_prob ro) probs h E ev bval lval (base + 108) H2 log_prob_spec) as [lp [L1 L2]]. rewrite L1. cbn [bind].
  exists lp, cz, ct. auto.
Qed.

Definition two : V := o_add o (o_one o) (o_one o).
Definition lsum (i : nat) : V := osum o (map (lval i) (indices ev)).
Definition variate (i : nat) : V :=
  let cz := o_mul o eta (c (zval i)) in let ct := o_mul o eta (c (tval i)) in
  o_add o (o_sub o (o_sub o cz (o_det o cz)) ct) (o_mul o (o_sub o two (box o o_exp (lsum i))) (o_det o ct)).
Lemma relax_terms_spec : forall lp cz ct base, hold lp [] (fun i _ => lsum i) -> hold cz [] (fun i _ => c (zval i)) -> hold ct [] (fun i _ => c (tval i)) ->
  exists y, relax_terms veq anc_unwrap o o_exp eta lp cz ct base = Ok y /\ hold y [] (fun i _ => variate i).
Proof.
  intros lp cz ct base L Z C. unfold relax_terms.
  destruct (holds_scalar veq anc_unwrap name n W Hn (o_mul o) eta cz _ _ (base + 2) Z) as [a [A1 A2]]. rewrite A1. cbn [bind].
  destruct (holds_scalar veq anc_unwrap name n W Hn (o_mul o) eta ct _ _ (base + 4) C) as [b [B1 B2]]. rewrite B1. cbn [bind].
  destruct (holds_op1 veq anc_unwrap name n W Hn (o_det o) a _ _ (base + 6) A2) as [d [D1 D2]]. rewrite D1. cbn [bind].
  destruct (holds_same veq anc_unwrap name n W Hn (o_sub o) a d _ _ _ (base + 8) A2 D2) as [x [X1 X2]]. rewrite X1. cbn [bind].
  destruct (holds_same veq anc_unwrap name n W Hn (o_sub o) x b _ _ _ (base + 10) X2 B2) as [x' [X3 X4]]. rewrite X3. cbn [bind].
  destruct (holds_box veq anc_unwrap o o_exp name n W Hn lp _ _ (base + 12) L) as [m [M1 M2]]. rewrite M1. cbn [bind].
  destruct (holds_scalar veq anc_unwrap name n W Hn (o_sub o) two m _ _ (base + 18) M2) as [s [S1 S2]]. unfold two in S1. rewrite S1. cbn [bind].
  destruct (holds_op1 veq anc_unwrap name n W Hn (o_det o) b _ _ (base + 20) B2) as [e [E1 E2]]. rewrite E1. cbn [bind].
  destruct (holds_same veq anc_unwrap name n W Hn (o_mul o) s e _ _ _ (base + 22) S2 E2) as [q [Q1 Q2]]. rewrite Q1. cbn [bind].
  destruct (holds_same veq anc_unwrap name n W Hn (o_add o) x' q _ _ _ (base + 24) X4 Q2) as [y [Y1 Y2]]. exists y. split; [exact Y1|exact Y2].
Qed.

Notation meth := (method_of (fun _ _ => Ok false) (relax_estimator veq anc_unwrap o o_exp (relax_comp veq anc_unwrap o o_exp ro tau c v probs) eta)).
Lemma relax_front : forall x cost base, hold (PT x) E zval -> forall nm k lp0 (sg : unit), exists lp cz ct,
  me_estimator meth (mkSample x name k lp0) cost nm sg base =
    (do lp <- sum_event veq anc_unwrap o lp (base + 1); do cv <- relax_terms veq anc_unwrap o o_exp eta lp cz ct base; do (a, b) <- unpack2 (pair_of lp cv); Ok (a, b, sg)) /\
  hold lp ev lval /\ hold cz [] (fun i _ => c (zval i)) /\ hold ct [] (fun i _ => c (tval i)).
Proof.
  intros x cost base HX nm k lp0 sg. destruct (relax_comp_spec x cost name k lp0 base HX) as [lp [cz [ct [R1 [R2 [R3 R4]]]]]]. exists lp, cz, ct. split; [|auto].
  destruct HX as [a [Ea [X1 [X2 [X3 X4]]]]]. injection Ea as <-.
  cbn [me_estimator method_of]. unfold relax_estimator. cbn [sm_t sm_name]. unfold get_plate. rewrite X2. cbn [find_plate]. change (pname P) with name. rewrite String.eqb_refl. cbn [bind].
  change (pn P) with n. assert (Hi : 1 <? n = true -> exists d, get_plate_dim_index x name = Ok d).
  { intros Hw. apply Nat.ltb_lt in Hw. unfold get_plate_dim_index, multi_dim_plates. rewrite X2. change (mdp [P]) with (wide [P]). rewrite (P_wide name n W Hw). cbn [find_dim]. change (pname P) with name. rewrite String.eqb_refl. eauto. }
  destruct (1 <? n); [destruct (Hi eq_refl) as [d Hd]; change (pname P) with name; rewrite Hd|]; cbn [bind];
  rewrite R1; cbn [bind]; (destruct (sum_event veq anc_unwrap o lp (base + 1)) as [m|]; [|reflexivity]); cbn [bind];
  destruct (relax_terms veq anc_unwrap o o_exp eta m cz ct base) as [g|]; reflexivity.
Qed.
Lemma relax_estimate : ev <> [] \/ n = 1 -> forall x cost base, hold (PT x) E zval -> forall nm k lp0 (sg : unit),
  exists g cv, me_estimator meth (mkSample x name k lp0) cost nm sg base = Ok (Some g, Some cv, sg) /\ hold g [] (fun i _ => lsum i) /\ hold cv [] (fun i _ => variate i).
Proof.
  intros Hev x cost base HX nm k lp0 sg. destruct (relax_front x cost base HX nm k lp0 sg) as [lp [cz [ct [R1 [R2 [R3 R4]]]]]]. rewrite R1.
  destruct (holds_sum_event veq anc_unwrap o name n W Hn HW lp ev lval (base + 1) Hev R2) as [s [S1 S2]]. rewrite S1. cbn [bind].
  destruct (relax_terms_spec s cz ct base S2 R3 R4) as [y [Y1 Y2]]. rewrite Y1. cbn [bind].
  destruct S2 as [a [-> S2]]. destruct Y2 as [b [-> Y2]]. exists (PT a), (PT b). split; [reflexivity|]. split; [exists a; auto|exists b; auto].
Qed.


Lemma no_foreign : forall l : list plate, filter (fun q => negb (has l (pname q))) l = [].
Proof.
  intros l. assert (H : forall m, (forall q, In q m -> In q l) -> filter (fun q => negb (has l (pname q))) m = []); [|apply H; auto].
  induction m as [|q m IH]; intros Hm; [reflexivity|]. simpl. replace (has l (pname q)) with true; [apply IH; intros; apply Hm; now right|].
  symmetry. apply existsb_exists. exists q. split; [apply Hm; now left|apply String.eqb_refl].
Qed.
Theorem relax_loss : ev <> [] \/ n = 1 -> forall base, exists t, relax_program veq anc_unwrap o o_exp recip ro tau name n eta F c u v probs base = Ok t /\ shape t = [] /\
  el t [] = osum o (map (fun i => o_mul o (recip n) (o_mul o (box o o_exp (lsum i)) (o_add o (variate i) (cost_val i)))) (seq 0 n)).
Proof.
  intros Hev base. destruct relax_x as [x [X1 [X2 X3]]]. destruct relax_y as [y [Y1 [Y2 Y3]]]. pose proof (relax_c y Y3) as C3.
  unfold relax_program. rewrite X1, Y1. cbn [bind]. set (nodes := relax_tensors veq anc_unwrap o o_exp ro tau name n eta F c v probs x y).
  unfold backward_value, surrogate_loss. cbn [surrogate_costs]. unfold surrogate_cost. rewrite arm_order. cbn [bind foldM].
  pose proof (holds_over name n W _ _ _ X3) as Ox. pose proof (holds_over name n W _ _ _ C3) as Oc. pose proof (holds_plates name n W _ _ _ X3) as Px. pose proof (holds_plates name n W _ _ _ C3) as Pc.
  unfold add_parent. cbn [nodes relax_tensors nd_sto]. cbn [me_pathwise method_of bind nd_t nd_name].
  change (nd_t (nodes 2)) with (sample_cost 2 F y). change (nd_t (nodes 0)) with x.
  destruct (averaged_spec veq anc_unwrap o Hring [P] (any_sound veq anc_unwrap name n W Hn) ltac:(apply lone_acyclic; reflexivity) ltac:(intros p [<-|[]]; apply (any_fits name n W HW))
    (sample_cost 2 F y) x base Oc Ox eq_refl) as [red [rc [R1 [R2 [R3 [R4 [R5 [R6 R7]]]]]]]].
  { rewrite Pc. intros p Ip. left. intros q Hq. apply filter_In in Ip. destruct Ip as [[<-|[]] _]. destruct Hq. }
  destruct R7 as [-> ->]. { unfold foreign. rewrite Px, Pc. apply no_foreign. }
  rewrite R1. cbn [bind]. rewrite R2. cbn [bind].
  destruct (new_parent_spec veq anc_unwrap [P] (any_sound veq anc_unwrap name n W Hn) x (sample_cost 2 F y) base Ox R3 R4 R5) as [np [N1 [N2 _]]]. rewrite N1. cbn [bind].
  assert (Hnp : hold (PT np) E zval).
  { destruct X3 as [? [Ea [Q1 [Q2 [Q3 Q4]]]]]. injection Ea as <-. destruct N2 as [K1 K2 K3 K4]. rewrite Px in K2. apply Permutation_length_1_inv in K2.
    exists np. split; [reflexivity|]. split; [exact K1|]. split; [exact K2|]. split; [congruence|]. intros i e Hi Hv.
    specialize (K4 (at_ i) e). rewrite Px, Q3 in K4. specialize (K4 (any_range name n W i Hi) Hv).
    rewrite !(any_den name n W _ i e) in K4 by auto. rewrite K4. auto. }
  match goal with |- context [me_estimator ?m (mkSample np name ?k ?l) _ ?nm tt base] =>
    destruct (relax_estimate Hev np (sample_cost 2 F y) base Hnp nm k l tt) as [g [cv [G1 [G2 G3]]]]; rewrite G1 end. cbn [bind].
  unfold add_terms.
  destruct (holds_scalar veq anc_unwrap name n W Hn (o_add o) (o_zero o) g _ _ base G2) as [L [L1 L2]]. rewrite L1. cbn [bind].
  destruct (holds_box veq anc_unwrap o o_exp name n W Hn _ _ _ (base + 10) L2) as [b [B1 B2]]. rewrite B1. cbn [bind].
  set (bx := fun i => box o o_exp (o_add o (o_zero o) (lsum i))).
  destruct (holds_same veq anc_unwrap name n W Hn (o_mul o) b cv _ _ _ (base + 20) B2 G3) as [A [A1 A2]]. rewrite A1. cbn [bind].
  destruct (holds_reduce veq anc_unwrap o Hring name n W Hn HW _ _ _ (base + 30) A2) as [A' [A3 A4]]. rewrite A3. cbn [bind].
  set (tA := osum o (map (fun i => o_mul o (wv W i) (o_mul o (bx i) (variate i))) (seq 0 n))).
  assert (A5 : free (PT A') [] (fun _ => tA)) by exact A4. clear A4.
  assert (Sh : ndim (st A') = 0).
  { destruct A5 as [? [Ea [Q1 [Q2 [Q3 _]]]]]. injection Ea as <-. unfold ndim. rewrite (wf_shape _ Q1), Q2, Q3. reflexivity. }
  rewrite Sh. cbn [Nat.eqb bind].
  destruct (free_scalar veq anc_unwrap (o_add o) (o_zero o) (PT A') _ _ (base + 28) A5) as [acc [K1 K2]]. rewrite K1. cbn [bind].
  rewrite B1. cbn [bind].
  destruct (holds_same veq anc_unwrap name n W Hn (o_mul o) b (PT (sample_cost 2 F y)) _ _ _ (base + 20) B2 C3) as [m [M1 M2]].
  rewrite M1. cbn [bind].
  destruct (holds_reduce veq anc_unwrap o Hring name n W Hn HW _ _ _ (base + 30) M2) as [rr [R3' R4']]. rewrite R3'. cbn [bind].
  set (tB := osum o (map (fun i => o_mul o (wv W i) (o_mul o (bx i) (cost_val i))) (seq 0 n))).
  assert (R6' : free (PT rr) [] (fun _ => tB)) by exact R4'.
  destruct (free_op2 veq anc_unwrap (o_add o) acc (PT rr) [] [] [] _ _ (base + 28) K2 R6') as [z [Z1 Z2]].
  { constructor. } { intros e Hv. inversion Hv; subst. split; constructor. }
  rewrite Z1. cbn [bind].
  destruct (free_total veq anc_unwrap o 2 (le_n 2) z [] _ base (base + 2) Z2) as [s [S1 [t [T1 T2]]]]. rewrite S1. cbn [bind]. rewrite T1. cbn [bind].
  destruct T2 as [tt' [-> [T3 [T4 [T5 T6]]]]]. cbn [as_tensor bind]. exists (st tt'). split; [reflexivity|].
  split; [rewrite (wf_shape _ T3), T4, T5; reflexivity|]. rewrite T6 by constructor. cbn [indices map osum fold_right].
  assert (Zb : forall i, bx i = box o o_exp (lsum i)) by (intros i; unfold bx; replace (o_add o (o_zero o) (lsum i)) with (lsum i) by ring; reflexivity).
  transitivity (o_add o tA tB); [ring|]. unfold tA, tB. rewrite <- (osum_add o Hring). apply osum_ext. intros i Hi. rewrite Zb. change (wv W i) with (recip n). ring.
Qed.
(** Without event dimensions the program does not reach the end. *)
Theorem relax_scalar : 2 <= n -> ev = [] -> forall base, relax_program veq anc_unwrap o o_exp recip ro tau name n eta F c u v probs base = Err ValueError.
Proof.
  intros H2 Hev base. destruct relax_x as [x [X1 [X2 X3]]]. destruct relax_y as [y [Y1 [Y2 Y3]]]. pose proof (relax_c y Y3) as C3.
  unfold relax_program. rewrite X1, Y1. cbn [bind]. set (nodes := relax_tensors veq anc_unwrap o o_exp ro tau name n eta F c v probs x y).
  unfold backward_value, surrogate_loss. cbn [surrogate_costs]. unfold surrogate_cost. rewrite arm_order. cbn [bind foldM].
  pose proof (holds_over name n W _ _ _ X3) as Ox. pose proof (holds_over name n W _ _ _ C3) as Oc. pose proof (holds_plates name n W _ _ _ X3) as Px. pose proof (holds_plates name n W _ _ _ C3) as Pc.
  unfold add_parent. cbn [nodes relax_tensors nd_sto]. cbn [me_pathwise method_of bind nd_t nd_name].
  change (nd_t (nodes 2)) with (sample_cost 2 F y). change (nd_t (nodes 0)) with x.
  destruct (averaged_spec veq anc_unwrap o Hring [P] (any_sound veq anc_unwrap name n W Hn) ltac:(apply lone_acyclic; reflexivity) ltac:(intros p [<-|[]]; apply (any_fits name n W HW))
    (sample_cost 2 F y) x base Oc Ox eq_refl) as [red [rc [R1 [R2 [R3 [R4 [R5 [R6 R7]]]]]]]].
  { rewrite Pc. intros p Ip. left. intros q Hq. apply filter_In in Ip. destruct Ip as [[<-|[]] _]. destruct Hq. }
  destruct R7 as [-> ->]. { unfold foreign. rewrite Px, Pc. apply no_foreign. }
  rewrite R1. cbn [bind]. rewrite R2. cbn [bind].
  destruct (new_parent_spec veq anc_unwrap [P] (any_sound veq anc_unwrap name n W Hn) x (sample_cost 2 F y) base Ox R3 R4 R5) as [np [N1 [N2 _]]]. rewrite N1. cbn [bind].
  assert (Hnp : hold (PT np) E zval).
  { destruct X3 as [? [Ea [Q1 [Q2 [Q3 Q4]]]]]. injection Ea as <-. destruct N2 as [K1 K2 K3 K4]. rewrite Px in K2. apply Permutation_length_1_inv in K2.
    exists np. split; [reflexivity|]. split; [exact K1|]. split; [exact K2|]. split; [congruence|]. intros i e Hi Hv.
    specialize (K4 (at_ i) e). rewrite Px, Q3 in K4. specialize (K4 (any_range name n W i Hi) Hv).
    rewrite !(any_den name n W _ i e) in K4 by auto. rewrite K4. auto. }
  match goal with |- context [me_estimator ?m (mkSample np name ?k ?l) _ ?nm tt base] =>
    destruct (relax_front np (sample_cost 2 F y) base Hnp nm k l tt) as [lp [cz [ct [G1 [G2 _]]]]]; rewrite G1 end.
  rewrite Hev in G2. rewrite (scalar_sum H2 _ _ _ G2). reflexivity.
Qed.
End RelaxLoss.
