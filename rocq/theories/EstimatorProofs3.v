(** What the estimators return. *)
From Coq Require Import String List Arith Bool ZArith Lia Permutation Ring.
From Verif Require Import Base Torch Plates Wrap OrderPlates Scalar Reduce Graph Surrogate Estimators ListLemmas IndexLemmas SpecTensor SpecWrap
  SpecOrder SpecReduce SpecGraph SpecSurrogate CallProofs OpProofs SurrogateProofs SurrogateProofs2 SurrogateProofs3 EstimatorProofs.
Import ListNotations.

Section Returns.
Context {V S : Type}.
Variable veq : V -> V -> bool.
Variable anc_unwrap : plate V -> stensor V -> res (stensor V).
Variable o : sops V.
Hypothesis Hring : is_ring o.
Variable o_exp : V -> V.

Theorem score_returns : forall FP (a : stensor V) (bl : option (@baseline V S)) n lp ev f name rc cname sg base,
  sound veq FP -> over FP a -> has_log_prob a lp ev f ->
  (forall g key, bl = Some g -> exists b bp bf sg', g (mkSample a name n lp) rc key sg base = Ok (b, sg') /\ stands b bp bf /\ incl bp FP) ->
  exists g cv sg', score_estimator veq anc_unwrap o o_exp bl (mkSample a name n lp) rc cname sg base = Ok (Some g, cv, sg') /\
    (bl = None <-> cv = None).
Proof.
  intros FP a bl n lp ev f name rc cname sg base HS Ho Hl Hb. pose proof Ho as [Wa Ia Ca].
  assert (Hr : relabelled a a) by (constructor; auto).
  destruct (summed_log_prob veq anc_unwrap o Hring FP a a lp ev f base HS Ho Hr Hl) as [l [t [E1 [E2 E3]]]].
  unfold score_estimator. cbn [sm_log_prob sm_t sm_name]. rewrite E1. cbn [bind]. cbv zeta in E2 |- *. rewrite E2. cbn [bind].
  destruct bl as [g|].
  - destruct (Hb g ("_b_" ++ name ++ "_" ++ cname)%string eq_refl) as [b [bp [bf [sg' [B1 [B2 B3]]]]]]. rewrite B1. cbn [bind].
    destruct (magic_box_spec veq anc_unwrap o o_exp FP HS (PT t) (splates a) _ (base + 2) E3 Ia) as [mb [M1 [M2 M3]]].
    rewrite M1. cbn [bind].
    destruct (stands_op2 veq anc_unwrap FP HS (o_sub o) (PRaw (tscalar (o_one o))) mb [] (splates a) (fun _ => o_one o) _ (base + 8) (stands_num _) M2) as [d [D1 [D2 D3]]].
    { intros x []. } { exact Ia. }
    rewrite D1. cbn [bind]. rewrite union_nil_l in D2.
    destruct (stands_op2 veq anc_unwrap FP HS (o_mul o) d b (splates a) bp _ bf (base + 9) D2 B2 Ia B3) as [cv [C1 [C2 C3]]].
    rewrite C1. cbn [bind]. exists (PT t), (Some cv), sg'. split; [reflexivity|]. split; discriminate.
  - exists (PT t), None, sg. split; [reflexivity|]. tauto.
Qed.
End Returns.

Section Never.
Context {V S : Type}.

Lemma bind_ok : forall {A B} (x : res A) (f : A -> res B) r, bind x f = Ok r -> exists a, x = Ok a /\ f a = Ok r.
Proof. intros A B [a|e] f r H; [eauto|discriminate]. Qed.

Theorem lax_never : forall veq anc_unwrap (o : sops V) c_phi x c nm (sg : S) base r,
  lax_estimator veq anc_unwrap o c_phi x c nm sg base <> Ok r.
Proof.
  intros veq anc o c_phi x c nm sg base r H. unfold lax_estimator in H.
  repeat (apply bind_ok in H; destruct H as [? [_ H]]). discriminate.
Qed.

(** An elementwise function of a storch tensor and anything is not a tuple. *)
Lemma op2_no_tuple : forall veq anc_unwrap f (a : stensor V) v base l, torch_op2 veq anc_unwrap top_ctx f (PT a) v base <> Ok (PTuple l).
Proof.
  intros veq anc f a v base l H. unfold torch_op2, handle_deterministic in H. cbn [c_stochastic top_ctx] in H.
  apply bind_ok in H. destruct H as [[[[args' kwargs'] parents] plates] [_ H]].
  destruct parents.
  - unfold torch_fn2 in H. discriminate.
  - apply bind_ok in H. destruct H as [out [H1 H]]. cbn [c_ignore top_ctx] in H. cbv zeta in H.
    apply bind_ok in H. destruct H as [[v' i] [H2 H]]. injection H as ->.
    assert (exists t, out = PRaw t) as [t ->].
    { unfold torch_fn2 in H1. destruct args' as [|[| |t| | | | | |] [|[| |u| | | | | |] [|]]]; try discriminate. destruct kwargs'; [|discriminate].
      apply bind_ok in H1. destruct H1 as [r [_ H1]]. injection H1 as <-. eauto. }
    cbn [prepare_outputs] in H2. apply bind_ok in H2. destruct H2 as [? [_ H2]]. apply bind_ok in H2. destruct H2 as [? [_ H2]]. discriminate.
Qed.

Theorem unordered_not_pair : forall veq anc_unwrap (o : sops V) o_exp log_probs log_snd name x c nm (sg : S) base,
  (forall v sg', unordered_estimator veq anc_unwrap o o_exp log_probs log_snd name false x c nm sg base = Ok (v, sg') ->
    forall g cv, v <> PTuple [g; cv]) /\
  forall r, me_estimator (method_of (fun _ _ => Ok false) (unordered_estimator veq anc_unwrap o o_exp log_probs log_snd name false)) x c nm sg base <> Ok r.
Proof.
  intros veq anc o o_exp log_probs log_snd name x c nm sg base.
  assert (A : forall v sg', unordered_estimator veq anc o o_exp log_probs log_snd name false x c nm sg base = Ok (v, sg') -> forall l, v <> PTuple l).
  { intros v sg' H l ->. unfold unordered_estimator in H. destruct (find _ _) as [p|]; [|discriminate]. cbn [negb] in H.
    apply bind_ok in H. destruct H as [d [_ H]]. apply bind_ok in H. destruct H as [r [H1 H]]. injection H as -> _.
    exact (op2_no_tuple _ _ _ _ _ _ _ H1). }
  split; [intros v sg' H g cv; apply (A v sg' H)|]. intros r H. cbn [me_estimator method_of] in H.
  apply bind_ok in H. destruct H as [[v sg'] [H1 H]]. apply bind_ok in H. destruct H as [[g cv] [H2 _]].
  specialize (A v sg' H1). destruct v; try discriminate. exact (A _ eq_refl).
Qed.
End Never.
