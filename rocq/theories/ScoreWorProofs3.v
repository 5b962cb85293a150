(** Scaling the cost of a program that uses ScoreFunctionWOR. *)
From Coq Require Import String List Arith Bool ZArith Lia Permutation Ring Reals Lra.
From Verif Require Import Base Torch Plates Wrap OrderPlates Scalar Reduce Graph Surrogate Estimators ScoreWor ListLemmas IndexLemmas SpecTensor SpecWrap
  SpecOrder SpecReduce SpecGraph SpecSurrogate SpecScoreWor ReduceProofs2 SurrogateProofs Dual BiasProofs2 RaoBlackwellProofs ScoreWorProofs ScoreWorProofs2.
Import ListNotations.
Open Scope nat_scope.

Section Linear.
Context {V : Type}.
Variable o : sops V.
Hypothesis Hring : is_ring o.
Variable o_div : V -> V -> V.
Let Hring' : ring_theory (o_zero o) (o_one o) (o_add o) (o_mul o) (o_sub o) (o_opp o) (@eq V) := Hring.
Add Ring o_ring : Hring'.

Lemma over_samples_mul : forall n a f g, (forall i, f i = o_mul o a (g i)) -> over_samples o n f = o_mul o a (over_samples o n g).
Proof.
  intros n a f g H. unfold over_samples. induction (seq 0 n) as [|i l IH]; [cbn; ring|]. cbn [map]. rewrite !osum_cons, IH, H. ring.
Qed.
Theorem wor_linear : forall a biased use_baseline n iw pr c, (forall x, o_det o (o_mul o a x) = o_mul o a (o_det o x)) ->
  (forall x y, o_div (o_mul o a x) y = o_mul o a (o_div x y)) ->
  wor_term o o_div biased use_baseline n iw pr (fun i => o_mul o a (c i)) = o_mul o a (wor_term o o_div biased use_baseline n iw pr c).
Proof.
  intros a biased use_baseline n iw pr c Hd Hv.
  assert (HB : over_samples o n (fun i => o_mul o (iw i) (o_mul o a (c i))) = o_mul o a (over_samples o n (fun i => o_mul o (iw i) (c i)))).
  { apply over_samples_mul. intros i. ring. }
  unfold wor_term. destruct use_baseline; [destruct biased|]; unfold eq11, eq10, eq9; cbv zeta; rewrite ?HB; apply over_samples_mul; intros i.
  - rewrite Hv. replace (o_sub o (o_mul o a (c i)) (o_mul o a (o_div (over_samples o n (fun j => o_mul o (iw j) (c j))) (over_samples o n iw))))
      with (o_mul o a (o_sub o (c i) (o_div (over_samples o n (fun j => o_mul o (iw j) (c j))) (over_samples o n iw)))) by ring.
    rewrite Hd. ring.
  - replace (o_sub o (o_mul o (o_mul o a (c i)) (o_add o (o_sub o (o_one o) (pr i)) (iw i))) (o_mul o a (over_samples o n (fun j => o_mul o (iw j) (c j)))))
      with (o_mul o a (o_sub o (o_mul o (c i) (o_add o (o_sub o (o_one o) (pr i)) (iw i))) (over_samples o n (fun j => o_mul o (iw j) (c j))))) by ring.
    rewrite Hd. ring.
  - rewrite Hd. ring.
Qed.
End Linear.

(** The estimator on a cost and on the scaled cost. *)
Theorem wor_estimator_linear : forall (V S : Type) (veq : V -> V -> bool) anc_unwrap (o : sops V) (o_exp : V -> V) o_div eps, is_ring o ->
  forall P pl0 (lp : stensor V) pert FP a, 1 < pn P -> wf lp -> splates lp = pl0 ++ [P] -> s_event_shape lp = [] -> shape pert = shape (st lp) ->
  sound veq FP -> incl (pl0 ++ [P]) FP ->
  (forall x, o_det o (o_mul o a x) = o_mul o a (o_det o x)) -> (forall x y, o_div (o_mul o a x) y = o_mul o a (o_div x y)) ->
  forall biased use_baseline x (c c' : stensor V) ql C nm nm' (sg : S) base base', incl ql FP -> In P ql -> ext C ->
  stands (PT c) ql C -> stands (PT c') ql (fun s => o_mul o a (C s)) ->
  exists g g' gp f, wor_estimator veq anc_unwrap o o_exp o_div eps (pname P) biased use_baseline lp pert x c nm sg base = Ok (pair_of (PT g) PNone, sg) /\
    wor_estimator veq anc_unwrap o o_exp o_div eps (pname P) biased use_baseline lp pert x c' nm' sg base' = Ok (pair_of (PT g') PNone, sg) /\
    stands (PT g) gp f /\ exists gp', stands (PT g') gp' (fun s => o_mul o a (f s)) /\ incl gp FP /\ incl gp' FP /\
    (forall y, In y (map pname gp) <-> In y (map pname gp')).
Proof.
  intros V S veq anc o ex dv eps Hr P pl0 lp pert FP a HnP Hlp Hpl Hlev Hpert HS Hin Hd Hv biased ub x c c' ql C nm nm' sg base base' Hql HP HC Hc Hc'.
  destruct (wor_spec (S := S) veq anc o ex dv eps P pl0 lp pert HnP Hlp Hpl Hlev Hpert FP HS Hin biased ub x c ql C nm sg base Hc Hql HP HC) as [g [gp [E1 [E2 [E3 E4]]]]].
  assert (HC' : ext (fun s => o_mul o a (C s))) by (intros s s' E; now rewrite (HC s s' E)).
  destruct (wor_spec (S := S) veq anc o ex dv eps P pl0 lp pert HnP Hlp Hpl Hlev Hpert FP HS Hin biased ub x c' ql _ nm' sg base' Hc' Hql HP HC') as [g' [gp' [F1 [F2 [F3 F4]]]]].
  eexists g, g', gp, _. split; [exact E1|]. split; [exact F1|]. split; [exact E2|]. exists gp'. split; [|split; [exact E3|split; [exact F3|]]].
  - apply (stands_ext _ _ _ _ F2). intros s Hs. unfold samples_of at 3. rewrite (wor_linear o Hr dv a biased ub) by auto. reflexivity.
  - intros y. rewrite E4, F4. tauto.
Qed.

Open Scope R_scope.
(** Division. *)
Definition rd_div (x y : RD) : RD := (fst x / fst y, (snd x * fst y - fst x * snd y) / (fst y * fst y)).
Lemma rd_scale_div : forall s (x y : RD), rd_div (o_mul rd_ops (s, 0) x) y = o_mul rd_ops (s, 0) (rd_div x y).
Proof. intros s x y. unfold rd_div, rd_ops, dual_ops, real_ops, Rdiv. cbn. f_equal; ring. Qed.
Lemma rd_scale_det : forall s (x : RD), o_det rd_ops (o_mul rd_ops (s, 0) x) = o_mul rd_ops (s, 0) (o_det rd_ops x).
Proof. intros s x. unfold rd_ops, dual_ops, real_ops. cbn. f_equal; ring. Qed.

Definition scaled (s : R) (c : list RD) : list RD := map (o_mul rd_ops (s, 0)) c.
Lemma nth_scaled : forall s c i, nth i (scaled s c) (o_zero rd_ops) = o_mul rd_ops (s, 0) (nth i c (o_zero rd_ops)).
Proof.
  intros s c i. unfold scaled. rewrite <- (map_nth (o_mul rd_ops (s, 0))). f_equal. unfold rd_ops, dual_ops, real_ops. cbn. f_equal; ring.
Qed.
Lemma rd_box : forall x, box rd_ops rd_exp x = (1, snd x).
Proof.
  intros x. unfold box, rd_exp, dual_exp, rd_ops, dual_ops, real_ops. cbn [o_sub o_det o_mul o_zero fst snd].
  replace (fst x - fst x) with 0 by ring. rewrite exp_0. f_equal. ring.
Qed.

Lemma snd_nth : forall {A} (f : A -> RD) l i, (forall a, snd (f a) = 0) -> snd (nth i (map f l) (o_zero rd_ops)) = 0.
Proof. intros A f l. induction l as [|a l IH]; intros [|i] H; cbn [map nth]; auto. Qed.

Lemma snd_sums : forall (f g : nat -> RD) r l, (forall i, snd (f i) = r * snd (g i)) -> snd (osum rd_ops (map f l)) = r * snd (osum rd_ops (map g l)).
Proof.
  intros f g r l H. induction l as [|i l IH]; [cbn; ring|]. cbn [map]. rewrite !osum_cons.
  change (snd (f i) + snd (osum rd_ops (map f l)) = r * (snd (g i) + snd (osum rd_ops (map g l)))). rewrite H, IH. ring.
Qed.
Lemma scaled_term : forall s (w c G : RD), snd w = 0 -> snd c = 0 ->
  snd (o_mul rd_ops w (o_mul rd_ops (1, snd (o_mul rd_ops (s, 0) G)) (o_mul rd_ops (s, 0) c))) = s * s * snd (o_mul rd_ops w (o_mul rd_ops (1, snd G) c)).
Proof. intros s [w w'] [c c'] [G G'] Hw Hc. cbn [snd] in *. subst. cbn. ring. Qed.

Lemma wor_scaled : forall (S : Type) name obj biased use_baseline lp pert x cost eps s (sg : S) base,
  (2 <= length lp)%nat -> length pert = length lp -> (exists ev, shape x = length lp :: ev) -> length cost = length lp ->
  (forall c, In c cost -> snd c = 0) ->
  exists t t',
    backward_value rd_eq rd_anc rd_ops rd_exp 20 wor_heap
      (wor_nodes rd_eq rd_anc rd_ops rd_exp rd_div eps name obj biased use_baseline lp pert x cost) [1%nat] sg base = Ok t /\
    backward_value rd_eq rd_anc rd_ops rd_exp 20 wor_heap
      (wor_nodes rd_eq rd_anc rd_ops rd_exp rd_div eps name obj biased use_baseline lp pert x (scaled s cost)) [1%nat] sg base = Ok t' /\
    snd (el t' []) = s * s * snd (el t []).
Proof.
  intros S name obj biased ub lp pert x cost eps s sg base Hn Hp Hx Hc H0.
  destruct (wor_loss (S := S) rd_eq rd_anc rd_ops rd_ring rd_exp rd_div eps name obj biased ub lp pert x cost Hn Hp Hx Hc sg base) as [t [E1 [_ E3]]].
  assert (Hc' : length (scaled s cost) = length lp) by (unfold scaled; now rewrite map_length).
  destruct (wor_loss (S := S) rd_eq rd_anc rd_ops rd_ring rd_exp rd_div eps name obj biased ub lp pert x (scaled s cost) Hn Hp Hx Hc' sg base) as [t' [F1 [_ F3]]].
  exists t, t'. split; [exact E1|]. split; [exact F1|]. rewrite E3, F3. clear E1 E3 F1 F3 t t'. rewrite !rd_box.
  assert (ET : wterm rd_ops rd_exp rd_div eps biased ub lp pert (scaled s cost) = o_mul rd_ops (s, 0) (wterm rd_ops rd_exp rd_div eps biased ub lp pert cost)).
  { unfold wterm. rewrite <- (wor_linear rd_ops rd_ring rd_div (s, 0)) by (intros; first [apply rd_scale_det|apply rd_scale_div]).
    apply wor_term_ext; auto. apply nth_scaled. }
  rewrite ET. set (G := wterm rd_ops rd_exp rd_div eps biased ub lp pert cost). clearbody G.
  assert (HW : forall i, snd (nth i (wor_weights rd_ops rd_exp rd_div eps biased lp pert) (o_zero rd_ops)) = 0).
  { intros i. unfold wor_weights. cbv zeta. apply snd_nth. reflexivity. }
  assert (HC : forall i, snd (nth i cost (o_zero rd_ops)) = 0).
  { intros i. destruct (nth_in_or_default i cost (o_zero rd_ops)) as [Hi|Hi]; [auto|rewrite Hi; reflexivity]. }
  apply snd_sums. intros i. rewrite nth_scaled. apply scaled_term; auto.
Qed.

(** Three samples of probability 1/4, of which one is the threshold; the first has a derivative. *)
Definition wq_lp : list RD := [(ln (1/4), 1); (ln (1/4), 0); (ln (1/4), 0)].
Definition wq_pert : list RD := [(2, 0); (1, 0); (0, 0)].
Definition wq_cost : list RD := [(2, 0); (0, 0); (0, 0)].
Lemma wq_nonzero : forall (S : Type) name obj biased use_baseline x e (sg : S) base, (exists ev, shape x = 3%nat :: ev) -> 0 <= e ->
  exists t, backward_value rd_eq rd_anc rd_ops rd_exp 20 wor_heap
    (wor_nodes rd_eq rd_anc rd_ops rd_exp rd_div (e, 0) name obj biased use_baseline wq_lp wq_pert x wq_cost) [1%nat] sg base = Ok t /\ snd (el t []) > 0.
Proof.
  intros S name obj biased ub x e sg base Hx He.
  destruct (wor_loss (S := S) rd_eq rd_anc rd_ops rd_ring rd_exp rd_div (e, 0) name obj biased ub wq_lp wq_pert x wq_cost) with (sg := sg) (base := base)
    as [t [E1 [_ E3]]]; [simpl; lia|reflexivity|exact Hx|reflexivity|].
  exists t. split; [exact E1|]. rewrite E3. clear E1 E3 t. rewrite rd_box.
  set (d := 1 - exp (- (1/4)) + e).
  assert (Hd : 0 < d). { unfold d. assert (exp (- (1/4)) < exp 0) by (apply exp_increasing; lra). rewrite exp_0 in H. lra. }
  assert (He0 : forall z, rd_exp (ln (1/4), z) = (1/4, 1/4 * z)).
  { intros z. unfold rd_exp, dual_exp, real_ops. cbn [fst snd o_mul]. rewrite exp_ln by lra. reflexivity. }
  assert (Hw : forall z, iw_one rd_ops rd_exp rd_div (e, 0) (ln (1/4), z) (0, 0) = (1/4 / d, 1/4 * z / d)).
  { intros z. unfold iw_one. replace (o_sub rd_ops (ln (1/4), z) (0, 0)) with ((ln (1/4), z) : RD) by (cbn; f_equal; ring). rewrite !He0.
    cbn -[exp]. unfold rd_div. cbn [fst snd]. fold d. f_equal. field. lra. }
  set (w := 1/4/d) in *. assert (Hwp : 0 < w) by (unfold w; apply Rdiv_lt_0_compat; lra).
  assert (W0 : wiw rd_ops rd_exp rd_div (e, 0) wq_lp wq_pert 0 = (w, w)) by (unfold wiw; cbn [length wq_lp wq_pert nth Nat.sub Nat.eqb]; rewrite Hw; f_equal; unfold w; field; lra).
  assert (W1 : wiw rd_ops rd_exp rd_div (e, 0) wq_lp wq_pert 1 = (w, 0)) by (unfold wiw; cbn [length wq_lp wq_pert nth Nat.sub Nat.eqb]; rewrite Hw; f_equal; unfold w; field; lra).
  assert (W2 : wiw rd_ops rd_exp rd_div (e, 0) wq_lp wq_pert 2 = (0, 0)) by reflexivity.
  assert (HWW : wor_weights rd_ops rd_exp rd_div (e, 0) biased wq_lp wq_pert = if biased then [(1/2, 0); (1/2, 0); (0, 0)] else [(w, 0); (w, 0); (0, 0)]).
  { unfold wor_weights. cbv zeta. cbn [length wq_lp wq_pert nth Nat.sub seq map Nat.eqb]. rewrite !Hw. fold w. destruct biased; [|reflexivity].
    unfold osum, rd_div, rd_ops, dual_ops, real_ops. cbn. repeat (f_equal; try (field; lra)). }
  rewrite HWW. unfold wterm. change (length wq_lp) with 3%nat.
  unfold wor_term. destruct ub; [destruct biased|]; unfold eq11, eq10, eq9, over_samples; cbn [seq map]; rewrite ?W0, ?W1, ?W2; cbn [nth wq_lp wq_cost];
    rewrite ?He0; unfold osum, rd_div, rd_ops, dual_ops, real_ops; cbn.
  3: destruct biased; cbn.
  - match goal with |- ?G > 0 => replace G with (w / (w + 1/4)) by (field; lra) end. apply Rdiv_lt_0_compat; lra.
  - match goal with |- ?G > 0 => replace G with (3 * (w * w)) by field end. assert (0 < w * w) by (apply Rmult_lt_0_compat; lra). lra.
  - match goal with |- ?G > 0 => replace G with 1 by (field; lra) end. lra.
  - match goal with |- ?G > 0 => replace G with (4 * (w * w)) by field end. assert (0 < w * w) by (apply Rmult_lt_0_compat; lra). lra.
Qed.
