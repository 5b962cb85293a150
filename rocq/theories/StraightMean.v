(** The expectation over all samples of a straight-line program is the expectation of one run. *)
From Coq Require Import String List Arith Bool Lia Permutation Ring.
From Verif Require Import Base Torch Plates Wrap Scalar Inference Graph Surrogate Sampling Straight ListLemmas IndexLemmas SpecTensor SpecWrap SpecOrder
  SpecReduce SpecGraph SpecSurrogate SpecSampling SpecProgram WrapProofs PlateEqProofs AlignProofs
  InferenceProofs SamplingProofs ReduceProofs2 SurrogateProofs ExactProofs ProgramProofs ProgramProofs2 StraightProofs StraightLoss SpecStraight.
Import ListNotations.
Open Scope nat_scope.

Section Mean.
Context {V : Type}.
Variable anc_unwrap : plate V -> stensor V -> res (stensor V).
Variable recip : nat -> V.
Variable o : sops V.
Hypothesis Hring : is_ring o.
Variable o_exp : V -> V.
Notation plate := (plate V).
Notation N l := (map (@pname V) l).
Let Hring' : ring_theory (o_zero o) (o_one o) (o_add o) (o_mul o) (o_sub o) (o_opp o) (@eq V) := Hring.
Add Ring o_ring : Hring'.
Hypothesis Hrecip : forall n, 1 <= n -> osum o (repeat (recip n) n) = o_one o.

(** ** Averages over plates *)
Fixpoint avg (ps : list plate) (f : assignment -> V) (s : assignment) : V :=
  match ps with
  | [] => f s
  | p :: r => osum o (map (fun i => o_mul o (recip (pn p)) (avg r f (set_to s (pname p) i))) (seq 0 (pn p)))
  end.
Lemma avg_ext : forall ps f g s, (forall s', (forall x, ~ In x (N ps) -> s' x = s x) -> f s' = g s') -> avg ps f s = avg ps g s.
Proof.
  induction ps as [|p ps IH]; intros f g s H; cbn [avg]; [apply H; auto|]. apply osum_ext. intros i _. f_equal. apply IH. intros s' Hs. apply H.
  intros x Hx. cbn [map] in Hx. rewrite Hs by (intros C; apply Hx; now right). unfold set_to. destruct (String.eqb x (pname p)) eqn:E; auto.
  apply String.eqb_eq in E. destruct Hx. left. auto.
Qed.
Lemma avg_scale : forall ps c f s, avg ps (fun s => o_mul o c (f s)) s = o_mul o c (avg ps f s).
Proof.
  induction ps as [|p ps IH]; intros c f s; cbn [avg]; auto. rewrite (osum_mul_l o Hring). apply osum_ext. intros i _. rewrite IH. ring.
Qed.
Lemma avg_sum : forall {A} ps (l : list A) (f : A -> assignment -> V) s, avg ps (fun s => osum o (map (fun j => f j s) l)) s = osum o (map (fun j => avg ps (f j) s) l).
Proof.
  induction ps as [|p ps IH]; intros l f s; cbn [avg]; auto. rewrite (osum_swap o Hring). apply osum_ext. intros i _. rewrite IH. apply (osum_mul_l o Hring).
Qed.
Lemma ones : forall n, 1 <= n -> osum o (map (fun _ => recip n) (seq 0 n)) = o_one o.
Proof.
  intros n Hn. rewrite <- (Hrecip n Hn). f_equal. clear Hn. generalize n at 1 3. intros k. generalize 0. induction n as [|n IH]; intros z; cbn; auto. now rewrite IH.
Qed.
(** The weighted sum with uniform weights. *)
Lemma weighted_avg : forall L ps f s, (forall p, In p ps -> pweight p = WTorch (tscalar (recip (pn p)))) -> weighted_sum o false L ps f s = avg ps f s.
Proof.
  intros L ps f s H. unfold weighted_sum. transitivity (sum_over o ps (fun s' => o_mul o (oprod o (map (fun p => recip (pn p)) ps)) (f s')) s).
  { apply sum_over_pt. intros s'. f_equal. f_equal. apply map_ext_in. intros p Hp. cbv zeta. unfold weight_at. rewrite (H p Hp). reflexivity. }
  clear H. revert s. induction ps as [|p ps IH]; intros s; cbn [sum_over avg map]; [unfold oprod; cbn; ring|]. apply osum_ext. intros i _.
  rewrite <- IH. rewrite <- (sum_over_scale o Hring). apply sum_over_pt. intros s'. unfold oprod. cbn [fold_right]. ring.
Qed.
(** Functions of some names only. *)
Definition local (rel : string -> bool) (f : assignment -> V) : Prop := forall s s', (forall n, rel n = true -> s n = s' n) -> f s = f s'.
Lemma avg_local : forall rel ps f, local rel f -> local rel (avg ps f).
Proof.
  intros rel. induction ps as [|p ps IH]; intros f Hf s s' H; cbn [avg]; [now apply Hf|]. apply osum_ext. intros i _. f_equal. apply (IH f Hf).
  intros n Hn. unfold set_to. destruct (String.eqb n (pname p)); auto.
Qed.
Lemma avg_filter : forall rel ps f s, local rel f -> (forall p, In p ps -> 1 <= pn p) -> avg ps f s = avg (filter (fun p => rel (pname p)) ps) f s.
Proof.
  intros rel. induction ps as [|p ps IH]; intros f s Hf Hp; [reflexivity|]. assert (Hp' : forall q, In q ps -> 1 <= pn q) by (intros q Hq; apply Hp; now right).
  cbn [filter]. destruct (rel (pname p)) eqn:E; cbn [avg].
  - apply osum_ext. intros i _. f_equal. now apply IH.
  - rewrite <- (IH f s Hf Hp'). rewrite <- (osum_const o Hring (fun _ : nat => recip (pn p)) (avg ps f s) (seq 0 (pn p))) at 1 by (apply ones, Hp; now left).
    apply osum_ext. intros i _. f_equal. apply (avg_local rel ps f Hf). intros n Hn. unfold set_to. destruct (String.eqb n (pname p)) eqn:En; auto.
    apply String.eqb_eq in En. congruence.
Qed.
Lemma avg_perm : forall rel ps qs f, local rel f -> Permutation ps qs -> NoDup (N ps) -> forall s, avg ps f s = avg qs f s.
Proof.
  intros rel ps qs f Hf HP. induction HP as [|p ps qs HP IH|p q ps|ps qs rs HP1 IH1 HP2 IH2]; intros ND s; auto.
  - cbn [avg]. inversion ND; subst. apply osum_ext. intros i _. now rewrite IH.
  - cbn [avg]. transitivity (osum o (map (fun i => osum o (map (fun j => o_mul o (o_mul o (recip (pn q)) (recip (pn p))) (avg ps f (set_to (set_to s (pname q) i) (pname p) j))) (seq 0 (pn p)))) (seq 0 (pn q)))).
    { apply osum_ext. intros i _. rewrite (osum_mul_l o Hring). apply osum_ext. intros j _. ring. }
    rewrite (osum_swap o Hring). apply osum_ext. intros j _. rewrite (osum_mul_l o Hring). apply osum_ext. intros i _.
    replace (avg ps f (set_to (set_to s (pname q) i) (pname p) j)) with (avg ps f (set_to (set_to s (pname p) j) (pname q) i)); [ring|].
    apply (avg_local rel ps f Hf). intros n _. unfold set_to. destruct (String.eqb n (pname q)) eqn:E1, (String.eqb n (pname p)) eqn:E2; auto.
    apply String.eqb_eq in E1. apply String.eqb_eq in E2. exfalso. inversion ND as [|? ? Hn _]. apply Hn. left. congruence.
  - rewrite IH1 by auto. apply IH2. eapply Permutation_NoDup; [apply Permutation_map; exact HP1|auto].
Qed.
Lemma avg_same : forall rel ps qs f s, local rel f -> (forall p, In p (ps ++ qs) -> 1 <= pn p) -> NoDup (N ps) -> NoDup (N qs) ->
  (forall p, rel (pname p) = true -> (In p ps <-> In p qs)) -> avg ps f s = avg qs f s.
Proof.
  intros rel ps qs f s Hf Hp N1 N2 H. rewrite (avg_filter rel ps f s Hf) by (intros p Q; apply Hp, in_or_app; auto).
  rewrite (avg_filter rel qs f s Hf) by (intros p Q; apply Hp, in_or_app; auto). apply (avg_perm rel); auto; [|now apply NoDup_map_filter].
  apply NoDup_Permutation.
  - apply NoDup_filter. eapply NoDup_map_inv; eauto.
  - apply NoDup_filter. eapply NoDup_map_inv; eauto.
  - intros p. rewrite !filter_In. split; intros [Q R]; split; auto; apply (H p R); auto.
Qed.

(** ** One run of the program *)
Variable prog : list (line V).
Hypothesis Hok : straight_ok o o_exp prog.
Notation PL i := (nth i (plates_of recip prog) []).
Notation ND i := (nth i (needs prog) []).
Notation VAL s r i := (nth i (values o s r prog) (scalar0 o)).
Notation pg := (sampling o recip prog).
Let ND_lt' : forall i b, In b (ND i) -> b <= i /\ In b (draws_of prog) := ND_lt o o_exp prog Hok.
Let VAL_local' : forall s s' r r' i, (forall p, In p (PL i) -> data_name prog (pname p) -> s (pname p) = s' (pname p)) -> (forall b, In b (ND i) -> r b = r' b) -> VAL s r i = VAL s' r' i
  := VAL_local anc_unwrap recip o o_exp prog Hok.
Let arg_in_PL' : forall i x a p, nth_error prog i = Some x -> In a (args_of x) -> In p (PL a) -> In p (PL i) := arg_in_PL anc_unwrap recip o o_exp prog Hok.

Lemma density_named : forall env env' x v, named o env (args_of x) = named o env' (args_of x) -> density o env x v = density o env' x v.
Proof. intros env env' x v H. unfold density. destruct (snd x); auto. now rewrite H. Qed.
Lemma density_local : forall a x s s' r r' v, nth_error prog a = Some x -> (forall p, In p (PL a) -> data_name prog (pname p) -> s (pname p) = s' (pname p)) ->
  (forall b, In b (flat_map (fun b => ND b) (args_of x)) -> r b = r' b) -> density o (values o s r prog) x v = density o (values o s' r' prog) x v.
Proof.
  intros a x s s' r r' v Hx Hs Hr. apply density_named. unfold named. apply map_ext_in. intros b Hb. apply VAL_local'.
  - intros p Hp D. apply Hs; auto. eapply arg_in_PL'; eauto.
  - intros c Hc. apply Hr. apply in_flat_map. eauto.
Qed.
Lemma deps_lt : forall a x b, nth_error prog a = Some x -> In b (flat_map (fun b => ND b) (args_of x)) -> b < a /\ In b (draws_of prog).
Proof.
  intros a x b Hx Hb. apply in_flat_map in Hb. destruct Hb as [c [Hc Hb]]. destruct (ND_lt' c b Hb). pose proof (args_lt o o_exp prog Hok a x c Hx Hc). split; auto. lia.
Qed.
Lemma sorted_filter : forall (f : nat -> bool) n k l a r, filter f (seq k n) = l ++ a :: r -> k <= a /\ forall b, In b r -> a < b.
Proof.
  intros f. induction n as [|n IH]; intros k l a r H; cbn [seq filter] in H; [destruct l; discriminate|]. destruct (f k) eqn:E.
  - destruct l as [|y l]; cbn in H; injection H as H1 H2.
    + subst a. split; auto. intros b Hb. rewrite <- H2 in Hb. apply filter_In in Hb. destruct Hb as [Hb _]. apply in_seq in Hb. lia.
    + destruct (IH (S k) l a r H2). split; auto. lia.
  - destruct (IH (S k) l a r H). split; auto. lia.
Qed.
Lemma prob_at : forall a x s r j, nth_error prog a = Some x -> prob o_exp pg a s r j = o_exp (density o (values o s r prog) x (outcome o [] x j)).
Proof.
  intros a x s r j Hx. unfold prob. cbn [pg_logp sampling]. rewrite Hx. f_equal. rewrite put_same. apply (density_local a); auto.
  intros b Hb. apply put_other. destruct (deps_lt a x b Hx Hb). lia.
Qed.
Lemma sampling_ok : program_ok o o_exp pg.
Proof.
  constructor; cbn [pg_vars pg_plates pg_deps pg_support pg_logp sampling].
  - apply NoDup_filter, seq_NoDup.
  - intros l a r E b Hb. destruct (nth_error prog a) as [x|] eqn:Hx; [|destruct Hb]. destruct (deps_lt a x b Hx Hb) as [L D]. rewrite E in D.
    apply in_app_or in D. destruct D as [D|[D|D]]; auto; [lia|]. destruct (sorted_filter _ _ _ _ _ _ E) as [_ G]. specialize (G b D). lia.
  - intros a _. apply (PL_nodup anc_unwrap recip o o_exp prog Hok a).
  - intros a b Ha Hb. destruct (nth_error prog a) as [x|] eqn:Hx; [|destruct Hb]. apply in_flat_map in Hb. destruct Hb as [c [Hc Hb]].
    intros n Hn. apply in_map_iff in Hn. destruct Hn as [p [<- Hp]]. apply in_map. eapply arg_in_PL'; eauto. exact (ND_plates anc_unwrap recip o o_exp prog Hok c b p Hb Hp).
  - intros a s s' r r' Ha Hs Hr. destruct (nth_error prog a) as [x|] eqn:Hx; [|auto]. split; auto. intros E. rewrite E. apply (density_local a); auto.
  - intros a s r Ha. apply draws_in in Ha. destruct Ha as [x [Hx D]]. rewrite Hx. pose proof (proj2 (proj2 Hok a x Hx)) as HL.
    destruct x as [[name t|name n sizes args grad lp|fn args] m]; try discriminate. destruct m as [|m value evl g|ev g]; try contradiction.
    destruct HL as [_ [_ [H _]]]. rewrite <- (H s r). apply osum_ext. intros j _. exact (prob_at a _ s r j Hx).
Qed.
Definition cost_at (c : nat) (s : assignment) (r : nat -> nat) : V := el (VAL s r c) [].
Lemma dependence : forall c, depends_on o o_exp pg (PL c) (ND c) (filter (graded prog) (ND c)) (cost_at c).
Proof.
  intros c. constructor; cbn [pg_vars pg_plates pg_deps pg_support pg_logp sampling].
  - intros b Hb. now destruct (ND_lt' c b Hb).
  - intros a Ha b Hb. destruct (nth_error prog a) as [x|] eqn:Hx; [|destruct Hb]. apply in_flat_map in Hb. destruct Hb as [d [Hd Hb]].
    apply (ND_trans o o_exp prog Hok c a b Ha). exact (ND_arg o o_exp prog Hok a x d b Hx Hd Hb).
  - intros a p Ha Hp. exact (ND_plates anc_unwrap recip o o_exp prog Hok c a p Ha Hp).
  - intros a Ha. apply filter_In in Ha. tauto.
  - intros s r r' H. unfold cost_at. rewrite (VAL_local' s s r r' c); auto.
  - intros a s r Ha Hn. destruct (ND_lt' c a Ha) as [_ D]. apply draws_in in D. destruct D as [x [Hx D]]. rewrite Hx.
    pose proof (proj2 (proj2 Hok a x Hx)) as HL. destruct x as [[name t|name n sizes args grad lp|fn args] m]; try discriminate.
    destruct m as [|m value evl g|ev g]; try contradiction. destruct HL as [_ [_ [_ H]]]. apply H.
    destruct grad; auto. exfalso. apply Hn. apply filter_In. split; auto. unfold graded. now rewrite Hx.
Qed.

(** ** The data *)
Definition data_plate (x : line V) : list plate :=
  match fst x with Data name t => [mkPlate PlainPlate name (size_of x) (WTorch (tscalar (recip (size_of x)))) []] | _ => [] end.
Definition data_plates (l : list (line V)) : list plate := flat_map data_plate l.

Lemma mean_data : forall c r, local (fun n => has (data_plates prog) n && has (PL c) n) (fun s => mean o o_exp pg s r (cost_at c s)).
Proof.
  intros c r s s' H.
  assert (HT : closed_vars pg (ND c)) by (split; [exact (dp_vars _ _ _ _ _ _ _ (dependence c))|exact (dp_closed _ _ _ _ _ _ _ (dependence c))]).
  assert (Hag : forall p, In p (PL c) -> data_name prog (pname p) -> s (pname p) = s' (pname p)).
  { intros p Hp [i [t [m Hd]]]. apply H. apply andb_true_iff. split; apply has_names; [|apply in_map; exact Hp].
    apply in_map_iff. eexists. split; [|apply in_flat_map; exists (Data (pname p) t, m); split; [eapply nth_error_In; eauto|simpl; left; reflexivity]]. reflexivity. }
  assert (HI : forall s, mean o o_exp pg s r (cost_at c s) = mean_from o o_exp pg (inside (ND c) (pg_vars pg)) s r (cost_at c s)).
  { intros s1. apply (mean_inside o Hring o_exp pg sampling_ok (ND c)); [exact HT|apply incl_refl|]. intros r1 r2 Hr. apply (dp_cost _ _ _ _ _ _ _ (dependence c)). exact Hr. }
  rewrite !HI.
  assert (G : forall vs, incl vs (ND c) -> forall r, mean_from o o_exp pg vs s r (cost_at c s) = mean_from o o_exp pg vs s' r (cost_at c s')).
  { induction vs as [|a vs IH]; intros Hi r'; cbn [mean_from].
    - unfold cost_at. rewrite (VAL_local' s s' r' r' c); auto.
    - assert (Ha : In a (ND c)) by (apply Hi; now left). cbn [pg_support sampling]. destruct (nth_error prog a) as [x|] eqn:Hx; auto.
      apply osum_ext. intros j _. f_equal; [|apply IH; intros b Hb; apply Hi; now right]. rewrite !(prob_at a x) by auto. f_equal. apply (density_local a); auto.
      intros p Hp D. apply Hag; auto. exact (ND_plates anc_unwrap recip o o_exp prog Hok c a p Ha Hp). }
  apply G. intros b Hb. apply filter_In in Hb. destruct Hb as [_ Hb]. destruct (in_dec Nat.eq_dec b (ND c)); [auto|discriminate].
Qed.
Lemma data_plates_in : forall p, In p (data_plates prog) <-> exists i t m, nth_error prog i = Some (Data (pname p) t, m) /\
  p = mkPlate PlainPlate (pname p) (size_of (Data (pname p) t, m)) (WTorch (tscalar (recip (size_of (Data (pname p) t, m))))) [].
Proof.
  intros p. unfold data_plates. rewrite in_flat_map. split.
  - intros [[[name t|name n sizes args grad lp|fn args] m] [Hx Hp]]; cbn in Hp; try contradiction. destruct Hp as [<-|[]]. apply In_nth_error in Hx. destruct Hx as [i Hx]. exists i, t, m. auto.
  - intros [i [t [m [Hx E]]]]. exists (Data (pname p) t, m). split; [eapply nth_error_In; eauto|]. left. symmetry. exact E.
Qed.
Lemma data_names : forall l, N (data_plates l) = flat_map (fun x => match fst x with Data name _ => [name] | _ => [] end) l.
Proof.
  induction l as [|[[name t|name n sizes args grad lp|fn args] m] l IH]; [reflexivity| | |]; unfold data_plates in *; cbn [flat_map data_plate fst app map pname]; [f_equal; exact IH|exact IH|exact IH].
Qed.
Lemma data_nodup : forall l, NoDup (flat_map (@name_of V) l) -> NoDup (N (data_plates l)).
Proof.
  intros l. rewrite data_names. induction l as [|x l IH]; intros H; [constructor|]. cbn [flat_map] in *.
  assert (H1 : NoDup (flat_map (@name_of V) l)) by (exact (proj1 (nodup_app _ _ H))). specialize (IH H1).
  destruct x as [[name t|name n sizes args grad lp|fn args] m]; cbn in *; auto. constructor; auto. inversion H as [|? ? Hn _]. subst. intros C. apply Hn.
  apply in_flat_map in C. destruct C as [y [Hy C]]. apply in_flat_map. exists y. split; auto. destruct y as [[] ?]; cbn in *; tauto.
Qed.
Lemma data_size : forall p, In p (data_plates prog) -> 1 <= pn p.
Proof.
  intros p Hp. apply data_plates_in in Hp. destruct Hp as [i [t [m [Hx E]]]]. pose proof (proj2 (proj2 Hok i _ Hx)) as HL. cbn in HL. destruct m; try contradiction.
  destruct HL as [n [ev [Es Hn]]]. rewrite E. cbn [pn size_of fst]. unfold size_of. cbn. rewrite Es. cbn. lia.
Qed.
Lemma data_unique : forall i j t m x, nth_error prog i = Some (Data t m, x) -> forall y, nth_error prog j = Some y -> name_of y = [t] -> y = (Data t m, x).
Proof.
  intros i j t m x Hi y Hj E. pose proof (proj1 Hok) as NDp. assert (i = j); [|congruence].
  destruct (Nat.lt_trichotomy i j) as [L|[L|L]]; auto; exfalso.
  - apply nth_error_split in Hj. destruct Hj as [l1 [l2 [E1 L1]]]. rewrite E1, flat_map_app in NDp. cbn [flat_map] in NDp. rewrite E in NDp. cbn in NDp.
    apply NoDup_remove_2 in NDp. apply NDp, in_or_app. left. apply in_flat_map. exists (Data t m, x). split; [|now left].
    apply (nth_error_In _ i). transitivity (nth_error prog i); [|exact Hi]. rewrite E1. symmetry. apply nth_error_app1. lia.
  - apply nth_error_split in Hi. destruct Hi as [l1 [l2 [E1 L1]]]. rewrite E1, flat_map_app in NDp. cbn in NDp.
    apply NoDup_remove_2 in NDp. apply NDp, in_or_app. left. apply in_flat_map. exists y. split; [|rewrite E; now left].
    apply (nth_error_In _ j). transitivity (nth_error prog j); [|exact Hj]. rewrite E1. symmetry. apply nth_error_app1. lia.
Qed.

Lemma weighted_data : forall c r s, weighted_sum o false (PL c) (PL c) (fun s => mean o o_exp pg s r (cost_at c s)) s =
  avg (data_plates prog) (fun s => mean o o_exp pg s r (cost_at c s)) s.
Proof.
  intros c r s. rewrite weighted_avg.
  2:{ intros p Hp. destruct (PL_from anc_unwrap recip o o_exp prog Hok c p Hp) as [d [_ [x [name [_ [_ ->]]]]]]. reflexivity. }
  apply (avg_same (fun n => has (data_plates prog) n && has (PL c) n)).
  - apply mean_data.
  - intros p Hp. apply in_app_or in Hp. destruct Hp as [Hp|Hp]; [exact (PL_pos anc_unwrap recip o o_exp prog Hok c p Hp)|now apply data_size].
  - apply (PL_nodup anc_unwrap recip o o_exp prog Hok c).
  - apply data_nodup. apply Hok.
  - intros p H. apply andb_true_iff in H. destruct H as [H1 H2]. apply has_names in H1. apply has_names in H2.
    apply in_map_iff in H1. destruct H1 as [d [E1 Hd]]. apply in_map_iff in H2. destruct H2 as [q [E2 Hq]].
    assert (Edq : d = q).
    { pose proof Hd as Hd0. apply data_plates_in in Hd0. destruct Hd0 as [i [t [m [Hx E]]]].
      destruct (PL_from anc_unwrap recip o o_exp prog Hok c q Hq) as [k [_ [y [name [Hy [Ny Eq]]]]]].
      assert (name = pname q) by (rewrite Eq; reflexivity). assert (Ey : y = (Data (pname d) t, m)) by (apply (data_unique i k _ _ _ Hx y Hy); congruence).
      rewrite E, Eq. subst y. unfold own. cbn in Ny. injection Ny as <-. reflexivity. }
    subst q. split; intros Hp.
    + assert (p = d); [|congruence]. apply (made_PL anc_unwrap recip o o_exp prog Hok c c); auto.
    + assert (p = d); [|congruence]. apply data_plates_in in Hp. apply data_plates_in in Hd. destruct Hp as [i [t [m [Hx E]]]], Hd as [i' [t' [m' [Hx' E']]]].
      assert (Eu := data_unique i i' _ _ _ Hx _ Hx' ltac:(cbn; congruence)). injection Eu as U1 U2 U3. subst t' m'. rewrite E, E', U1. reflexivity.
Qed.

(** ** Sequentially *)
Definition draws_from (k : nat) (l : list (line V)) : list nat :=
  filter (fun i => match nth_error prog i with Some x => is_draw x | None => false end) (seq k (length l)).
Lemma values_snoc : forall s r l x, values o s r (l ++ [x]) = values o s r l ++ [outcome o (values o s r l) x (made s r (length l) x)].
Proof. intros s r l x. unfold values. rewrite scan_snoc. now rewrite scan_length. Qed.
Lemma values_agree : forall s s' r r' l, (forall x name, In x l -> In name (name_of x) -> s name = s' name) -> (forall i, i < length l -> r i = r' i) -> values o s r l = values o s' r' l.
Proof.
  intros s s' r r' l. induction l as [|x l IH] using rev_ind; intros Hs Hr; [reflexivity|]. rewrite app_length in Hr. cbn in Hr. rewrite !values_snoc, IH.
  - do 3 f_equal. unfold made. destruct x as [[name t|name n sizes args grad lp|fn args] m]; cbn; auto.
    + apply (Hs (Data name t, m) name); [apply in_or_app; right; now left|now left].
    + apply Hr. lia.
  - intros y name Hy. apply Hs. apply in_or_app. now left.
  - intros i Hi. apply Hr. lia.
Qed.
Lemma values_prefix : forall s r l m i, i < length l -> nth i (values o s r (l ++ m)) (scalar0 o) = nth i (values o s r l) (scalar0 o).
Proof.
  intros s r l m i Hi. unfold values. destruct (scan_app (fun env x => outcome o env x (made s r (length env) x)) l m) as [q E]. rewrite E. apply app_nth1. now rewrite scan_length.
Qed.

Lemma sequential : forall (k : list (ten V) -> V) suf pre i s0 r, prog = pre ++ suf -> i = length pre ->
  avg (data_plates suf) (fun s => mean_from o o_exp pg (draws_from i suf) s r (fun r' => k (values o s r' prog))) s0 =
  expected o o_exp recip suf (values o s0 r pre) k.
Proof.
  intros k. induction suf as [|x suf IH]; intros pre i0 s0 r Hp ->.
  - cbn [data_plates flat_map avg draws_from length seq filter mean_from expected]. rewrite app_nil_r in Hp. now rewrite Hp.
  - assert (Hx : nth_error prog (length pre) = Some x) by (rewrite Hp, nth_error_app2, Nat.sub_diag by auto; reflexivity).
    assert (Hp' : prog = (pre ++ [x]) ++ suf) by (rewrite <- app_assoc; exact Hp).
    assert (El : length (pre ++ [x]) = S (length pre)) by (rewrite app_length; cbn; lia).
    assert (Ed : draws_from (length pre) (x :: suf) = if is_draw x then length pre :: draws_from (S (length pre)) suf else draws_from (S (length pre)) suf).
    { unfold draws_from. cbn [length seq filter]. rewrite Hx. reflexivity. }
    rewrite Ed. assert (Hfresh : forall y name, In y pre -> In name (name_of y) -> ~ In name (flat_map (@name_of V) (x :: suf))).
    { intros y name Hy Hn C. pose proof (proj1 Hok) as NDp. rewrite Hp, flat_map_app in NDp. revert NDp C. assert (H : In name (flat_map (@name_of V) pre)) by (apply in_flat_map; eauto).
      clear - H. induction (flat_map (@name_of V) pre) as [|z l IH]; [destruct H|]. intros NDp C. cbn in NDp. inversion NDp; subst. destruct H as [->|H]; auto.
      apply H2, in_or_app. now right. }
    destruct x as [[name t|name n sizes args grad lp|fn args] m].
    + change (data_plates ((Data name t, m) :: suf)) with (mkPlate PlainPlate name (size_of (Data name t, m)) (WTorch (tscalar (recip (size_of (Data name t, m))))) [] :: data_plates suf).
      cbn [is_draw fst avg pn pname expected]. apply osum_ext. intros i _. f_equal. etransitivity; [exact (IH (pre ++ [(Data name t, m)]) (S (length pre)) _ r Hp' (eq_sym El))|]. f_equal.
      rewrite values_snoc. rewrite (values_agree (set_to s0 name i) s0 r r pre); auto.
      * do 2 f_equal. unfold made. cbn [fst]. f_equal. unfold set_to. now rewrite String.eqb_refl.
      * intros y nm Hy Hn. unfold set_to. destruct (String.eqb nm name) eqn:E; auto. apply String.eqb_eq in E. subst nm. destruct (Hfresh y name Hy Hn). now left.
    + change (data_plates ((Draw name n sizes args grad lp, m) :: suf)) with (data_plates suf).
      cbn [is_draw fst expected]. set (x := (Draw name n sizes args grad lp, m)) in *.
      transitivity (avg (data_plates suf) (fun s => osum o (map (fun j => o_mul o (o_exp (density o (values o s0 r pre) x (outcome o (values o s0 r pre) x j)))
        (mean_from o o_exp pg (draws_from (S (length pre)) suf) s (put r (length pre) j) (fun r' => k (values o s r' prog)))) (seq 0 (values_of x)))) s0).
      * apply avg_ext. intros s Hs. cbn [mean_from pg_support sampling]. rewrite Hx. apply osum_ext. intros j _. f_equal. rewrite (prob_at (length pre) x) by exact Hx.
        f_equal. transitivity (density o (values o s0 r pre) x (outcome o [] x j)); [|reflexivity]. apply density_named. unfold named. apply map_ext_in. intros a Ha.
        pose proof (args_lt o o_exp prog Hok (length pre) x a Hx Ha) as La. rewrite Hp at 1. rewrite values_prefix by exact La. f_equal. apply values_agree; auto.
        intros y nm Hy Hn. apply Hs. intros C. apply (Hfresh y nm Hy Hn). cbn [flat_map]. apply in_or_app. right. rewrite data_names in C. apply in_flat_map in C.
        destruct C as [z [Hz C]]. apply in_flat_map. exists z. split; auto. destruct z as [[] ?]; cbn in *; tauto.
      * rewrite avg_sum. apply osum_ext. intros j _. rewrite avg_scale. f_equal. etransitivity; [exact (IH (pre ++ [x]) (S (length pre)) s0 (put r (length pre) j) Hp' (eq_sym El))|]. f_equal. rewrite values_snoc.
        rewrite (values_agree s0 s0 (put r (length pre) j) r pre); auto; [|intros i Hi; apply put_other; lia]. do 2 f_equal. unfold made. cbn [fst x]. now rewrite put_same.
    + change (data_plates ((Call fn args, m) :: suf)) with (data_plates suf). cbn [is_draw fst expected]. etransitivity; [exact (IH (pre ++ [(Call fn args, m)]) (S (length pre)) s0 r Hp' (eq_sym El))|]. f_equal. now rewrite values_snoc.
Qed.
Lemma expected_sum : forall {A} (L : list A) (k : A -> list (ten V) -> V) l env,
  expected o o_exp recip l env (fun env => osum o (map (fun c => k c env) L)) = osum o (map (fun c => expected o o_exp recip l env (k c)) L).
Proof.
  intros A L k. induction l as [|x l IH]; intros env; cbn [expected]; [reflexivity|]. destruct (fst x).
  - rewrite (osum_swap o Hring). apply osum_ext. intros j _. rewrite IH. apply (osum_mul_l o Hring).
  - rewrite (osum_swap o Hring). apply osum_ext. intros j _. rewrite IH. apply (osum_mul_l o Hring).
  - apply IH.
Qed.
Lemma total : forall costs r s, osum o (map (fun c => weighted_sum o false (PL c) (PL c) (fun s => mean o o_exp pg s r (cost_at c s)) s) costs) =
  expected o o_exp recip prog [] (total_cost o costs).
Proof.
  intros costs r s. unfold total_cost. rewrite expected_sum. apply osum_ext. intros c _. rewrite weighted_data.
  exact (sequential (fun env => el (nth c env (scalar0 o)) []) prog [] 0 s r eq_refl eq_refl).
Qed.
End Mean.
