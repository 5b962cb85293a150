(** Expectations over sampling programs, and the score function's unbiasedness (C23). *)
From Coq Require Import String List Arith Bool ZArith Lia Permutation Ring.
From Verif Require Import Base Torch Plates Wrap OrderPlates Scalar Reduce Graph Surrogate SpecTensor SpecWrap SpecOrder SpecReduce SpecGraph
  SpecSurrogate SpecProgram ListLemmas ReduceProofs ReduceProofs2 SurrogateProofs SurrogateProofs2.
Import ListNotations.

Section Expectation.
Context {V X : Type}.
Notation plate := (plate V).
Variable o : sops V.
Variable Hring : is_ring o.
Variable o_exp : V -> V.
Variable Hev : evaluates o o_exp.
Variable Hexp : forall x y, o_exp (o_add o x y) = o_mul o (o_exp x) (o_exp y).
Let Hring' : ring_theory (o_zero o) (o_one o) (o_add o) (o_mul o) (o_sub o) (o_opp o) (@eq V) := Hring.
Add Ring o_ring : Hring'.
Variable pg : program V X.
Variable Hpg : program_ok o o_exp pg.
Notation path := (@path X).
Notation world := (@world X).
Notation prob := (prob o_exp pg).
Notation det := (o_det o).

(** exp(l) = exp(detach l) * magic_box(l). *)
Lemma det_box : forall l, o_mul o (det (o_exp l)) (box o o_exp l) = o_exp l.
Proof.
  intros l. unfold box. rewrite (ev_exp _ _ Hev), <- Hexp. f_equal. ring.
Qed.
Lemma box_add : forall x y, box o o_exp (o_add o x y) = o_mul o (box o o_exp x) (box o o_exp y).
Proof. intros. unfold box. rewrite <- Hexp, (ev_add _ _ Hev). f_equal. ring. Qed.
Lemma box_zero : box o o_exp (o_zero o) = o_one o.
Proof. unfold box. rewrite (ev_zero _ _ Hev). replace (o_sub o (o_zero o) (o_zero o)) with (o_zero o) by ring. apply (ev_exp0 _ _ Hev). Qed.
Lemma box_osum : forall {A} (f : A -> V) l, box o o_exp (osum o (map f l)) = oprod o (map (fun a => box o o_exp (f a)) l).
Proof.
  intros A f l. induction l as [|a l IH]; simpl; [apply box_zero|]. rewrite box_add. f_equal. exact IH.
Qed.

Lemma put_same : forall (r : path) a x, put r a x a = x.
Proof. intros. unfold put. now rewrite Nat.eqb_refl. Qed.
Lemma put_other : forall (r : path) a x b, b <> a -> put r a x b = r b.
Proof. intros. unfold put. destruct (Nat.eqb_spec b a); congruence. Qed.
Lemma write_same : forall (w : world) a i x, write w a i x a i = x.
Proof. intros. unfold write. rewrite Nat.eqb_refl. destruct (list_eq_dec Nat.eq_dec i i); [reflexivity|congruence]. Qed.
Lemma write_other : forall (w : world) a i x b j, (b, j) <> (a, i) -> write w a i x b j = w b j.
Proof.
  intros w a i x b j H. unfold write. destruct (Nat.eqb_spec b a); [|reflexivity]. destruct (list_eq_dec Nat.eq_dec j i); [|reflexivity].
  subst. now destruct H.
Qed.

Lemma prob_sums_det : forall a s r, In a (pg_vars pg) -> osum o (map (fun x => det (prob a s r x)) (pg_support pg a s r)) = o_one o.
Proof.
  intros a s r Ha. rewrite <- (map_map (prob a s r) det), <- (det_osum o o_exp Hev), (po_sums _ _ _ Hpg a s r Ha). apply (ev_one _ _ Hev).
Qed.

(** The path at a site is the path at any choice of samples through it. *)
Lemma prob_along : forall a (w : world) s x, In a (pg_vars pg) ->
  let s' := choice pg a (map (fun p => s (pname p)) (pg_plates pg a)) in
  pg_support pg a s' (along pg w s') = pg_support pg a s (along pg w s) /\ prob a s' (along pg w s') x = prob a s (along pg w s) x.
Proof.
  intros a w s x Ha s'.
  assert (E : forall p, In p (pg_plates pg a) -> s' (pname p) = s (pname p)).
  { subst s'. unfold choice. generalize (pg_plates pg a). intros l p Hp. induction l as [|q l IH]; [contradiction|]. simpl. unfold set_to.
    destruct (String.eqb_spec (pname p) (pname q)) as [E|E]; [now rewrite E|]. destruct Hp as [-> |Hp]; [congruence|]. now apply IH. }
  assert (En : forall y, In y (map pname (pg_plates pg a)) -> s' y = s y).
  { intros y Hy. apply in_map_iff in Hy. destruct Hy as [p [<- Hp]]. now apply E. }
  assert (D : forall b, In b (pg_deps pg a) -> along pg w s' b = along pg w s b).
  { intros b Hb. unfold along. f_equal. apply map_ext_in. intros p Hp. apply En. apply (po_nested _ _ _ Hpg a b Ha Hb). now apply in_map. }
  split.
  - apply (po_local _ _ _ Hpg a s' s _ _ Ha E D).
  - unfold SpecProgram.prob. f_equal. apply (po_local _ _ _ Hpg a s' s); auto.
    + intros b Hb. unfold put. destruct (b =? a); auto.
    + now rewrite !put_same.
Qed.

Fixpoint det_from (vs : list nat) (s : assignment) (r : path) (f : path -> V) : V :=
  match vs with
  | [] => f r
  | a :: l => osum o (map (fun x => o_mul o (det (prob a s r x)) (det_from l s (put r a x) f)) (pg_support pg a s r))
  end.

Definition sites_of (vs : list nat) : list (nat * list nat) := flat_map (fun a => map (pair a) (indices (map pn (pg_plates pg a)))) vs.
(** The variables of [T] among [l]. *)
Definition inside (T l : list nat) : list nat := filter (fun a => if in_dec Nat.eq_dec a T then true else false) l.

Lemma mean_ext : forall vs s r (f g : path -> V), (forall r, f r = g r) -> det_from vs s r f = det_from vs s r g.
Proof. induction vs as [|a vs IH]; intros s r f g H; simpl; [apply H|]. apply osum_ext. intros x _. f_equal. now apply IH. Qed.

(** Two paths that agree on a closed set of variables. *)
Definition same_on (T : list nat) (r r' : path) : Prop := forall a, In a T -> r a = r' a.
Lemma same_put : forall T r r' a x, same_on T r r' -> same_on T (put r a x) (put r' a x).
Proof. intros T r r' a x H b Hb. unfold put. destruct (b =? a); auto. Qed.
Definition closed_vars (T : list nat) : Prop := incl T (pg_vars pg) /\ forall a, In a T -> incl (pg_deps pg a) T.
Lemma same_prob : forall T a s r r', closed_vars T -> In a T -> same_on T r r' -> pg_support pg a s r = pg_support pg a s r' /\
  forall x, prob a s r x = prob a s r' x.
Proof.
  intros T a s r r' [Hi Hc] Ha H. assert (D : forall b, In b (pg_deps pg a) -> r b = r' b) by (intros b Hb; apply H, (Hc a Ha b Hb)).
  split; [apply (po_local _ _ _ Hpg a s s r r'); auto|]. intros x. unfold SpecProgram.prob. f_equal. apply (po_local _ _ _ Hpg a s s); auto.
  - intros b Hb. unfold put. destruct (b =? a); auto.
  - now rewrite !put_same.
Qed.
Lemma osum_const : forall {A} (f : A -> V) c l, osum o (map f l) = o_one o -> osum o (map (fun x => o_mul o (f x) c) l) = c.
Proof. intros A f c l H. rewrite <- (osum_mul_r o Hring), H. ring. Qed.

(** Variables outside [T] can be left out. *)
Section Marginal.
Variable q : nat -> assignment -> path -> X -> V.
Fixpoint from_q (vs : list nat) (s : assignment) (r : path) (f : path -> V) : V :=
  match vs with
  | [] => f r
  | a :: l => osum o (map (fun x => o_mul o (q a s r x) (from_q l s (put r a x) f)) (pg_support pg a s r))
  end.
Variable T : list nat.
Hypothesis HT : closed_vars T.
Hypothesis Hq : forall a s r r' x, In a T -> same_on T r r' -> q a s r x = q a s r' x.
Hypothesis Hone : forall a s r, In a (pg_vars pg) -> osum o (map (q a s r) (pg_support pg a s r)) = o_one o.
Lemma from_q_same : forall vs s r r' (f : path -> V), incl vs T -> (forall r r', same_on T r r' -> f r = f r') -> same_on T r r' ->
  from_q vs s r f = from_q vs s r' f.
Proof.
  induction vs as [|a vs IH]; intros s r r' f Hi Hf H; simpl; [now apply Hf|].
  assert (Ha : In a T) by (apply Hi; now left). rewrite (proj1 (same_prob T a s r r' HT Ha H)).
  apply osum_ext. intros x _. rewrite (Hq a s r r' x Ha H). f_equal. apply IH; auto; [intros b Hb; apply Hi; now right|now apply same_put].
Qed.
Lemma from_q_inside : forall vs s r (f : path -> V), incl vs (pg_vars pg) -> (forall r r', same_on T r r' -> f r = f r') ->
  from_q vs s r f = from_q (inside T vs) s r f.
Proof.
  induction vs as [|a vs IH]; intros s r f Hi Hf; simpl; [reflexivity|].
  assert (Hi' : incl vs (pg_vars pg)) by (intros b Hb; apply Hi; now right).
  destruct (in_dec Nat.eq_dec a T) as [Ha|Ha]; simpl.
  - apply osum_ext. intros x _. f_equal. now apply IH.
  - transitivity (osum o (map (fun x => o_mul o (q a s r x) (from_q (inside T vs) s r f)) (pg_support pg a s r))).
    + apply osum_ext. intros x _. f_equal. rewrite IH by assumption. apply from_q_same; auto.
      * intros b Hb. apply filter_In in Hb. destruct Hb as [_ Hb]. destruct (in_dec Nat.eq_dec b T); [assumption|discriminate].
      * intros b Hb. apply put_other. intros ->. contradiction.
    + apply osum_const. apply Hone, Hi. now left.
Qed.
End Marginal.

Lemma mean_inside : forall T vs s r (f : path -> V), closed_vars T -> incl vs (pg_vars pg) -> (forall r r', same_on T r r' -> f r = f r') ->
  mean_from o o_exp pg vs s r f = mean_from o o_exp pg (inside T vs) s r f.
Proof.
  intros T vs s r f HT Hi Hf.
  assert (E : forall vs r, mean_from o o_exp pg vs s r f = from_q prob vs s r f).
  { induction vs0 as [|a l IH]; intros r0; simpl; [reflexivity|]. apply osum_ext. intros x _. now rewrite IH. }
  rewrite !E. apply from_q_inside; auto.
  - intros a s0 r0 r' x Ha H. now apply (same_prob T).
  - intros a s0 r0 Ha. now apply (po_sums _ _ _ Hpg).
Qed.
Lemma det_inside : forall T vs s r (f : path -> V), closed_vars T -> incl vs (pg_vars pg) -> (forall r r', same_on T r r' -> f r = f r') ->
  det_from vs s r f = det_from (inside T vs) s r f.
Proof.
  intros T vs s r f HT Hi Hf.
  assert (E : forall vs r, det_from vs s r f = from_q (fun a s r x => det (prob a s r x)) vs s r f).
  { induction vs0 as [|a l IH]; intros r0; simpl; [reflexivity|]. apply osum_ext. intros x _. now rewrite IH. }
  rewrite !E. apply from_q_inside; auto.
  - intros a s0 r0 r' x Ha H. f_equal. now apply (same_prob T).
  - intros a s0 r0 Ha. now apply prob_sums_det.
Qed.

(** Only the samples on the path matter for a function of the path. *)
Lemma along_write_off : forall (w : world) s a i x, map (fun p => s (pname p)) (pg_plates pg a) <> i -> forall b, along pg (write w a i x) s b = along pg w s b.
Proof. intros w s a i x H b. unfold along. apply write_other. intros E. injection E as -> E. contradiction. Qed.
Lemma along_write_on : forall (w : world) s a x b, along pg (write w a (map (fun p => s (pname p)) (pg_plates pg a)) x) s b = put (along pg w s) a x b.
Proof.
  intros w s a x b. unfold along, put. destruct (Nat.eqb_spec b a) as [-> |N]; [apply write_same|]. apply write_other. congruence.
Qed.

Lemma det_from_ext : forall vs s r r' (f : path -> V), incl vs (pg_vars pg) -> (forall r r', (forall a, r a = r' a) -> f r = f r') -> (forall a, r a = r' a) -> det_from vs s r f = det_from vs s r' f.
Proof.
  induction vs as [|a vs IH]; intros s r r' f Hi Hf H; simpl; [now apply Hf|].
  assert (Ha : In a (pg_vars pg)) by (apply Hi; now left).
  rewrite (proj1 (po_local _ _ _ Hpg a s s r r' Ha (fun p _ => eq_refl) (fun b _ => H b))).
  apply osum_ext. intros x _.
  replace (prob a s r x) with (prob a s r' x).
  2:{ unfold SpecProgram.prob. f_equal. symmetry. apply (po_local _ _ _ Hpg a s s); auto; [|now rewrite !put_same].
      intros b _. unfold put. destruct (b =? a); auto. }
  f_equal. apply IH; auto; [intros b Hb; apply Hi; now right|]. intros b. unfold put. destruct (b =? a); auto.
Qed.

Definition row (a : nat) (l : list (list nat)) : list (nat * list nat) := map (pair a) l.
Lemma sampled_row : forall a l rest s (w : world) (f : world -> V) (g : path -> V), In a (pg_vars pg) -> NoDup l ->
  (forall r r', (forall a, r a = r' a) -> g r = g r') ->
  (forall w, sampled_from o o_exp pg rest w f = g (along pg w s)) ->
  let i := map (fun p => s (pname p)) (pg_plates pg a) in
  sampled_from o o_exp pg (row a l ++ rest) w f =
  if in_dec (list_eq_dec Nat.eq_dec) i l
  then osum o (map (fun x => o_mul o (det (prob a s (along pg w s) x)) (g (put (along pg w s) a x))) (pg_support pg a s (along pg w s)))
  else g (along pg w s).
Proof.
  intros a l rest s w f g Ha Hnd Hg Hrest i. revert w. induction l as [|j l IH]; intros w; [apply Hrest|].
  inversion Hnd as [|? ? Hj Hnd']; subst. specialize (IH Hnd').
  cbn [row map app sampled_from]. fold (row a l). destruct (list_eq_dec Nat.eq_dec i j) as [<-|N].
  - destruct (in_dec _ i (i :: l)) as [_|C]; [|exfalso; apply C; now left].
    cbv zeta. destruct (prob_along a w s (w a i) Ha) as [E _]. fold i in E. cbv zeta in E. rewrite E. apply osum_ext. intros x _.
    destruct (prob_along a w s x Ha) as [_ E']. fold i in E'. cbv zeta in E'. rewrite E'. f_equal. rewrite IH.
    destruct (in_dec _ i l) as [C|_]; [contradiction|]. apply Hg. intros b. subst i. apply along_write_on.
  - assert (F : forall x, sampled_from o o_exp pg (row a l ++ rest) (write w a j x) f = sampled_from o o_exp pg (row a l ++ rest) w f).
    { intros x. rewrite !IH. assert (A := along_write_off w s a j x N).
      destruct (in_dec (list_eq_dec Nat.eq_dec) i l); [|apply Hg, A].
      rewrite (proj1 (po_local _ _ _ Hpg a s s _ _ Ha (fun p _ => eq_refl) (fun b _ => A b))). apply osum_ext. intros y _.
      f_equal.
      - f_equal. unfold SpecProgram.prob. f_equal. apply (po_local _ _ _ Hpg a s s); auto; [|now rewrite !put_same].
        intros b _. unfold put. destruct (b =? a); auto.
      - apply Hg. intros b. unfold put. destruct (b =? a); auto. }
    cbv zeta. rewrite (osum_ext o _ (fun x => o_mul o (det (prob a (choice pg a j) (along pg w (choice pg a j)) x)) (sampled_from o o_exp pg (row a l ++ rest) w f))).
    2:{ intros x _. now rewrite F. }
    rewrite osum_const by (now apply prob_sums_det). rewrite IH.
    destruct (in_dec _ i l) as [H|H]; destruct (in_dec _ i (j :: l)) as [H'|H']; auto; [exfalso; apply H'; now right|].
    destruct H' as [-> |H']; [now destruct N|contradiction].
Qed.

Lemma from_det : forall vs s r f, det_from vs s r f = from_q (fun a s r x => det (prob a s r x)) vs s r f.
Proof. induction vs as [|a vs IH]; intros s r f; simpl; [reflexivity|]. apply osum_ext. intros x _. now rewrite IH. Qed.
Lemma det_same : forall T vs s r r' (f : path -> V), closed_vars T -> incl vs T -> (forall r r', same_on T r r' -> f r = f r') -> same_on T r r' ->
  det_from vs s r f = det_from vs s r' f.
Proof.
  intros T vs s r r' f HT Hi Hf H. rewrite !from_det. apply (from_q_same _ T); auto.
  intros a s0 r0 r1 x Ha H0. f_equal. now apply (same_prob T).
Qed.
Lemma inside_incl : forall T l, incl (inside T l) T.
Proof. intros T l b Hb. apply filter_In in Hb. destruct Hb as [_ Hb]. destruct (in_dec Nat.eq_dec b T); [assumption|discriminate]. Qed.

Lemma sampled_path : forall T vs s (w : world) (f : path -> V), closed_vars T -> incl vs (pg_vars pg) ->
  (forall r r', same_on T r r' -> f r = f r') -> (forall a, In a T -> in_range s (pg_plates pg a)) ->
  sampled_from o o_exp pg (sites_of vs) w (fun w => f (along pg w s)) = det_from (inside T vs) s (along pg w s) f.
Proof.
  intros T vs s w f HT Hi Hf Hs. revert w. induction vs as [|a vs IH]; intros w; [reflexivity|].
  cbn [sites_of flat_map]. fold (sites_of vs).
  assert (Hi' : incl vs (pg_vars pg)) by (intros b Hb; apply Hi; now right). specialize (IH Hi').
  assert (Ha : In a (pg_vars pg)) by (apply Hi; now left).
  assert (Hext : forall r r' : path, (forall a, r a = r' a) -> det_from (inside T vs) s r f = det_from (inside T vs) s r' f).
  { intros r r' H. apply (det_same T); auto; [apply inside_incl|]. intros b _. apply H. }
  change (map (pair a) (indices (map pn (pg_plates pg a)))) with (row a (indices (map pn (pg_plates pg a)))).
  rewrite (sampled_row a _ (sites_of vs) s w _ (fun r => det_from (inside T vs) s r f) Ha (NoDup_indices _) Hext IH).
  cbn [inside filter]. fold (inside T vs). destruct (in_dec Nat.eq_dec a T) as [HaT|HaT].
  - destruct (in_dec _ _ _) as [_|C]; [reflexivity|]. exfalso. apply C. apply in_indices.
    assert (R := Hs a HaT). revert R. generalize (pg_plates pg a). intros l R. induction l as [|p l IHl]; simpl; [constructor|].
    constructor; [apply R; now left|]. apply IHl. intros q Hq. apply R. now right.
  - destruct (in_dec _ _ _) as [_|C]; [|reflexivity].
    rewrite <- (osum_const (fun x => det (prob a s (along pg w s) x)) (det_from (inside T vs) s (along pg w s) f) (pg_support pg a s (along pg w s))).
    + apply osum_ext. intros x _. f_equal. apply (det_same T); auto; [apply inside_incl|]. intros b Hb. apply put_other. congruence.
    + now apply prob_sums_det.
Qed.

Lemma det_from_off : forall vs s r (f g : path -> V), (forall r', (forall b, ~ In b vs -> r' b = r b) -> f r' = g r') -> det_from vs s r f = det_from vs s r g.
Proof.
  induction vs as [|a vs IH]; intros s r f g H; simpl; [apply H; auto|]. apply osum_ext. intros x _. f_equal. apply IH. intros r' H'.
  apply H. intros b Hb. rewrite H' by (intros C; apply Hb; now right). apply put_other. intros ->. apply Hb. now left.
Qed.
Lemma det_from_mul : forall vs s r c (f : path -> V), det_from vs s r (fun r => o_mul o c (f r)) = o_mul o c (det_from vs s r f).
Proof.
  induction vs as [|a vs IH]; intros s r c f; simpl; [reflexivity|]. rewrite (osum_mul_l o Hring). apply osum_ext. intros x _. rewrite IH. ring.
Qed.
(** No variable of the list depends on itself or a later one. *)
Definition topological (vs : list nat) : Prop := forall l a r, vs = l ++ a :: r -> ~ In a r /\ forall b, In b (a :: r) -> ~ In b (pg_deps pg a).
Lemma topological_tail : forall a vs, topological (a :: vs) -> topological vs.
Proof. intros a vs H l b r E. apply (H (a :: l) b r). now rewrite E. Qed.
Lemma boxes : forall anc vs s r (f : path -> V), incl vs (pg_vars pg) -> topological vs ->
  (forall a r, In a vs -> ~ In a anc -> det (o_exp (pg_logp pg a s r)) = o_exp (pg_logp pg a s r)) ->
  det_from vs s r (fun r => o_mul o (oprod o (map (fun a => box o o_exp (pg_logp pg a s r)) (inside anc vs))) (f r)) =
  mean_from o o_exp pg vs s r f.
Proof.
  intros anc vs. induction vs as [|a vs IH]; intros s r f Hi Ht Hfree; [cbn; ring|].
  assert (Ha : In a (pg_vars pg)) by (apply Hi; now left).
  destruct (Ht [] a vs eq_refl) as [Hna Hd].
  assert (IH' : forall r, _) by (intros r0; apply (IH s r0 f); [intros b Hb; apply Hi; now right|exact (topological_tail _ _ Ht)|intros b r1 Hb; apply Hfree; now right]).
  simpl. destruct (in_dec Nat.eq_dec a anc) as [Hanc|Hanc].
  - apply osum_ext. intros x _.
    rewrite (det_from_off vs s _ _ (fun r0 => o_mul o (box o o_exp (pg_logp pg a s (put r a x)))
      (o_mul o (oprod o (map (fun a => box o o_exp (pg_logp pg a s r0)) (inside anc vs))) (f r0)))).
    + rewrite det_from_mul, IH'. unfold SpecProgram.prob at 2. rewrite <- (det_box (pg_logp pg a s (put r a x))) at 1. unfold SpecProgram.prob. ring.
    + intros r' H'. cbn [map]. cbn [oprod fold_right]. change (fold_right (o_mul o) (o_one o)) with (oprod o).
      replace (pg_logp pg a s r') with (pg_logp pg a s (put r a x)); [ring|].
      apply (po_local _ _ _ Hpg a s s); auto.
      * intros b Hb. symmetry. apply H'. intros C. apply (Hd b); auto. now right.
      * symmetry. now apply H'.
  - apply osum_ext. intros x _. rewrite IH'. f_equal. unfold SpecProgram.prob. apply Hfree; auto. now left.
Qed.

Lemma vars_topological : forall T, topological (inside T (pg_vars pg)).
Proof.
  intros T. assert (G : topological (pg_vars pg)).
  { intros l a r E. assert (N := po_nodup _ _ _ Hpg). rewrite E in N. split.
    - apply NoDup_remove_2 in N. intros C. apply N, in_or_app. now right.
    - intros b Hb C. apply (po_order _ _ _ Hpg l a r E) in C. clear E. induction l as [|c l IH]; [contradiction|].
      simpl in N. inversion N; subst. destruct C as [-> |C]; [apply H1, in_or_app; now right|]. now apply IH. }
  revert G. generalize (pg_vars pg). intros vs. induction vs as [|a vs IH]; intros Ht; [intros [|] b r E; discriminate|].
  cbn [inside filter]. fold (inside T vs). specialize (IH (topological_tail _ _ Ht)). destruct (in_dec Nat.eq_dec a T); [|exact IH].
  destruct (Ht [] a vs eq_refl) as [Hna Hd].
  intros l b r E. destruct l as [|c l]; injection E as E1 E2.
  - subst b r. split; [intros C; apply Hna; apply filter_In in C; apply C|]. intros b [<-|Hb]; apply Hd; [now left|]. right. apply filter_In in Hb. apply Hb.
  - apply (IH l b r E2).
Qed.

(** The expectation of a boxed cost at one choice of samples. *)
Lemma boxed_mean : forall FP T anc cost s w r0, depends_on o o_exp pg FP T anc cost -> NoDup anc -> in_range s FP ->
  sampled o o_exp pg w (fun w => o_mul o (box o o_exp (osum o (map (fun a => pg_logp pg a s (along pg w s)) anc))) (cost s (along pg w s))) =
  mean o o_exp pg s r0 (cost s).
Proof.
  intros FP T anc cost s w r0 Hd Hnd Hs. unfold sampled, mean. change (sites pg) with (sites_of (pg_vars pg)).
  assert (HT : closed_vars T) by (split; [apply (dp_vars _ _ _ _ _ _ _ Hd)|apply (dp_closed _ _ _ _ _ _ _ Hd)]).
  assert (Hc : forall r r', same_on T r r' -> cost s r = cost s r') by (intros r r'; apply (dp_cost _ _ _ _ _ _ _ Hd)).
  rewrite (sampled_path T (pg_vars pg) s w (fun r => o_mul o (box o o_exp (osum o (map (fun a => pg_logp pg a s r) anc))) (cost s r)) HT (incl_refl _)).
  - rewrite (mean_inside T (pg_vars pg) s r0 (cost s) HT (incl_refl _) Hc).
    transitivity (mean_from o o_exp pg (inside T (pg_vars pg)) s (along pg w s) (cost s)).
    + rewrite <- (boxes anc).
      * apply mean_ext. intros r. f_equal. rewrite box_osum. apply (oprod_perm o Hring). apply Permutation_map. apply NoDup_Permutation; auto.
        -- apply NoDup_filter, NoDup_filter, (po_nodup _ _ _ Hpg).
        -- intros a. unfold inside. rewrite !filter_In. destruct (in_dec Nat.eq_dec a anc) as [Ha|Ha]; [|intuition discriminate].
           assert (HaT := dp_anc _ _ _ _ _ _ _ Hd a Ha). destruct (in_dec Nat.eq_dec a T); [|contradiction].
           assert (HaV := dp_vars _ _ _ _ _ _ _ Hd a HaT). tauto.
      * intros a Ha. apply filter_In in Ha. apply Ha.
      * apply vars_topological.
      * intros a r Ha. apply (dp_free _ _ _ _ _ _ _ Hd). apply (inside_incl _ _ _ Ha).
    + assert (E : forall vs r, mean_from o o_exp pg vs s r (cost s) = from_q prob vs s r (cost s)).
      { induction vs as [|a l IH]; intros r; simpl; [reflexivity|]. apply osum_ext. intros x _. now rewrite IH. }
      rewrite !E.
      (* the values of the initial path do not matter: every variable of T is sampled *)
      assert (G : forall vs r r', (forall a, In a T -> ~ In a vs -> r a = r' a) -> incl vs T -> topological vs ->
        from_q prob vs s r (cost s) = from_q prob vs s r' (cost s)).
      { induction vs as [|a vs IH]; intros r r' H Hi Ht; simpl; [apply Hc; intros a Ha; apply H; auto|].
        assert (HaT : In a T) by (apply Hi; now left). destruct (Ht [] a vs eq_refl) as [Hna Hdp].
        assert (D : forall b, In b (pg_deps pg a) -> r b = r' b).
        { intros b Hb. apply H; [apply (proj2 HT a HaT b Hb)|]. intros C. apply (Hdp b C Hb). }
        assert (HaV := proj1 HT a HaT).
        rewrite (proj1 (po_local _ _ _ Hpg a s s r r' HaV (fun p _ => eq_refl) D)). apply osum_ext. intros x _. f_equal.
        - unfold SpecProgram.prob. f_equal. apply (po_local _ _ _ Hpg a s s); auto; [|now rewrite !put_same].
          intros b Hb. unfold put. destruct (b =? a); auto.
        - apply IH; [|intros b Hb; apply Hi; now right|exact (topological_tail _ _ Ht)].
          intros b HbT Hb. unfold put. destruct (Nat.eqb_spec b a); [reflexivity|]. apply H; auto. simpl. intuition. }
      apply G; [|apply inside_incl|apply vars_topological]. intros a Ha Hn. exfalso. apply Hn. apply filter_In. split; [apply (proj1 HT _ Ha)|].
      destruct (in_dec Nat.eq_dec a T); auto.
  - intros r r' H. f_equal; [|now apply Hc]. f_equal. f_equal. apply map_ext_in. intros a Ha.
    assert (HaT := dp_anc _ _ _ _ _ _ _ Hd a Ha). apply (po_local _ _ _ Hpg a s s); auto; [apply (proj1 HT _ HaT)|].
    intros b Hb. apply H. apply (proj2 HT a HaT b Hb).
  - intros a Ha p Hp. apply Hs, (dp_plates _ _ _ _ _ _ _ Hd a p Ha Hp).
Qed.

(** Expectations are linear. *)
Lemma sampled_ext : forall l w (f g : world -> V), (forall w, f w = g w) -> sampled_from o o_exp pg l w f = sampled_from o o_exp pg l w g.
Proof. induction l as [|[a i] l IH]; intros w f g H; simpl; [apply H|]. apply osum_ext. intros x _. f_equal. now apply IH. Qed.
Lemma sampled_sum : forall {A} (L : list A) l w (f : A -> world -> V),
  sampled_from o o_exp pg l w (fun w => osum o (map (fun k => f k w) L)) = osum o (map (fun k => sampled_from o o_exp pg l w (f k)) L).
Proof.
  intros A L l. induction l as [|[a i] l IH]; intros w f; simpl; [reflexivity|]. cbv zeta.
  erewrite osum_ext; [|intros x _; rewrite IH, (osum_mul_l o Hring); reflexivity]. apply (osum_swap o Hring).
Qed.
Lemma sampled_mul : forall l w c (f : world -> V), sampled_from o o_exp pg l w (fun w => o_mul o c (f w)) = o_mul o c (sampled_from o o_exp pg l w f).
Proof.
  induction l as [|[a i] l IH]; intros w c f; simpl; [reflexivity|]. rewrite (osum_mul_l o Hring). apply osum_ext. intros x _. rewrite IH. ring.
Qed.
Lemma sampled_sum_over : forall (ps : list plate) l w s (f : assignment -> world -> V),
  sampled_from o o_exp pg l w (fun w => sum_over o ps (fun s => f s w) s) = sum_over o ps (fun s => sampled_from o o_exp pg l w (f s)) s.
Proof.
  induction ps as [|p ps IH]; intros l w s f; simpl; [reflexivity|]. rewrite sampled_sum. apply osum_ext. intros i _. apply IH.
Qed.
Lemma sum_over_pt : forall (ps : list plate) (f g : assignment -> V) s, (forall s, f s = g s) -> sum_over o ps f s = sum_over o ps g s.
Proof. induction ps as [|p ps IH]; intros f g s H; simpl; [apply H|]. apply osum_ext. intros i _. now apply IH. Qed.
Lemma sampled_weighted : forall (L ps : list plate) l w s (f : assignment -> world -> V),
  sampled_from o o_exp pg l w (fun w => weighted_sum o false L ps (fun s => f s w) s) = weighted_sum o false L ps (fun s => sampled_from o o_exp pg l w (f s)) s.
Proof.
  intros. unfold weighted_sum. rewrite (sampled_sum_over ps l w s (fun s' w => o_mul o (oprod o (map (fun p => weight_at L p s') ps)) (f s' w))).
  apply sum_over_pt. intros s'. apply sampled_mul.
Qed.
End Expectation.
