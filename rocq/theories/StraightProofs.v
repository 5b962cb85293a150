(** Running a straight-line program: plates, parents and elements of every tensor it creates. *)
From Coq Require Import String List Arith Bool Lia Permutation.
From Verif Require Import Base Torch Plates Wrap Scalar Inference Graph Surrogate Sampling Straight ListLemmas IndexLemmas SpecTensor SpecWrap SpecOrder
  SpecReduce SpecGraph SpecSurrogate SpecSampling SpecProgram WrapProofs PlateEqProofs AlignProofs CallProofs CallProofs2 OpProofs CallN
  InferenceProofs SamplingProofs OrderProofs ReduceProofs2 SurrogateProofs StraightCall SpecStraight.
Import ListNotations.
Open Scope nat_scope.

Section Scan.
Context {V A : Type}.
Variable f : list A -> line V -> A.
Lemma scan_snoc : forall l x, scan f (l ++ [x]) = scan f l ++ [f (scan f l) x].
Proof. intros l x. unfold scan. rewrite fold_left_app. reflexivity. Qed.
Lemma scan_length : forall l, length (scan f l) = length l.
Proof. intros l. induction l as [|x l IH] using rev_ind; [reflexivity|]. rewrite scan_snoc, !app_length, IH. reflexivity. Qed.
Lemma scan_app : forall l m, exists r, scan f (l ++ m) = scan f l ++ r.
Proof.
  intros l m. induction m as [|x m IH] using rev_ind.
  - exists []. now rewrite !app_nil_r.
  - destruct IH as [r E]. exists (r ++ [f (scan f (l ++ m)) x]). now rewrite app_assoc, scan_snoc, E, app_assoc.
Qed.
(** The result of a statement, from the results of the statements before it. *)
Lemma scan_nth : forall l i x d, nth_error l i = Some x -> nth i (scan f l) d = f (firstn i (scan f l)) x.
Proof.
  intros l i x d H. pose proof (nth_error_split l i H) as [l1 [l2 [-> Hl]]].
  replace (l1 ++ x :: l2) with ((l1 ++ [x]) ++ l2) by (rewrite <- app_assoc; reflexivity).
  destruct (scan_app (l1 ++ [x]) l2) as [r E]. rewrite E, scan_snoc.
  assert (L : length (scan f l1) = i) by (rewrite scan_length; auto).
  rewrite <- !app_assoc. rewrite app_nth2 by lia. rewrite L, Nat.sub_diag. cbn [app nth]. f_equal. rewrite firstn_app, L, Nat.sub_diag. cbn [firstn].
  rewrite app_nil_r. rewrite <- L at 1. symmetry. apply firstn_all.
Qed.
End Scan.
Lemma nth_firstn_lt : forall {A} (l : list A) i a d, a < i -> nth a (firstn i l) d = nth a l d.
Proof. induction l as [|x l IH]; intros [|i] [|a] d H; simpl; auto; try lia. apply IH. lia. Qed.
Lemma map_nth_firstn : forall {A} (l : list A) i args d, (forall a, In a args -> a < i) -> map (fun a => nth a (firstn i l) d) args = map (fun a => nth a l d) args.
Proof. intros A l i args d H. apply map_ext_in. intros a Ha. apply nth_firstn_lt. auto. Qed.

Lemma nodup_app : forall {A} (l m : list A), NoDup (l ++ m) -> NoDup m /\ forall a, In a l -> In a m -> False.
Proof.
  induction l as [|x l IH]; intros m H; [split; auto; intros a []|]. inversion H as [|? ? Hx H']; subst. destruct (IH m H') as [H1 H2]. split; auto.
  intros a [<-|Ha] Hm; [apply Hx, in_or_app; auto|eauto].
Qed.

Section Static.
Context {V S : Type}.
Variable veq : V -> V -> bool.
Variable anc_unwrap : plate V -> stensor V -> res (stensor V).
Variable recip : nat -> V.
Variable o : sops V.
Variable o_exp : V -> V.
Notation plate := (plate V).
Notation stensor := (stensor V).
Notation N l := (map (@pname V) l).
Variable prog : list (line V).
Hypothesis Hok : straight_ok o o_exp prog.

Let PL (i : nat) : list plate := nth i (plates_of recip prog) [].
Let ND (i : nat) : list nat := nth i (needs prog) [].
Let VAL (s : assignment) (r : nat -> nat) (i : nat) : ten V := nth i (values o s r prog) (scalar0 o).
Let EV (i : nat) : list nat := match nth_error prog i with Some x => event_of x | None => [] end.
Let Q (x : line V) : list plate := joined (plates_of recip prog) (args_of x).
Definition own (x : line V) (name : string) : plate := mkPlate PlainPlate name (size_of x) (WTorch (tscalar (recip (size_of x)))) (Q x).

Lemma args_lt : forall i x a, nth_error prog i = Some x -> In a (args_of x) -> a < i.
Proof. intros i x a Hx Ha. destruct Hok as [_ H]. destruct (H i x Hx) as [H1 _]. auto. Qed.
Lemma args_len : forall i x a, nth_error prog i = Some x -> In a (args_of x) -> a < length prog.
Proof. intros i x a Hx Ha. pose proof (args_lt i x a Hx Ha). assert (i < length prog) by (apply nth_error_Some; congruence). lia. Qed.

Lemma joined_prefix : forall (env : list (list plate)) i args, (forall a, In a args -> a < i) -> joined (firstn i env) args = joined env args.
Proof.
  intros env i args H. unfold joined.
  assert (G : forall acc : list plate, fold_left (fun acc a => union acc (nth a (firstn i env) [])) args acc = fold_left (fun acc a => union acc (nth a env [])) args acc);
    [|apply G].
  induction args as [|a args IH]; intros acc; [reflexivity|]. cbn [fold_left].
  rewrite nth_firstn_lt by (apply H; simpl; auto). apply IH. intros b Hb. apply H. simpl; auto.
Qed.
Lemma PL_eq : forall i x, nth_error prog i = Some x ->
  PL i = match name_of x with name :: _ => own x name :: Q x | [] => Q x end.
Proof.
  intros i x Hx. assert (E : PL i = plates_step recip (firstn i (plates_of recip prog)) x) by exact (scan_nth _ prog i x [] Hx).
  rewrite E. unfold plates_step. rewrite joined_prefix by (intros a Ha; exact (args_lt i x a Hx Ha)). reflexivity.
Qed.
Lemma ND_eq : forall i x, nth_error prog i = Some x ->
  ND i = let l := nodup Nat.eq_dec (flat_map ND (args_of x)) in if is_draw x then i :: l else l.
Proof.
  intros i x Hx. assert (Li : i < length prog) by (apply nth_error_Some; congruence).
  assert (E : ND i = needs_step (firstn i (needs prog)) x) by exact (scan_nth needs_step prog i x [] Hx). rewrite E. unfold needs_step at 1.
  assert (L : length (firstn i (needs prog)) = i) by (rewrite firstn_length; unfold needs; rewrite scan_length; lia). rewrite L. cbv zeta.
  rewrite (flat_map_concat_map (fun a => nth a (firstn i (needs prog)) [])), map_nth_firstn by (intros a Ha; exact (args_lt i x a Hx Ha)).
  rewrite <- flat_map_concat_map. reflexivity.
Qed.
Lemma VAL_eq : forall s r i x, nth_error prog i = Some x -> VAL s r i = outcome o (values o s r prog) x (made s r i x).
Proof.
  intros s r i x Hx. assert (Li : i < length prog) by (apply nth_error_Some; congruence).
  assert (E : VAL s r i = outcome o (firstn i (values o s r prog)) x (made s r (length (firstn i (values o s r prog))) x))
    by exact (scan_nth _ prog i x (scalar0 o) Hx).
  rewrite E. assert (L : length (firstn i (values o s r prog)) = i) by (rewrite firstn_length; unfold values; rewrite scan_length; lia). rewrite L.
  unfold outcome. destruct x as [[name t|name n sizes args grad lp|fn args] m]; auto. destruct m; auto.
  unfold named. rewrite map_nth_firstn by (intros a Ha; exact (args_lt i _ a Hx Ha)). reflexivity.
Qed.
Lemma VAL_shape : forall s r i, i < length prog -> shape (VAL s r i) = EV i.
Proof.
  intros s r i Hi. unfold EV. destruct (nth_error prog i) as [x|] eqn:Hx; [|apply nth_error_None in Hx; lia]. rewrite (VAL_eq s r i x Hx).
  destruct Hok as [_ H]. destruct (H i x Hx) as [_ H2]. destruct x as [[name t|name n sizes args grad lp|fn args] [|m value evl g|ev g]]; try contradiction; reflexivity.
Qed.
Lemma PL_out : forall i, length prog <= i -> PL i = [].
Proof. intros i Hi. unfold PL. apply nth_overflow. unfold plates_of. rewrite scan_length. exact Hi. Qed.
Lemma ND_out : forall i, length prog <= i -> ND i = [].
Proof. intros i Hi. unfold ND. apply nth_overflow. unfold needs. rewrite scan_length. exact Hi. Qed.

(** Where plates come from. *)
Lemma joined_in : forall (env : list (list plate)) args p, In p (joined env args) -> exists a, In a args /\ In p (nth a env []).
Proof.
  intros env args p. unfold joined. assert (G : forall args acc, In p (fold_left (fun acc a => union acc (nth a env [])) args acc) -> In p acc \/ exists a, In a args /\ In p (nth a env [])).
  { clear args. induction args as [|a args IH]; intros acc H; auto. cbn [fold_left] in H. apply IH in H. destruct H as [H|[b [Hb Hp]]].
    - unfold union in H. apply in_app_or in H. destruct H as [H|H]; auto. right. exists a. split; [simpl; auto|]. apply filter_In in H. tauto.
    - right. exists b. split; simpl; auto. }
  intros H. destruct (G args [] H) as [[]|H']; exact H'.
Qed.
Lemma joined_names : forall (env : list (list plate)) args n, In n (N (joined env args)) <-> exists a, In a args /\ In n (N (nth a env [])).
Proof.
  intros env args n. unfold joined.
  assert (G : forall args acc, In n (N (fold_left (fun acc a => union acc (nth a env [])) args acc)) <-> In n (N acc) \/ exists a, In a args /\ In n (N (nth a env []))).
  { clear args. induction args as [|a args IH]; intros acc; cbn [fold_left].
    - split; auto. intros [H|[a [[] _]]]; exact H.
    - rewrite IH, (union_names anc_unwrap). split.
      + intros [[H|H]|[b [Hb H]]]; [left; exact H|right; exists a; simpl; auto|right; exists b; simpl; auto].
      + intros [H|[b [[E|Hb] H]]]; [left; left; exact H|subst b; left; right; exact H|right; exists b; auto]. }
  rewrite G. split; [intros [[]|H]; exact H|auto].
Qed.
Definition made_at (d : nat) (p : plate) : Prop := exists x name, nth_error prog d = Some x /\ name_of x = [name] /\ p = own x name.
Lemma one_name : forall x : line V, name_of x = [] \/ exists name, name_of x = [name].
Proof. intros [[name t|name n sizes args grad lp|fn args] m]; [right; exists name; reflexivity|right; exists name; reflexivity|left; reflexivity]. Qed.
Lemma PL_from : forall i p, In p (PL i) -> exists d, d <= i /\ made_at d p.
Proof.
  induction i as [i IH] using lt_wf_ind. intros p Hp. destruct (nth_error prog i) as [x|] eqn:Hx.
  2:{ apply nth_error_None in Hx. rewrite PL_out in Hp by auto. destruct Hp. }
  rewrite (PL_eq i x Hx) in Hp. assert (G : In p (Q x) -> exists d, d <= i /\ made_at d p).
  { intros H. apply joined_in in H. destruct H as [a [Ha H]]. destruct (IH a (args_lt i x a Hx Ha) p H) as [d [Hd M]]. exists d. split; auto.
    pose proof (args_lt i x a Hx Ha). lia. }
  destruct (one_name x) as [E|[name E]]; rewrite E in Hp; auto. destruct Hp as [<-|Hp]; auto. exists i. split; auto. exists x, name. auto.
Qed.
Lemma Q_from : forall i x p, nth_error prog i = Some x -> In p (Q x) -> exists d, d < i /\ made_at d p.
Proof.
  intros i x p Hx H. apply joined_in in H. destruct H as [a [Ha H]]. pose proof (args_lt i x a Hx Ha). destruct (PL_from a p H) as [d [Hd M]]. exists d. split; auto. lia.
Qed.
Lemma names_at : forall (l : list (line V)) d e x y n, NoDup (flat_map name_of l) -> nth_error l d = Some x -> nth_error l e = Some y -> In n (name_of x) -> In n (name_of y) -> d = e.
Proof.
  induction l as [|z l IH]; intros d e x y n D Hd He Hx Hy; [destruct d; discriminate|]. cbn [flat_map] in D.
  assert (X : forall k u, nth_error l k = Some u -> In n (name_of u) -> In n (flat_map name_of l)).
  { intros k u Hk Hu. apply in_flat_map. exists u. split; auto. eapply nth_error_In; eauto. }
  destruct d as [|d], e as [|e]; auto; cbn [nth_error] in Hd, He.
  - injection Hd as <-. exfalso. exact (proj2 (nodup_app _ _ D) n Hx (X _ _ He Hy)).
  - injection He as <-. exfalso. exact (proj2 (nodup_app _ _ D) n Hy (X _ _ Hd Hx)).
  - f_equal. eapply IH; eauto. exact (proj1 (nodup_app _ _ D)).
Qed.
Lemma made_name : forall d p, made_at d p -> exists x, nth_error prog d = Some x /\ In (pname p) (name_of x).
Proof. intros d p [x [name [H1 [H2 ->]]]]. exists x. split; auto. rewrite H2. simpl; auto. Qed.
Lemma made_same : forall d e p q, made_at d p -> made_at e q -> pname p = pname q -> d = e /\ p = q.
Proof.
  intros d e p q Hp Hq E. destruct (made_name d p Hp) as [x [X1 X2]]. destruct (made_name e q Hq) as [y [Y1 Y2]]. rewrite <- E in Y2.
  assert (d = e) by (exact (names_at prog d e x y (pname p) (proj1 Hok) X1 Y1 X2 Y2)). subst e. split; auto.
  destruct Hp as [x' [n1 [A1 [A2 ->]]]], Hq as [y' [n2 [B1 [B2 ->]]]]. rewrite A1 in B1. injection B1 as <-. rewrite A2 in B2. injection B2 as <-. reflexivity.
Qed.
Lemma made_pos : forall d p, made_at d p -> 1 <= pn p.
Proof.
  intros d p [x [name [H1 [H2 ->]]]]. destruct Hok as [_ H]. destruct (H d x H1) as [_ K]. cbn [pn own].
  destruct x as [[nm t|nm n sizes args grad lp|fn args] [|m value evl g|ev g]]; try contradiction; cbn in *.
  - destruct K as [n [ev [E L]]]. rewrite E. simpl. lia.
  - tauto.
  - discriminate.
Qed.
Lemma PL_nodup_both : forall i, NoDup (N (PL i)) /\ forall x, nth_error prog i = Some x -> NoDup (N (Q x)).
Proof.
  assert (QND : forall i x, nth_error prog i = Some x -> (forall a, a < i -> NoDup (N (PL a))) -> NoDup (N (Q x))).
  { intros i x Hx H. unfold Q, joined. assert (G : forall args (acc : list plate), NoDup (N acc) -> (forall a, In a args -> a < i) ->
      NoDup (N (fold_left (fun acc a => union acc (nth a (plates_of recip prog) [])) args acc))).
    { induction args as [|a args IH]; intros acc D L; auto. cbn [fold_left]. apply IH; [|intros b Hb; apply L; simpl; auto]. apply union_NoDup; auto.
      apply H. apply L. simpl; auto. }
    apply G; [constructor|]. intros a Ha. exact (args_lt i x a Hx Ha). }
  assert (G : forall i, NoDup (N (PL i))).
  { induction i as [i IH] using lt_wf_ind. destruct (nth_error prog i) as [x|] eqn:Hx.
    2:{ apply nth_error_None in Hx. rewrite PL_out by auto. constructor. }
    rewrite (PL_eq i x Hx). pose proof (QND i x Hx IH) as D. destruct (one_name x) as [E|[name E]]; rewrite E; auto. cbn [map]. constructor; auto.
    intros C. apply in_map_iff in C. destruct C as [q [Eq Hq]]. destruct (Q_from i x q Hx Hq) as [d [Hd M]].
    assert (M' : made_at i (own x name)) by (exists x, name; auto). destruct (made_same d i q (own x name) M M' Eq). lia. }
  intros i. split; auto. intros x Hx. apply (QND i x Hx). auto.
Qed.
Lemma PL_nodup : forall i, NoDup (N (PL i)).
Proof. intros i. apply PL_nodup_both. Qed.
Lemma made_PL : forall i j p q, In p (PL i) -> In q (PL j) -> pname p = pname q -> p = q.
Proof.
  intros i j p q Hp Hq E. destruct (PL_from i p Hp) as [d [_ M]], (PL_from j q Hq) as [e [_ M']]. now destruct (made_same d e p q M M' E).
Qed.
Lemma PL_pos : forall i p, In p (PL i) -> 1 <= pn p.
Proof. intros i p Hp. destruct (PL_from i p Hp) as [d [_ M]]. exact (made_pos d p M). Qed.
Lemma PL_plain : forall i p, In p (PL i) -> pcls p = PlainPlate.
Proof. intros i p Hp. destruct (PL_from i p Hp) as [d [_ [x [name [_ [_ ->]]]]]]. reflexivity. Qed.
(** The plates of an argument are plates of the result. *)
Lemma arg_in_Q : forall i x a p, nth_error prog i = Some x -> In a (args_of x) -> In p (PL a) -> In p (Q x).
Proof.
  intros i x a p Hx Ha Hp. assert (H : In (pname p) (N (Q x))) by (apply joined_names; exists a; split; [exact Ha|apply in_map; exact Hp]).
  apply in_map_iff in H. destruct H as [q [E Hq]]. destruct (Q_from i x q Hx Hq) as [d [_ M]]. destruct (PL_from a p Hp) as [e [_ M']].
  destruct (made_same d e q p M M' E) as [_ ->]. exact Hq.
Qed.
Lemma Q_in_PL : forall i x p, nth_error prog i = Some x -> In p (Q x) -> In p (PL i).
Proof. intros i x p Hx Hp. rewrite (PL_eq i x Hx). destruct (name_of x); simpl; auto. Qed.
Lemma arg_in_PL : forall i x a p, nth_error prog i = Some x -> In a (args_of x) -> In p (PL a) -> In p (PL i).
Proof. intros. eapply Q_in_PL; eauto. eapply arg_in_Q; eauto. Qed.
(** A tensor with a plate has the plates that plate was made under. *)
Lemma PL_parents : forall i p q, In p (PL i) -> In q (pparents p) -> In q (PL i).
Proof.
  induction i as [i IH] using lt_wf_ind. intros p q Hp Hq. destruct (nth_error prog i) as [x|] eqn:Hx.
  2:{ apply nth_error_None in Hx. rewrite PL_out in Hp by auto. destruct Hp. }
  assert (G : In p (Q x) -> In q (PL i)).
  { intros H. apply joined_in in H. destruct H as [a [Ha H]]. eapply arg_in_PL; eauto. exact (IH a (args_lt i x a Hx Ha) p q H Hq). }
  rewrite (PL_eq i x Hx) in Hp. destruct (one_name x) as [E|[name E]]; rewrite E in Hp; auto. destruct Hp as [<-|Hp]; auto.
  cbn [pparents own] in Hq. eapply Q_in_PL; eauto.
Qed.
Lemma PL_closed : forall i, closed (PL i).
Proof. intros i p q Hp Hq. apply in_map. eapply PL_parents; eauto. Qed.
Lemma PL_ancestry : forall i p, ancestry (PL i) p -> In p (PL i).
Proof.
  intros i p [H|[q [Hq H]]]; auto. revert Hq. induction H as [a p H|a q p H H' IH]; intros Hq.
  - eapply PL_parents; eauto.
  - apply IH. eapply PL_parents; eauto.
Qed.
Lemma PL_sound : forall i, sound veq (PL i).
Proof.
  intros i. constructor.
  - split; [apply PL_nodup|]. split.
    + intros p Hp. destruct (PL_from i p Hp) as [d [_ [x [name [Hx [_ ->]]]]]]. cbn [pparents own]. exact (proj2 (PL_nodup_both d) x Hx).
    + intros p q Hp Hq E. apply PL_ancestry in Hp. apply PL_ancestry in Hq. rewrite (made_PL i i p q Hp Hq E). apply (peq_refl veq).
  - intros p q Hp Hq E. apply PL_ancestry in Hp. apply PL_ancestry in Hq. now rewrite (made_PL i i p q Hp Hq E).
  - intros p Hp. apply PL_ancestry in Hp. eapply PL_plain; eauto.
  - intros p Hp. apply PL_ancestry in Hp. eapply PL_pos; eauto.
Qed.
Lemma parent_earlier : forall d e p q, made_at d p -> made_at e q -> parent_of p q -> d < e.
Proof.
  intros d e p q Hp Hq H. unfold parent_of in H. destruct Hq as [x [name [Hx [E ->]]]]. cbn [pparents own] in H. apply in_map_iff in H. destruct H as [p' [Ep Hp']].
  destruct (Q_from e x p' Hx Hp') as [d' [Hd' M]]. destruct (made_same d' d p' p M Hp Ep) as [-> _]. exact Hd'.
Qed.
Lemma PL_acyclic : forall i, ~ cyclic (PL i).
Proof.
  intros i [c [Hne [Hi Hc]]]. assert (G : forall e q, In q c -> made_at e q -> False).
  { induction e as [e IH] using lt_wf_ind. intros q Hq M. destruct (Hc q Hq) as [p [Hp Hpq]]. destruct (PL_from i p (Hi p Hp)) as [d [_ M']].
    apply (IH d (parent_earlier d e p q M' M Hpq) p Hp M'). }
  destruct c as [|q c]; [congruence|]. destruct (PL_from i q (Hi q (or_introl eq_refl))) as [d [_ M]]. exact (G d q (or_introl eq_refl) M).
Qed.
Lemma PL_ok : forall i, plates_ok veq (PL i).
Proof.
  intros i. constructor; [apply PL_sound|apply PL_acyclic|]. intros p Hp. destruct (PL_from i p Hp) as [d [_ [x [name [_ [_ ->]]]]]]. left. reflexivity.
Qed.

(** What a value on a path depends on. *)
Lemma ND_lt : forall i b, In b (ND i) -> b <= i /\ In b (draws_of prog).
Proof.
  induction i as [i IH] using lt_wf_ind. intros b Hb. destruct (nth_error prog i) as [x|] eqn:Hx.
  2:{ apply nth_error_None in Hx. rewrite ND_out in Hb by auto. destruct Hb. }
  rewrite (ND_eq i x Hx) in Hb. cbv zeta in Hb.
  assert (G : In b (nodup Nat.eq_dec (flat_map ND (args_of x))) -> b <= i /\ In b (draws_of prog)).
  { intros H. apply nodup_In, in_flat_map in H. destruct H as [a [Ha H]]. pose proof (args_lt i x a Hx Ha) as L. destruct (IH a L b H). split; auto. lia. }
  destruct (is_draw x) eqn:D; auto. destruct Hb as [<-|Hb]; auto. split; auto. unfold draws_of. apply filter_In. rewrite Hx. split; auto. apply in_seq.
  assert (i < length prog) by (apply nth_error_Some; congruence). lia.
Qed.
Lemma ND_arg : forall i x a b, nth_error prog i = Some x -> In a (args_of x) -> In b (ND a) -> In b (ND i).
Proof.
  intros i x a b Hx Ha Hb. rewrite (ND_eq i x Hx). cbv zeta. assert (In b (nodup Nat.eq_dec (flat_map ND (args_of x)))).
  { apply nodup_In, in_flat_map. eauto. }
  destruct (is_draw x); simpl; auto.
Qed.
Lemma ND_nodup : forall i, NoDup (ND i).
Proof.
  intros i. destruct (nth_error prog i) as [x|] eqn:Hx.
  2:{ apply nth_error_None in Hx. rewrite ND_out by auto. constructor. }
  rewrite (ND_eq i x Hx). cbv zeta. destruct (is_draw x); [|apply NoDup_nodup]. constructor; [|apply NoDup_nodup].
  intros C. apply nodup_In, in_flat_map in C. destruct C as [a [Ha C]]. pose proof (args_lt i x a Hx Ha). apply ND_lt in C. lia.
Qed.
Definition data_name (n : string) : Prop := exists i t m, nth_error prog i = Some (Data n t, m).
Lemma VAL_local : forall s s' r r' i, (forall p, In p (PL i) -> data_name (pname p) -> s (pname p) = s' (pname p)) -> (forall b, In b (ND i) -> r b = r' b) -> VAL s r i = VAL s' r' i.
Proof.
  intros s s' r r'. induction i as [i IH] using lt_wf_ind. intros Hs Hr. destruct (nth_error prog i) as [x|] eqn:Hx.
  2:{ unfold VAL. rewrite !nth_overflow; auto; unfold values; rewrite scan_length; now apply nth_error_None. }
  rewrite !(VAL_eq _ _ i x Hx).
  assert (G : forall a, In a (args_of x) -> VAL s r a = VAL s' r' a).
  { intros a Ha. apply IH; [exact (args_lt i x a Hx Ha)| |].
    - intros p Hp Hd. apply Hs; auto. eapply arg_in_PL; eauto.
    - intros b Hb. apply Hr. eapply ND_arg; eauto. }
  destruct x as [[name t|name n sizes args grad lp|fn args] m]; cbn [outcome made fst].
  - f_equal. unfold made. cbn [fst]. rewrite (PL_eq i _ Hx) in Hs. cbn [name_of fst] in Hs. specialize (Hs _ (or_introl eq_refl)). cbn [pname own] in Hs. rewrite Hs; auto. exists i, t, m. exact Hx.
  - destruct m; auto. rewrite Hr; auto. rewrite (ND_eq i _ Hx). simpl; auto.
  - destruct m; auto. assert (E : named o (values o s r prog) args = named o (values o s' r' prog) args) by exact (map_ext_in _ _ _ G). rewrite E. reflexivity.
Qed.

(** One tensor of the run in world [w]. *)
Notation pg := (sampling o recip prog).
Record tensor_at (w : @world nat) (i : nat) (x : stensor) : Prop := {
  ta_wf : wf x;
  ta_sid : sid x = i;
  ta_plates : splates x = PL i;
  ta_event : s_event_shape x = EV i;
  ta_parents : forall j, In j (sparents x) <-> exists y, nth_error prog i = Some y /\ In j (args_of y);
  ta_den : forall s e, in_range s (PL i) -> valid e (EV i) -> den x s e = el (VAL s (along pg w s) i) e;
  ta_list : sparents x = match nth_error prog i with
                         | Some y => if is_draw y then fold_left add_parent (args_of y) [] else args_of y
                         | None => []
                         end
}.
Notation dflt := (no_tensor o).
Definition good (w : @world nat) (k : nat) (env : list stensor) : Prop :=
  length env = k /\ forall i, i < k -> tensor_at w i (nth i env dflt).
Notation picked env args := (map (fun a => nth a env dflt) args).

Lemma lookups : forall (env : list stensor) args, (forall a, In a args -> a < length env) -> mapM (lookup env) args = Ok (picked env args).
Proof.
  induction args as [|a args IH]; intros H; [reflexivity|]. cbn [mapM map]. unfold lookup at 1.
  rewrite (nth_error_nth' env dflt) by (apply H; simpl; auto). cbn [bind]. rewrite IH by (intros b Hb; apply H; simpl; auto). reflexivity.
Qed.

Section Env.
Variable w : @world nat.
Variable k : nat.
Variable env : list stensor.
Hypothesis Hg : good w k env.
Variable args : list nat.
Hypothesis Ha : forall a, In a args -> a < k.

Lemma picked_ta : forall t, In t (picked env args) -> exists a, In a args /\ t = nth a env dflt /\ tensor_at w a t.
Proof. intros t Ht. apply in_map_iff in Ht. destruct Ht as [a [<- Ht]]. exists a. split; [exact Ht|]. split; [reflexivity|]. apply Hg. auto. Qed.
Lemma picked_plate : forall p, In p (flat_map splates (picked env args)) -> exists a, In a args /\ In p (PL a).
Proof.
  intros p Hp. apply in_flat_map in Hp. destruct Hp as [t [Ht Hp]]. destruct (picked_ta t Ht) as [a [A1 [_ A3]]]. exists a. split; auto. now rewrite <- (ta_plates _ _ _ A3).
Qed.
Lemma picked_callable : callable veq (picked env args).
Proof.
  split; [|split].
  - apply Forall_forall. intros t Ht. destruct (picked_ta t Ht) as [a [_ [_ A]]]. apply A.
  - intros p q Hp Hq E. destruct (picked_plate p Hp) as [a [_ A]], (picked_plate q Hq) as [b [_ B]]. rewrite (made_PL a b p q A B E). split; auto. apply (peq_refl veq).
  - intros p Hp. destruct (picked_plate p Hp) as [a [_ A]]. eapply PL_plain; eauto.
Qed.
Lemma picked_plates : all_plates (picked env args) = joined (plates_of recip prog) args.
Proof.
  unfold all_plates, joined.
  assert (G : forall l (acc : list plate), (forall a, In a l -> a < k) -> fold_left (fun acc t => union acc (splates t)) (picked env l) acc
    = fold_left (fun acc a => union acc (nth a (plates_of recip prog) [])) l acc).
  { clear Ha. induction l as [|a l IH]; intros acc H; [reflexivity|]. cbn [map fold_left]. rewrite IH by (intros b Hb; apply H; simpl; auto).
    destruct Hg as [_ G]. rewrite (ta_plates _ _ _ (G a (H a (or_introl eq_refl)))). reflexivity. }
  apply G. exact Ha.
Qed.
Lemma picked_sids : map sid (picked env args) = args.
Proof.
  rewrite map_map. rewrite <- (map_id args) at 2. apply map_ext_in. intros a H. apply Hg. auto.
Qed.
Lemma picked_events : k <= length prog -> map s_event_shape (picked env args) = shapes_of prog args.
Proof.
  intros Hk. rewrite map_map. unfold shapes_of. apply map_ext_in. intros a H. destruct Hg as [_ G]. rewrite (ta_event _ _ _ (G a (Ha a H))). reflexivity.
Qed.
(** One sample of the arguments. *)
Lemma picked_slice : forall s, (forall a p, In a args -> In p (PL a) -> s (pname p) < pn p) -> k <= length prog -> forall M,
  Forall2 teq (map (slice M s) (picked env args)) (map (padded_to M) (named o (values o s (along pg w s) prog) args)).
Proof.
  intros s Hs Hk M. unfold named. rewrite !map_map.
  assert (G : forall l, (forall a, In a l -> a < k /\ forall p, In p (PL a) -> s (pname p) < pn p) ->
    Forall2 teq (map (fun x => slice M s (nth x env dflt)) l) (map (fun x => padded_to M (nth x (values o s (along pg w s) prog) (scalar0 o))) l)).
  { induction l as [|a l IH]; intros H; cbn [map]; constructor; [|apply IH; intros b Hb; apply H; simpl; auto].
    destruct (H a (or_introl eq_refl)) as [La Hp]. destruct Hg as [_ G]. pose proof (G a La) as T. pose proof (VAL_shape s (along pg w s) a ltac:(lia)) as Es. unfold VAL in Es.
    unfold teq, slice, padded_to, rank. cbn [shape el]. rewrite Es, (ta_event _ _ _ T). split; auto. intros e He.
    unfold s_event_dims. rewrite (ta_event _ _ _ T). apply (ta_den _ _ _ T); [exact Hp|]. now apply (valid_firstn_pad (EV a) M). }
  apply G. intros a H. split; auto. intros p Hp. eapply Hs; eauto.
Qed.
Lemma picked_rank : k <= length prog -> forall s r, max_event (picked env args) = maxl (map rank (named o (values o s r prog) args)).
Proof.
  intros Hk s r. rewrite max_event_maxl. f_equal. rewrite (picked_events Hk). unfold shapes_of, named. rewrite !map_map. apply map_ext_in. intros a H.
  unfold rank. pose proof (VAL_shape s r a ltac:(specialize (Ha a H); lia)) as Es. unfold VAL in Es. rewrite Es. reflexivity.
Qed.
End Env.

Lemma full_index_spec : forall (s : assignment) (l : list plate) e, in_range s l -> (forall p, In p l -> 1 <= pn p) ->
  full_index l (map (fun p => s (pname p)) (wide l) ++ e) = (map (fun p => s (pname p)) l, e).
Proof.
  intros s. induction l as [|p l IH]; intros e Hs Hp; [reflexivity|]. cbn [full_index wide filter].
  assert (IH' := IH e (fun q Hq => Hs q (or_intror Hq)) (fun q Hq => Hp q (or_intror Hq))).
  destruct (Nat.ltb_spec 1 (pn p)) as [L|L].
  - cbn [map app tl hd]. fold (wide l). rewrite IH'. reflexivity.
  - fold (wide l). rewrite IH'. cbn [map]. assert (s (pname p) = 0) by (specialize (Hs p (or_introl eq_refl)); specialize (Hp p (or_introl eq_refl)); lia). congruence.
Qed.
Lemma param_tensors_draw : forall (ts : list stensor) grad, param_tensors (draw_params ts grad) = ts.
Proof. intros ts grad. unfold draw_params, param_tensors. cbn [flat_map app]. induction ts as [|t ts IH]; [reflexivity|]. cbn [map flat_map app]. now rewrite IH. Qed.
Lemma grad_draw : forall (ts : list stensor) grad, existsb needs_grad (draw_params ts grad) = grad.
Proof.
  intros ts grad. unfold draw_params. cbn [existsb needs_grad]. assert (E : existsb needs_grad (map (fun t : stensor => ParS t false) ts) = false) by (induction ts; simpl; auto).
  rewrite E. apply orb_false_r.
Qed.
Lemma collected_plates : forall params : list (@param V), callable veq (param_tensors params) ->
  snd (fst (collect_params veq params [] [] false)) = all_plates (param_tensors params).
Proof.
  intros params [Hwf [HA Hpl]]. rewrite collect_params_plates. destruct (folded_spec veq anc_unwrap (param_tensors params) [] (flat_map splates (param_tensors params))) as [E _]; auto.
  - intros x []. - constructor. - intros u Hu x Hx. apply in_flat_map. eauto.
Qed.

Lemma collected_parents : forall (params : list (@param V)) parents plates rg,
  fst (fst (collect_params veq params parents plates rg)) = fold_left add_parent (map sid (param_tensors params)) parents.
Proof.
  induction params as [|[a r|r] ps IH]; intros parents plates rg; [reflexivity| |]; cbn [collect_params]; rewrite IH; reflexivity.
Qed.
Lemma sample_parents : forall name n mc (params : list (@param V)) id x b, method_sample veq recip name n mc None None params [] [] id = Ok (x, b) ->
  sparents x = fold_left add_parent (map sid (param_tensors params)) [].
Proof.
  intros name n mc params id x b H. unfold method_sample in H. pose proof (collected_parents params [] [] false) as P.
  destruct (collect_params veq params [] [] false) as [[parents plates] rg]. cbn [fst] in P. rewrite <- P. clear P.
  destruct (existsb _ plates); [discriminate|]. unfold monte_carlo in H.
  destruct (mc _) as [t|]; [|discriminate]. cbn [bind] in H. destruct (shape t) as [|size sh]; [discriminate|].
  destruct (find _ plates) as [p|].
  - destruct (mk_tensor id (if size =? 1 then squeeze0 t else t) parents plates true) as [y|] eqn:E; [|discriminate]. cbn [bind] in H. injection H as <- _.
    apply mk_tensor_fields in E. apply E.
  - destruct (mk_tensor id (if size =? 1 then squeeze0 t else t) parents _ true) as [y|] eqn:E; [|discriminate]. cbn [bind] in H. injection H as <- _.
    apply mk_tensor_fields in E. apply E.
Qed.

Lemma step_ok : forall w k env x, good w k env -> nth_error prog k = Some x ->
  exists y, step veq anc_unwrap recip (drawn_in o prog w) env (fst x) = Ok y /\ tensor_at w k y.
Proof.
  intros w k env x Hg Hx. assert (Lk : k < length prog) by (apply nth_error_Some; congruence).
  destruct Hok as [_ HL]. destruct (HL k x Hx) as [Hargs Hl]. assert (Eenv : length env = k) by apply Hg.
  assert (HP : forall j, (exists y, nth_error prog k = Some y /\ In j (args_of y)) <-> In j (args_of x)).
  { intros j. split; [intros [y [E H]]; congruence|]. eauto. }
  assert (HEV : EV k = event_of x) by (unfold EV; now rewrite Hx).
  destruct x as [[name t|name n sizes args grad lp|fn args] [|m value evl g|ev g]]; try contradiction; unfold step; cbn [fst]; rewrite Eenv.
  - destruct Hl as [n [ev [Es Hn]]]. unfold denote_independent_raw. rewrite outside_top. cbn [negb].
    unfold to_front. cbn [Nat.eqb bind]. destruct (independent_ok recip k t [] [] name None n ev) as [r [E [A1 [A2 [A3 [A4 [A5 A6]]]]]]]; auto.
    { constructor. } { intros p []. }
    rewrite E. exists r. split; [reflexivity|]. cbn [event_of] in HEV. rewrite Es in HEV. cbn [tl] in HEV.
    assert (EP : splates r = PL k). { rewrite A3, (PL_eq k _ Hx). cbn. unfold own, new_plate, Q. cbn. rewrite Es. reflexivity. }
    constructor; auto.
    + now rewrite HEV.
    + intros j. rewrite HP, A4. cbn. tauto.
    + intros s e Hs He. rewrite (VAL_eq s (along pg w s) k _ Hx). cbn [outcome made fst el]. unfold den. rewrite A2, A3. unfold wide. cbn [filter new_plate pn].
      destruct (Nat.ltb_spec 1 n); [reflexivity|lia].
    + rewrite Hx. cbn. exact A4.
  - destruct Hl as [Hn [Hlead [Hsum Hfree]]]. cbn [args_of fst] in Hargs, HP.
    rewrite (lookups env args) by (rewrite Eenv; exact Hargs). cbn [bind].
    pose proof (picked_callable w k env Hg args Hargs) as HC. set (ts := picked env args) in *.
    pose proof (collected_plates (draw_params ts grad)) as CP. rewrite param_tensors_draw in CP. specialize (CP HC).
    destruct (collect_params veq (draw_params ts grad) [] [] false) as [[pr0 pl0] rg0]. cbn [fst snd] in CP. subst pl0.
    pose proof (picked_plates w k env Hg args Hargs) as EQ. fold ts in EQ.
    destruct (sample_spec veq anc_unwrap recip name n (drawn (drawn_in o prog w k) (all_plates ts) sizes) None (draw_params ts grad) k
      (mkten (n :: map pn (mdp (all_plates ts)) ++ sizes)
        (fun i => let '(a, e) := full_index (all_plates ts) (tl i) in el (drawn_in o prog w k (hd 0 i :: a)) e)) n sizes) as [y [Y1 [Y2 [Y3 [Y4 [Y5 [Y6 [Y7 [Y8 Y9]]]]]]]]].
    + now rewrite param_tensors_draw.
    + rewrite param_tensors_draw. intros u Hu C. destruct (picked_ta w k env Hg args Hargs u Hu) as [a [A1 [_ A3]]]. rewrite (ta_plates _ _ _ A3) in C.
      apply in_map_iff in C. destruct C as [q [Eq Hq]]. destruct (PL_from a q Hq) as [d [Hd M]].
      assert (M' : made_at k (own (Draw name n sizes args grad lp, MDraw m value evl g) name)) by (eexists; exists name; split; [exact Hx|split; reflexivity]).
      destruct (made_same d k q _ M M' Eq) as [-> _]. specialize (Hargs a A1). lia.
    + reflexivity.
    + exact Hn.
    + rewrite param_tensors_draw. reflexivity.
    + rewrite Y1. cbn [bind]. exists y. split; [reflexivity|]. rewrite param_tensors_draw in Y4, Y8, Y9. cbv zeta in Y4.
      assert (EP : splates y = PL k). { rewrite Y4, (PL_eq k _ Hx). cbn [name_of fst]. unfold own, Q. cbn [args_of size_of fst]. rewrite EQ. reflexivity. }
      constructor; auto.
      * now rewrite HEV.
      * intros j. rewrite HP, Y8. unfold ts. rewrite (picked_sids w k env Hg args Hargs). tauto.
      * intros s e Hs He. rewrite Y9 by (rewrite EP; exact Hs). cbn [el hd tl].
        assert (Hq : in_range s (all_plates ts)). { intros p Hp. apply Hs. rewrite <- EP, Y4. now right. }
        rewrite full_index_spec by (auto; intros p Hp; exact (all_pos veq anc_unwrap ts HC p Hp)).
        unfold drawn_in. rewrite Hx. rewrite (VAL_eq s (along pg w s) k _ Hx). cbn [outcome made fst]. cbn [el]. f_equal. f_equal.
        unfold along. cbn [pg_plates sampling]. f_equal. unfold PL in EP. rewrite <- EP, Y4. reflexivity.
      * rewrite Hx. cbn [is_draw args_of fst]. rewrite (sample_parents _ _ _ _ _ _ _ Y1), param_tensors_draw. unfold ts. now rewrite (picked_sids w k env Hg args Hargs).
  - destruct Hl as [Hne Hlead]. cbn [args_of fst] in Hargs, HP.
    rewrite (lookups env args) by (rewrite Eenv; exact Hargs). cbn [bind].
    pose proof (picked_callable w k env Hg args Hargs) as HC. set (ts := picked env args) in *.
    destruct (call_leading veq anc_unwrap ts ev g fn (k - 1)) as [r [R1 [R2 [R3 [R4 [R5 [R6 R7]]]]]]].
    + unfold ts. destruct args; [congruence|discriminate].
    + exact HC.
    + unfold ts. rewrite (picked_events w k env Hg args Hargs) by lia. exact Hlead.
    + rewrite R1. cbn [bind]. exists r. split; [reflexivity|].
      pose proof (picked_plates w k env Hg args Hargs) as EQ. fold ts in EQ.
      assert (EP : splates r = PL k). { rewrite R2, (PL_eq k _ Hx). cbn [name_of fst]. unfold Q. cbn [args_of fst]. exact EQ. }
      constructor; auto.
      * rewrite R6. destruct args as [|a args']; [congruence|]. specialize (Hargs a (or_introl eq_refl)). lia.
      * now rewrite HEV.
      * intros j. rewrite HP, R5. unfold ts. rewrite (picked_sids w k env Hg args Hargs). tauto.
      * intros s e Hs He. assert (Hr : in_range s (all_plates ts)) by (rewrite <- R2, EP; exact Hs). rewrite HEV in He. cbn [event_of] in He.
        rewrite R7 by auto. rewrite (VAL_eq s (along pg w s) k _ Hx). cbn [outcome fst el].
        unfold evened. rewrite <- (picked_rank w k env Hg args Hargs ltac:(lia) s (along pg w s)). fold ts.
        destruct Hlead as [_ Hext]. apply Hext; auto.
        -- rewrite map_map. cbn [shape slice]. rewrite <- (evened_map ts). unfold ts. now rewrite (picked_events w k env Hg args Hargs) by lia.
        -- unfold ts. apply (picked_slice w k env Hg args Hargs s); [|lia]. intros a p Ha Hp. apply Hs. exact (arg_in_PL k _ a p Hx Ha Hp).
      * rewrite Hx. cbn [is_draw args_of fst]. rewrite R5. unfold ts. exact (picked_sids w k env Hg args Hargs).
Qed.

Lemma run_ok : forall w suffix pre env, prog = pre ++ suffix -> good w (length pre) env ->
  exists env', run veq anc_unwrap recip (drawn_in o prog w) (map fst suffix) env = Ok env' /\ good w (length prog) env'.
Proof.
  intros w. induction suffix as [|x suffix IH]; intros pre env E Hg.
  - exists env. split; [reflexivity|]. rewrite E, app_nil_r. exact Hg.
  - cbn [map run]. destruct (step_ok w (length pre) env x Hg) as [y [Y1 Y2]].
    { rewrite E, nth_error_app2 by lia. rewrite Nat.sub_diag. reflexivity. }
    rewrite Y1. cbn [bind]. apply (IH (pre ++ [x]) (env ++ [y])); [rewrite <- app_assoc; exact E|].
    destruct Hg as [L G]. split; [rewrite !app_length; simpl; lia|]. rewrite app_length. cbn [length]. intros i Hi.
    destruct (Nat.eq_dec i (length pre)) as [->|Hne].
    + rewrite app_nth2 by lia. rewrite L, Nat.sub_diag. exact Y2.
    + rewrite app_nth1 by lia. apply G. lia.
Qed.
(** The whole program runs. *)
Theorem runs : forall w, exists env, run veq anc_unwrap recip (drawn_in o prog w) (map fst prog) [] = Ok env /\ good w (length prog) env.
Proof. intros w. apply (run_ok w prog []); [reflexivity|]. split; [reflexivity|]. cbn. intros i Hi. lia. Qed.
End Static.
