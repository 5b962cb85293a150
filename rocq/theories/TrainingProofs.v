(** Annealing of temperatures and counting of iterations. *)
From Coq Require Import List Arith Bool Lia Reals Lra.
From Coq Require Import Relations.Relation_Operators.
From Verif Require Import Base Graph Training SpecGraph GraphProofs SpecTraining ListLemmas.
Import ListNotations.

Lemma fold_nodes : forall (stoch : nat -> bool) l acc, NoDup acc ->
  let r := fold_left (fun acc n => if stoch n && negb (mem n acc) then acc ++ [n] else acc) l acc in
  NoDup r /\ forall n, In n r <-> In n acc \/ (In n l /\ stoch n = true).
Proof.
  intros stoch. induction l as [|x l IH]; intros acc ND; simpl.
  - split; auto. intros n. intuition.
  - destruct (stoch x && negb (mem x acc)) eqn:E.
    + apply andb_prop in E as [E1 E2]. apply negb_true_iff in E2.
      destruct (IH (acc ++ [x])) as [D X].
      { apply NoDup_app_intro; auto. { repeat constructor. intros []. }
        intros y Hy [<-|[]]. unfold mem in E2. assert (existsb (Nat.eqb x) acc = true); [|congruence].
        apply existsb_exists. exists x. split; auto. apply Nat.eqb_refl. }
      split; auto. intros n. rewrite X, in_app_iff. simpl. intuition (subst; auto).
    + destruct (IH acc ND) as [D X]. split; auto. intros n. rewrite X. split; [intuition|].
      intros [H|[[<-|H] Hs]]; auto. left. rewrite Hs in E. simpl in E. apply negb_false_iff in E.
      unfold mem in E. apply existsb_exists in E as [y [Hy E]]. apply Nat.eqb_eq in E. now subst y.
Qed.

Lemma stochastic_nodes_spec : forall fuel h stoch costs acc l univ, closed_under (h_parents h) univ -> incl costs univ ->
  NoDup acc -> stochastic_nodes fuel h stoch costs acc = Some l ->
  NoDup l /\ forall n, In n l <-> In n acc \/ (stoch n = true /\ exists c, In c costs /\ reachable (h_parents h) false c n).
Proof.
  intros fuel h stoch. induction costs as [|c costs IH]; intros acc l univ Hcl Hi ND H; cbn [stochastic_nodes] in H.
  - injection H as <-. split; auto. intros n. split; auto. intros [H|[_ [c [[] _]]]]; auto.
  - unfold walk_parents in H. destruct (walk fuel (h_parents h) true false false false c) as [w|] eqn:W; [|discriminate].
    destruct (walk_spec (h_parents h) univ true false false c) as [w' [WD [WX [_ WU]]]]; auto.
    { apply Hi. left; auto. }
    apply WU in W. subst w'.
    destruct (fold_nodes stoch w acc ND) as [FD FX].
    apply (IH _ _ univ) in H; auto. 2: { intros x Hx. apply Hi. right; auto. }
    destruct H as [D X]. split; auto. intros n. rewrite X, FX, WX. split.
    + intros [[H|[H1 H2]]|[H1 [c' [H2 H3]]]]; auto.
      * right. split; auto. exists c. split; auto. left; auto.
      * right. split; auto. exists c'. split; auto. right; auto.
    + intros [H|[H1 [c' [[<-|H2] H3]]]]; auto. right. split; auto. eauto.
Qed.

Lemma stochastic_nodes_ends : forall h stoch costs acc univ, closed_under (h_parents h) univ -> incl costs univ ->
  exists enough l, forall fuel, enough <= fuel -> stochastic_nodes fuel h stoch costs acc = Some l.
Proof.
  intros h stoch. induction costs as [|c costs IH]; intros acc univ Hcl Hi; cbn [stochastic_nodes].
  - exists 0, acc. auto.
  - destruct (walk_spec (h_parents h) univ true false false c) as [w [_ [_ [[e1 W] _]]]]; auto.
    { apply Hi. left; auto. }
    destruct (IH (fold_left (fun acc n => if stoch n && negb (mem n acc) then acc ++ [n] else acc) w acc) univ) as [e2 [l L]]; auto.
    { intros x Hx. apply Hi. right; auto. }
    exists (e1 + e2), l. intros fuel Hf. unfold walk_parents. rewrite W by lia. apply L. lia.
Qed.

Lemma uses_cons : forall method m n l, uses method m (n :: l) =
  (match method n with Some k => if Nat.eqb k m then 1 else 0 | None => 0 end) + uses method m l.
Proof. intros. unfold uses. simpl. destruct (method n) as [k|]; [|reflexivity]. destruct (k =? m); reflexivity. Qed.

Lemma iter_shift : forall {A} (f : A -> A) n x, Nat.iter n f (f x) = f (Nat.iter n f x).
Proof. intros A f. induction n; intros x; simpl; congruence. Qed.

Lemma update_loop_spec : forall method nodes ms m,
  update_loop method nodes ms m = Nat.iter (uses method m nodes) update_parameters (ms m).
Proof.
  intros method. induction nodes as [|n nodes IH]; intros ms m; simpl; auto.
  rewrite IH, uses_cons. destruct (method n) as [k|]; [|reflexivity]. unfold set_at.
  rewrite (Nat.eqb_sym m k). destruct (k =? m) eqn:E; [|reflexivity]. apply Nat.eqb_eq in E. subst k. simpl. now rewrite iter_shift.
Qed.

(** What backward does to a method: one update per distinct node it sampled. *)
Lemma backward_updates : forall h stoch method costs univ ms, closed_under (h_parents h) univ -> incl costs univ ->
  exists l, sampled_nodes h stoch costs l /\
    exists enough ms', (forall fuel, enough <= fuel -> backward_methods fuel h stoch method costs true ms = Some ms') /\
      forall m, ms' m = Nat.iter (uses method m l) update_parameters (ms m).
Proof.
  intros h stoch method costs univ ms Hcl Hi.
  destruct (stochastic_nodes_ends h stoch costs [] univ Hcl Hi) as [enough [l L]].
  destruct (stochastic_nodes_spec enough h stoch costs [] l univ Hcl Hi (NoDup_nil _) (L enough (le_n _))) as [D X].
  exists l. split.
  - split; auto. intros n. rewrite X. simpl. intuition.
  - exists enough, (update_loop method l ms). split.
    + intros fuel Hf. unfold backward_methods. now rewrite L.
    + intros m. apply update_loop_spec.
Qed.

Lemma uses_unique : forall method m l l', NoDup l -> NoDup l' -> (forall n, In n l <-> In n l') -> uses method m l = uses method m l'.
Proof.
  intros method m l l' D D' X. unfold uses.
  assert (E : forall a b : list nat, NoDup a -> NoDup b -> incl a b -> length a <= length b) by (intros; now apply NoDup_incl_length).
  apply Nat.le_antisymm; apply E; try (now apply NoDup_filter); intros x Hx; apply filter_In in Hx as [Hx Hm]; apply filter_In; split; auto;
    now apply X.
Qed.

(** iterations *)
Lemma iterations_iter : forall n m, iterations (Nat.iter n update_parameters m) = n + iterations m.
Proof.
  induction n; intros m; simpl; auto. unfold update_parameters at 1, anneal. destruct (Rlt_dec _ _); simpl; now rewrite IHn.
Qed.

Local Open Scope R_scope.

Definition fine (m : mstate) : Prop := 0 <= annealing_rate m < 1 /\ 0 < temperature m.

Lemma update_step : forall m, fine m ->
  fine (update_parameters m) /\ annealing_rate (update_parameters m) = annealing_rate m /\
  min_temperature (update_parameters m) = min_temperature m /\ temperature (update_parameters m) <= temperature m /\
  (forall b, b <= temperature m -> b <= (1 - annealing_rate m) * min_temperature m -> b <= temperature (update_parameters m)).
Proof.
  intros m [[H0 H1] Ht]. unfold update_parameters, anneal, fine. simpl.
  destruct (Rlt_dec (min_temperature m) (temperature m)) as [L|L]; simpl.
  - split; [split; [lra|]|split; [reflexivity|split; [reflexivity|split]]].
    + apply Rmult_lt_0_compat; lra.
    + assert (annealing_rate m * temperature m >= 0) by (apply Rle_ge, Rmult_le_pos; lra). lra.
    + intros b Hb Hb'. apply Rle_trans with ((1 - annealing_rate m) * min_temperature m); auto.
      apply Rmult_le_compat_l; lra.
  - repeat split; auto; lra.
Qed.

Lemma iter_step : forall n m, fine m ->
  let m' := Nat.iter n update_parameters m in
  fine m' /\ annealing_rate m' = annealing_rate m /\ min_temperature m' = min_temperature m /\ temperature m' <= temperature m /\
  (forall b, b <= temperature m -> b <= (1 - annealing_rate m) * min_temperature m -> b <= temperature m').
Proof.
  induction n; intros m Hm; simpl.
  - repeat split; auto; try apply Hm; lra.
  - destruct (IHn m Hm) as [A [B [C [D E]]]]. destruct (update_step _ A) as [A' [B' [C' [D' E']]]].
    rewrite B', C', B, C. repeat split; auto; try apply A'; try lra.
    intros b Hb Hb'. apply E'; rewrite ?B, ?C; auto.
Qed.

Lemma backward_call_iter : forall before after, backward_call before after ->
  forall m, exists n, after m = Nat.iter n update_parameters (before m).
Proof.
  intros before after (fuel & h & stoch & method & costs & update & H) m. unfold backward_methods in H.
  destruct (stochastic_nodes fuel h stoch costs []) as [l|]; [|discriminate]. injection H as <-.
  destruct update; [|exists 0%nat; reflexivity]. eexists. apply update_loop_spec.
Qed.

Lemma annealing : forall before after m, backward_calls before after -> fine (before m) ->
  temperature (after m) <= temperature (before m) /\ 0 < temperature (after m) /\
  Rmin (temperature (before m)) ((1 - annealing_rate (before m)) * min_temperature (before m)) <= temperature (after m).
Proof.
  intros before after m H.
  assert (G : fine (before m) -> fine (after m) /\ temperature (after m) <= temperature (before m) /\
    (forall b, b <= temperature (before m) -> b <= (1 - annealing_rate (before m)) * min_temperature (before m) -> b <= temperature (after m))).
  { induction H as [|x y z Hxy Hyz IH].
    - intros F. repeat split; auto; try apply F; lra.
    - intros F. destruct (backward_call_iter _ _ Hxy m) as [n En].
      destruct (iter_step n (x m) F) as [A [B [C [D E]]]]. rewrite <- En in A, B, C, D, E.
      destruct (IH A) as [A' [D' E']]. repeat split; auto; try apply A'; try lra.
      intros b Hb Hb'. apply E'; auto. rewrite B, C. auto. }
  intros F. destruct (G F) as [A [B C]]. split; auto. split; [apply A|]. apply C; [apply Rmin_l|apply Rmin_r].
Qed.

(** While the temperature has not been at or below the minimum, it keeps falling geometrically. *)
Lemma annealing_exact : forall n m, fine m -> (forall i, (i < n)%nat -> min_temperature m < (1 - annealing_rate m) ^ i * temperature m) ->
  temperature (Nat.iter n update_parameters m) = (1 - annealing_rate m) ^ n * temperature m.
Proof.
  induction n; intros m F H; simpl; [ring|].
  destruct (iter_step n m F) as [A [B [C [D E]]]].
  assert (T : temperature (Nat.iter n update_parameters m) = (1 - annealing_rate m) ^ n * temperature m).
  { apply IHn; auto. }
  unfold update_parameters at 1, anneal. simpl. rewrite B, C, T.
  destruct (Rlt_dec _ _) as [L|L]; simpl; [ring|]. exfalso. apply L. apply H. lia.
Qed.

Lemma annealing_both : forall n m, 0 <= annealing_rate m < 1 -> 0 < temperature m ->
  ((forall i, (i < n)%nat -> min_temperature m < (1 - annealing_rate m) ^ i * temperature m) ->
   temperature (Nat.iter n update_parameters m) = (1 - annealing_rate m) ^ n * temperature m) /\
  (temperature m <= min_temperature m -> temperature (Nat.iter n update_parameters m) = temperature m).
Proof.
  intros n m H H0. split; [apply annealing_exact; split; auto|]. intros L. induction n; simpl; auto.
  destruct (iter_step n m (conj H H0)) as [A [B [C [D E]]]].
  unfold update_parameters at 1, anneal. simpl. rewrite C, IHn. destruct (Rlt_dec _ _); simpl; auto. lra.
Qed.
