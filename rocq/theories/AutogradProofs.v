From Coq Require Import String List Arith Bool Lia.
From Coq Require Import Relations.Relation_Operators.
From Verif Require Import Base ListLemmas Graph GraphProofs Autograd SpecAutograd.
Import ListNotations.

Definition somes (l : list (option nat)) : list nat := flat_map (fun o => match o with Some x => [x] | None => [] end) l.

Lemma in_somes x l : In x (somes l) <-> In (Some x) l.
Proof.
  unfold somes. rewrite in_flat_map. split.
  - intros ([y|] & H & I); cbn in I; [|contradiction]. destruct I as [->|[]]. auto.
  - intros H. exists (Some x). split; auto. now left.
Qed.

Section Walk.
Variable g : autograd.
Variable univ : list nat.
Hypothesis ND : NoDup univ.
Hypothesis FIN : finite_graph g univ.
Variable start : nat.
Notation reach := (clos_refl_trans_1n nat (feeds g)).

Lemma feeds_step a b c : reach a b -> feeds g b c -> reach a c.
Proof. intros H F. induction H; eapply rt1n_trans; eauto. apply rt1n_refl. Qed.

Lemma walk_backward_spec fuel : forall q out,
  length q + weight_of (fun v => length (next_functions g v)) univ out < fuel ->
  (forall x, In (Some x) q -> In x univ) -> NoDup out ->
  (forall x, In x out -> reach start x) -> (forall x, In (Some x) q -> reach start x) ->
  (forall v w, In v out -> feeds g v w -> In w out \/ In (Some w) q) ->
  In start out \/ In (Some start) q ->
  exists l, walk_backward fuel g q out = Some l /\ (forall x, In x l <-> reach start x).
Proof.
  induction fuel as [|k IH]; intros q out F U NDo RO RQ C S0; [lia|].
  cbn [walk_backward]. destruct q as [|[n|] q].
  - exists (rev out). split; auto. intros x. rewrite <- in_rev. split; auto.
    destruct S0 as [S0|[]]. intros R. clear -C S0 R. induction R as [|a b c E R IHR]; auto. apply IHR.
    destruct (C a b S0 E) as [|[]]; auto.
  - destruct (mem n out) eqn:M.
    + apply mem_In in M. apply IH; auto.
      * cbn in F. lia.
      * intros; apply U; now right.
      * intros; apply RQ; now right.
      * intros v w Hv E. destruct (C v w Hv E) as [|[[= <-]|]]; auto.
      * destruct S0 as [|[[= <-]|]]; auto.
    + apply mem_notIn in M. assert (Un : In n univ) by (apply U; now left).
      assert (Rn : reach start n) by (apply RQ; now left).
      apply IH.
      * rewrite app_length. cbn in F. rewrite (weight_cons _ univ out n) in F; auto. lia.
      * intros x H. apply in_app_iff in H as [H|H]; [apply U; now right|]. eapply FIN; eauto.
      * now constructor.
      * intros x [<-|H]; auto.
      * intros x H. apply in_app_iff in H as [H|H]; [apply RQ; now right|]. eapply feeds_step; eauto.
      * intros v w [<-|Hv] E; [right; apply in_app_iff; auto|].
        destruct (C v w Hv E) as [|[[= <-]|]]; [left; now right|left; now left|right; apply in_app_iff; auto].
      * destruct S0 as [|[[= <-]|]]; [left; now right|left; now left|right; apply in_app_iff; auto].
  - apply IH; auto.
    + cbn in F. lia.
    + intros; apply U; now right.
    + intros; apply RQ; now right.
    + intros v w Hv E. destruct (C v w Hv E) as [|[|]]; auto. discriminate.
    + destruct S0 as [|[|]]; auto. discriminate.
Qed.
End Walk.

Lemma hits_belongs g p i : hits g p i = true <-> belongs g p i.
Proof.
  unfold hits, belongs. destruct (variable g p) as [v|].
  - destruct (Nat.eqb_spec v (t_id i)) as [->|].
    + split; auto.
    + destruct (t_grad_fn i) as [f|]; [|split; [discriminate|intros [[= ?]|?]; congruence]].
      rewrite Nat.eqb_eq. split; [intros ->; auto|]. intros [[= ?]|[= ->]]; congruence.
  - destruct (t_grad_fn i) as [f|]; [|split; [discriminate|intros [?|?]; congruence]].
    rewrite Nat.eqb_eq. split; [intros ->; auto|]. intros [?|[= ->]]; congruence.
Qed.

Lemma first_hit_some g p ts j i : first_hit g p ts = Some (j, i) ->
  exists a t b, ts = a ++ (i, t) :: b /\ length a = j /\ hits g p t = true.
Proof.
  revert j. induction ts as [|[k t] ts IH]; intros j; cbn; [discriminate|].
  destruct (hits g p t) eqn:H.
  - intros [= <- <-]. exists [], t, ts. auto.
  - destruct (first_hit g p ts) as [[j' i']|] eqn:E; [|discriminate]. cbn. intros [= <- <-].
    destruct (IH j' eq_refl) as (a & t' & b & -> & <- & X). exists ((k, t) :: a), t', b. auto.
Qed.

Lemma first_hit_none g p ts : first_hit g p ts = None -> forall i t, In (i, t) ts -> hits g p t = false.
Proof.
  induction ts as [|[k t] ts IH]; cbn; [intros _ ? ? []|]. destruct (hits g p t) eqn:H; [discriminate|].
  destruct (first_hit g p ts); [discriminate|]. intros _ i t' [[= <- <-]|I]; auto. eapply IH; eauto.
Qed.

Lemma remove_at_mid {A} (a : list A) x b : remove_at (length a) (a ++ x :: b) = a ++ b.
Proof.
  unfold remove_at. rewrite firstn_app, firstn_all, Nat.sub_diag. cbn [firstn]. rewrite app_nil_r. f_equal.
  induction a; cbn; auto.
Qed.

Lemma nth_upd i j (l : list bool) : i < length l -> nth j (upd i true l) false = if j =? i then true else nth j l false.
Proof.
  revert i j. induction l as [|b l IH]; intros [|i] [|j] H; cbn in *; try lia; auto. apply IH. lia.
Qed.

Lemma upd_len {A} i (x : A) l : length (upd i x l) = length l.
Proof. revert i. induction l; intros [|i]; cbn; auto. Qed.

Lemma all_true_nth l j : forallb (fun b => b) l = true -> j < length l -> nth j l false = true.
Proof.
  intros H. rewrite forallb_forall in H. intros L. apply H. now apply nth_In.
Qed.

Section Search.
Variable g : autograd.
Variable inputs : list tref.
(** No autograd function belongs to two inputs. *)
Hypothesis DIST : forall p i j t u, nth_error inputs i = Some t -> nth_error inputs j = Some u ->
  belongs g p t -> belongs g p u -> i = j.

Lemma search_spec ps : forall ts has,
  NoDup (map fst ts) -> length has = length inputs ->
  (forall i t, In (i, t) ts -> nth_error inputs i = Some t) ->
  (forall i t, nth_error inputs i = Some t -> nth i has false = true \/ In (i, t) ts) ->
  (forall i t, In (i, t) ts -> nth i has false = false) ->
  length (search g ps ts has) = length inputs /\
  forall i t, nth_error inputs i = Some t ->
    (nth i (search g ps ts has) false = true <->
     nth i has false = true \/ (i <> 0 /\ exists p, In p ps /\ belongs g p t)).
Proof.
  induction ps as [|p ps IH]; intros ts has N L A B C; cbn [search].
  - split; auto. intros i t H. split; auto. intros [H0|(_ & p & [] & _)]; auto.
  - destruct (first_hit g p ts) as [[j [|i]]|] eqn:E.
    + (* only input 0 is hit *)
      destruct (IH ts has N L A B C) as [I1 I2]. split; auto. intros i t H. rewrite (I2 i t H).
      apply first_hit_some in E as (a & t0 & b & -> & _ & X). apply hits_belongs in X.
      assert (H0 : nth_error inputs 0 = Some t0) by (apply A; apply in_app_iff; right; now left).
      split; intros [H1|(H1 & q & Q & Y)]; auto; right; split; auto.
      * exists q. split; auto. now right.
      * exists q. destruct Q as [<-|Q]; auto. exfalso. apply H1. eapply DIST; eauto.
    + apply first_hit_some in E as (a & t0 & b & -> & <- & X). apply hits_belongs in X.
      assert (H0 : nth_error inputs (S i) = Some t0) by (apply A; apply in_app_iff; right; now left).
      assert (Li : S i < length has) by (rewrite L; apply nth_error_Some; congruence).
      assert (MAIN : forall k t, nth_error inputs k = Some t -> nth k (upd (S i) true has) false = true ->
                nth k has false = true \/ (k <> 0 /\ exists q, In q (p :: ps) /\ belongs g q t)).
      { intros k t H. rewrite nth_upd by auto. destruct (Nat.eqb_spec k (S i)) as [->|]; auto. intros _.
        right. split; [lia|]. exists p. split; [now left|]. congruence. }
      destruct (forallb (fun b => b) (upd (S i) true has)) eqn:ALL.
      * rewrite upd_len. split; auto. intros k t H. split; [now apply MAIN|]. intros _.
        apply all_true_nth; auto. rewrite upd_len, L. apply nth_error_Some. congruence.
      * rewrite remove_at_mid.
        assert (Nab : NoDup (map fst (a ++ b)) /\ ~ In (S i) (map fst (a ++ b))).
        { rewrite map_app in *. cbn [map fst] in N. apply NoDup_remove in N. auto. }
        destruct Nab as [Nab Nin].
        destruct (IH (a ++ b) (upd (S i) true has)) as [I1 I2]; auto.
        { now rewrite upd_len. }
        { intros k t H. apply A. apply in_app_iff in H. apply in_app_iff. cbn. tauto. }
        { intros k t H. rewrite nth_upd by auto. destruct (Nat.eqb_spec k (S i)) as [e|ne]; auto.
          destruct (B k t H) as [|I]; auto. right. apply in_app_iff in I as [I|[I|I]]; [apply in_app_iff; auto|injection I; congruence|apply in_app_iff; auto]. }
        { intros k t H. rewrite nth_upd by auto. destruct (Nat.eqb_spec k (S i)) as [e|ne].
          - exfalso. apply Nin. apply in_map_iff. exists (k, t). auto.
          - apply (C k t). apply in_app_iff in H. apply in_app_iff. cbn. tauto. }
        split; auto. intros k t H. rewrite (I2 k t H). split.
        { intros [H1|(H1 & q & Q & Y)]; [now apply MAIN|]. right. split; auto. exists q. split; auto. now right. }
        { intros [H1|(H1 & q & [<-|Q] & Y)].
          - left. rewrite nth_upd by auto. destruct (k =? S i); auto.
          - left. rewrite nth_upd by auto. assert (K : k = S i) by (eapply DIST; eauto). rewrite K. now rewrite Nat.eqb_refl.
          - right. split; eauto. }
    + pose proof (first_hit_none _ _ _ E) as X.
      destruct (IH ts has N L A B C) as [I1 I2]. split; auto. intros i t H. rewrite (I2 i t H).
      split; intros [H1|(H1 & q & Q & Y)]; auto.
      * right. split; auto. exists q. split; auto. now right.
      * destruct Q as [<-|Q]; [|right; eauto]. left. destruct (B i t H) as [|I]; auto.
        apply X in I. apply hits_belongs in Y. congruence.
Qed.
End Search.

Lemma combine_seq_in {A} (l : list A) i t : In (i, t) (combine (seq 0 (length l)) l) <-> nth_error l i = Some t.
Proof.
  assert (G : forall (l : list A) k, In (i, t) (combine (seq k (length l)) l) <-> k <= i /\ nth_error l (i - k) = Some t).
  { clear. induction l as [|x l IH]; intros k; cbn.
    - split; [intros []|]. intros [_ H]. now destruct (i - k).
    - rewrite IH. split.
      + intros [[= <- <-]|[H1 H2]]; [rewrite Nat.sub_diag; auto|]. split; [lia|].
        replace (i - k) with (S (i - S k)) by lia. auto.
      + intros [H1 H2]. destruct (Nat.eq_dec i k) as [->|ne]; [rewrite Nat.sub_diag in H2; cbn in H2; left; congruence|].
        right. split; [lia|]. replace (i - k) with (S (i - S k)) in H2 by lia. auto. }
  rewrite G, Nat.sub_0_r. split; [tauto|split; [lia|auto]].
Qed.

Lemma combine_seq_fst {A} (l : list A) k : map fst (combine (seq k (length l)) l) = seq k (length l).
Proof. revert k. induction l; intros k; cbn; [auto|now rewrite IHl]. Qed.

Lemma NoDup_map_filter {A B} (f : A -> B) (p : A -> bool) l : NoDup (map f l) -> NoDup (map f (filter p l)).
Proof.
  induction l as [|x l IH]; cbn; intros N; auto. inversion N; subst. destruct (p x); cbn; auto.
  constructor; auto. intros H. apply H1. apply in_map_iff in H as (y & E & I). apply filter_In in I as [I _].
  apply in_map_iff. eauto.
Qed.

Lemma to_search_spec output inputs :
  NoDup (map fst (to_search output inputs)) /\
  forall i t, In (i, t) (to_search output inputs) <-> nth_error inputs i = Some t /\ t_id output <> t_id t.
Proof.
  unfold to_search. split.
  - apply NoDup_map_filter. rewrite combine_seq_fst. apply seq_NoDup.
  - intros i t. rewrite filter_In, combine_seq_in. cbn. rewrite negb_true_iff, Nat.eqb_neq. reflexivity.
Qed.

Lemma same_as_nth output inputs i t : nth_error inputs i = Some t ->
  nth i (same_as output inputs) false = (t_id output =? t_id t).
Proof.
  intros H. unfold same_as. apply nth_error_nth. rewrite nth_error_map, H. reflexivity.
Qed.

Lemma walk_backward_more fuel : forall g q out l m, walk_backward fuel g q out = Some l -> fuel <= m ->
  walk_backward m g q out = Some l.
Proof.
  induction fuel as [|k IH]; intros g q out l m E H; [discriminate|]. destruct m as [|m]; [lia|].
  cbn [walk_backward] in *. destruct q as [|[n|] q]; auto.
  - destruct (mem n out); apply IH with (m := m) in E; auto; lia.
  - apply IH with (m := m) in E; auto; lia.
Qed.

Lemma backwards_path_spec g univ output inputs f :
  finite_graph g univ -> t_grad_fn output = Some f -> In f univ ->
  (exists t, In t inputs /\ t_id output <> t_id t) ->
  (forall p i j t u, nth_error inputs i = Some t -> nth_error inputs j = Some u ->
     belongs g p t -> belongs g p u -> i = j) ->
  exists bs, (exists enough, forall fuel, enough <= fuel -> has_backwards_path fuel g output inputs = Some (Paths bs)) /\
    length bs = length inputs /\
    forall i t, nth_error inputs i = Some t ->
      (nth i bs false = true <-> t_id output = t_id t \/ (i <> 0 /\ depends g output t)).
Proof.
  intros FIN GF HF (t0 & T0 & NE) DIST.
  assert (FIN' : finite_graph g (nodup Nat.eq_dec univ)).
  { intros p q Hp E. apply nodup_In in Hp. apply nodup_In. eauto. }
  destruct (walk_backward_spec g _ (NoDup_nodup Nat.eq_dec univ) FIN' f _ [Some f] [] (Nat.lt_succ_diag_r _)) as (l & W & R).
  { intros x [[= <-]|[]]. now apply nodup_In. }
  { constructor. }
  { intros x []. }
  { intros x [[= <-]|[]]. apply rt1n_refl. }
  { intros v w []. }
  { right. now left. }
  destruct (to_search_spec output inputs) as [N TS].
  destruct (search_spec g inputs DIST l (to_search output inputs) (same_as output inputs)) as [S1 S2]; auto.
  { unfold same_as. apply map_length. }
  { intros i t I. now apply TS in I. }
  { intros i t H. rewrite (same_as_nth _ _ _ _ H). destruct (Nat.eqb_spec (t_id output) (t_id t)); auto. right. now apply TS. }
  { intros i t I. apply TS in I as [I1 I2]. rewrite (same_as_nth _ _ _ _ I1). now apply Nat.eqb_neq. }
  exists (search g l (to_search output inputs) (same_as output inputs)). split; [|split; auto].
  - eexists. intros fuel F. unfold has_backwards_path. rewrite GF.
    assert (to_search output inputs <> []).
    { apply In_nth_error in T0 as (i & T0). assert (I : In (i, t0) (to_search output inputs)) by (now apply TS).
      intros E. rewrite E in I. destruct I. }
    destruct (to_search output inputs) as [|e ts]; [congruence|].
    rewrite (walk_backward_more _ _ _ _ _ fuel W F). reflexivity.
  - intros i t H. rewrite (S2 i t H), (same_as_nth _ _ _ _ H), Nat.eqb_eq. unfold depends.
    split; (intros [E|(Z & X)]; [auto|right; split; auto]).
    + destruct X as (p & P & Y). exists f, p. split; auto. split; auto. now apply R.
    + destruct X as (f' & p & P & Y & Z'). exists p. split; auto. apply R. congruence.
Qed.

Lemma first_input_missed :
  let g := mkAutograd (fun p => match p with 0 => [Some 1; Some 2] | _ => [] end)
                      (fun p => match p with 1 => Some 11 | 2 => Some 12 | _ => None end) in
  let out := mkT 10 (Some 0) in let a := mkT 11 None in let b := mkT 12 None in
  depends g out a /\ (forall fuel, 4 <= fuel -> has_backwards_path fuel g out [a; b] = Some (Paths [false; true])).
Proof.
  cbv zeta. split.
  - exists 0, 1. split; auto. split; [|now left]. eapply rt1n_trans; [|apply rt1n_refl]. now left.
  - intros fuel F. do 4 (destruct fuel as [|fuel]; [lia|]). reflexivity.
Qed.

Lemma sole_parameter_raises fuel g f i : has_backwards_path_stochastic fuel g [mkT i (Some f)] [mkT i (Some f)] = Err TypeError.
Proof.
  unfold has_backwards_path_stochastic, has_backwards_path, to_search. cbn. now rewrite Nat.eqb_refl.
Qed.

Lemma no_gradient_spec fuel g output inputs : t_grad_fn output = None ->
  has_backwards_path fuel g output inputs = Some (Paths (repeat false (length inputs))).
Proof.
  intros H. unfold has_backwards_path. rewrite H. do 2 f_equal. induction inputs; simpl; congruence.
Qed.

Lemma leaf_parameter_missed fuel g i r : has_backwards_path_stochastic fuel g [mkT i None] (mkT i None :: r) = Ok (repeat false (S (length r))).
Proof.
  unfold has_backwards_path_stochastic. cbn [foldM]. rewrite no_gradient_spec by reflexivity. cbn [bind]. f_equal.
  cbn [map length repeat combine fst snd orb]. f_equal. induction r; simpl; [reflexivity|]. now f_equal.
Qed.

Lemma or_nth : forall a b i, length a = length b -> nth i (map (fun ab : bool * bool => fst ab || snd ab) (combine a b)) false = nth i a false || nth i b false.
Proof.
  induction a as [|x a IH]; intros [|y b] i H; try discriminate; destruct i; simpl; try reflexivity. apply IH. now injection H.
Qed.

(** What is found for each parameter, joined. *)
Lemma stochastic_spec g univ inputs : finite_graph g univ ->
  (forall p i j t u, nth_error inputs i = Some t -> nth_error inputs j = Some u -> belongs g p t -> belongs g p u -> i = j) ->
  forall params,
  (forall p f, In p params -> t_grad_fn p = Some f -> In f univ /\ exists t, In t inputs /\ t_id p <> t_id t) ->
  exists bs, (exists enough, forall fuel, enough <= fuel -> has_backwards_path_stochastic fuel g params inputs = Ok bs) /\
    length bs = length inputs /\
    forall i t, nth_error inputs i = Some t ->
      (nth i bs false = true <-> exists p, In p params /\ t_grad_fn p <> None /\ (t_id p = t_id t \/ (i <> 0 /\ depends g p t))).
Proof.
  intros FG U params.
  assert (G : forall params acc, length acc = length inputs ->
    (forall p f, In p params -> t_grad_fn p = Some f -> In f univ /\ exists t, In t inputs /\ t_id p <> t_id t) ->
    exists bs, (exists enough, forall fuel, enough <= fuel -> foldM (fun acc param =>
           match has_backwards_path fuel g param inputs with
           | None => Err (UserExn 0)
           | Some NoList => Err TypeError
           | Some (Paths l) => Ok (map (fun ab => fst ab || snd ab) (combine acc l))
           end) params acc = Ok bs) /\ length bs = length inputs /\
    forall i t, nth_error inputs i = Some t ->
      (nth i bs false = true <-> nth i acc false = true \/ exists p, In p params /\ t_grad_fn p <> None /\ (t_id p = t_id t \/ (i <> 0 /\ depends g p t)))).
  { clear params. induction params as [|p params IH]; intros acc L H.
    - exists acc. split; [exists 0; reflexivity|split; [exact L|]]. intros i t _. split; [now left|]. intros [?|[p [[] _]]]; assumption.
    - assert (B : exists l, (exists enough, forall fuel, enough <= fuel -> has_backwards_path fuel g p inputs = Some (Paths l)) /\ length l = length inputs /\
        forall i t, nth_error inputs i = Some t -> (nth i l false = true <-> t_grad_fn p <> None /\ (t_id p = t_id t \/ (i <> 0 /\ depends g p t)))).
      { destruct (t_grad_fn p) as [f|] eqn:Ef.
        - destruct (H p f (or_introl eq_refl) Ef) as [Hf Ht]. destruct (backwards_path_spec g univ p inputs f FG Ef Hf Ht U) as [l [E1 [E2 E3]]].
          exists l. split; [exact E1|split; [exact E2|]]. intros i t Hi. rewrite (E3 i t Hi). split; [intros X; split; [discriminate|exact X]|tauto].
        - exists (repeat false (length inputs)). split; [exists 0; intros; now apply no_gradient_spec|split; [apply repeat_length|]].
          intros i t _. split; [|tauto]. intros X. exfalso. revert X. generalize (length inputs). intros n. revert i. induction n; destruct i; simpl; intros; try discriminate. eauto. }
      destruct B as [l [[N1 E1] [E2 E3]]].
      destruct (IH (map (fun ab => fst ab || snd ab) (combine acc l))) as [bs [[N2 F1] [F2 F3]]].
      + rewrite map_length, combine_length, L, E2. apply Nat.min_id.
      + intros q f Hq. apply H. now right.
      + exists bs. split; [|split; [exact F2|]].
        * exists (Nat.max N1 N2). intros fuel Hf. cbn [foldM]. rewrite E1 by lia. cbn [bind]. apply F1. lia.
        * intros i t Hi. rewrite (F3 i t Hi), or_nth by congruence. rewrite orb_true_iff, (E3 i t Hi). split.
          -- intros [[X|X]|[q [Q X]]]; [now left|right; exists p; split; [now left|exact X]|right; exists q; split; [now right|exact X]].
          -- intros [X|[q [[<-|Q] X]]]; [left; now left|left; now right|right; exists q; now split]. }
  intros H. unfold has_backwards_path_stochastic.
  destruct (G params (map (fun _ => false) inputs) (map_length _ _) H) as [bs [E1 [E2 E3]]]. exists bs. split; [exact E1|split; [exact E2|]].
  intros i t Hi. rewrite (E3 i t Hi). split; [|tauto]. intros [X|X]; [exfalso|exact X]. revert X. clear. revert i.
  induction inputs as [|x l IH]; destruct i; simpl; intros; try discriminate. eauto.
Qed.
