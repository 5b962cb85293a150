(** Wrapped calls of any function on torch tensors. *)
From Coq Require Import String List Arith Bool Lia.
From Verif Require Import Base Torch Plates Wrap SpecTensor SpecWrap ListLemmas IndexLemmas WrapProofs PlateEqProofs AlignProofs CallProofs CallProofs2 OpProofs.
Import ListNotations.
Open Scope nat_scope.

Lemma filter_nil_in : forall {A} (p : A -> bool) l, (forall a, In a l -> p a = false) -> filter p l = [].
Proof. induction l as [|x l IH]; intros H; simpl; auto. rewrite H by (simpl; auto). apply IH. intros; apply H; simpl; auto. Qed.

Section CallN.
Context {V : Type}.
Variable veq : V -> V -> bool.
Variable anc_unwrap : plate V -> stensor V -> res (stensor V).
Notation plate := (plate V).
Notation stensor := (stensor V).
Notation N l := (map (@pname V) l).

Lemma unwrapped_list : forall R (ts : list stensor) l, Forall2 (unwrapped R) (map PT ts) l -> exists us, l = map (@PRaw V) us /\ Forall2 R ts us.
Proof.
  induction ts as [|t ts IH]; intros l H; inversion H as [|? x ? r H1 H2]; subst; [exists []; auto|].
  inversion H1; subst. destruct (IH _ H2) as [us [-> F]]. exists (u :: us). auto.
Qed.
Lemma raws_map : forall us : list (ten V), raws (map (@PRaw V) us) = Some us.
Proof. induction us as [|u us IH]; simpl; auto. now rewrite IH. Qed.
Lemma call_tensors_map : forall ts : list stensor, call_tensors (map PT ts) [] = ts.
Proof.
  intros ts. unfold call_tensors. rewrite app_nil_r. induction ts as [|t ts IH]; simpl; auto. now f_equal.
Qed.
Lemma no_distr_map : forall ts : list stensor, Forall no_distr (map (@PT V) ts).
Proof. induction ts; simpl; constructor; simpl; auto. Qed.

(** The function is called on the arguments laid out; what it returns, of the plate dimensions and any event shape, becomes
    a storch tensor. *)
Theorem call_fn_spec : forall fn (ts : list stensor) base o, ts <> [] -> callable veq ts ->
  o_unwrap o = true -> o_align o = true -> o_lbroadcast o = true -> o_flatten o = false -> o_dim o = None -> o_dims o = None ->
  exists us, Forall2 (laid_out (wide (all_plates ts)) (o_expand o) (max_event ts)) ts us /\
    (forall e, fn (map (@PRaw V) us) [] = Err e -> handle_deterministic veq anc_unwrap top_ctx fn (map PT ts) [] [] o base = Err e) /\
    forall t evc, fn (map (@PRaw V) us) [] = Ok (PRaw t) -> shape t = map pn (wide (all_plates ts)) ++ evc ->
    exists r, handle_deterministic veq anc_unwrap top_ctx fn (map PT ts) [] [] o base = Ok (PT r) /\
      splates r = all_plates ts /\ st r = t /\ s_event_shape r = evc /\ wf r /\ sparents r = map sid ts /\ s_stochastic r = false /\ sid r = base + 1.
Proof.
  intros fn ts base o Hne HC H1 H2 H3 H4 H5 H6.
  destruct (prepare_args_laid_out veq anc_unwrap (map PT ts) [] o ts) as [args' [kwargs' [E [F1 F2]]]]; auto.
  { symmetry. apply call_tensors_map. } { apply no_distr_map. }
  inversion F2; subst. destruct (unwrapped_list _ _ _ F1) as [us [-> F]]. exists us. split; [exact F|].
  unfold handle_deterministic. simpl c_stochastic. cbv iota. rewrite E. cbn [bind].
  destruct ts as [|t0 ts0]; [congruence|]. set (ts := t0 :: ts0) in *. split.
  - intros e He. rewrite He. reflexivity.
  - intros t evc Ht Hs. rewrite Ht. cbn [bind c_ignore top_ctx].
    assert (Ef : filter (fun p => negb (existsb (String.eqb (pname p)) [])) (all_plates ts) = all_plates ts) by apply filter_none.
    rewrite Ef. cbn [prepare_outputs]. rewrite H4. cbn [bind].
    destruct (all_plates_facts veq anc_unwrap ts HC) as [_ [D _]].
    destruct (mk_tensor_good (base + 1) t (map sid ts) (all_plates ts) false evc) as [r [R1 [R2 [R3 [R4 [R5 [R6 [R7 R8]]]]]]]]; auto.
    { apply (all_pos veq anc_unwrap); auto. }
    rewrite R1. cbn [bind]. exists r. repeat split; auto; apply R8.
Qed.
Theorem call_spec : forall f (ts : list stensor) base o, ts <> [] -> callable veq ts ->
  o_unwrap o = true -> o_align o = true -> o_lbroadcast o = true -> o_flatten o = false -> o_dim o = None -> o_dims o = None ->
  exists us, Forall2 (laid_out (wide (all_plates ts)) (o_expand o) (max_event ts)) ts us /\
    (forall e, f us = Err e -> handle_deterministic veq anc_unwrap top_ctx (torch_fnN f) (map PT ts) [] [] o base = Err e) /\
    forall t evc, f us = Ok t -> shape t = map pn (wide (all_plates ts)) ++ evc ->
    exists r, handle_deterministic veq anc_unwrap top_ctx (torch_fnN f) (map PT ts) [] [] o base = Ok (PT r) /\
      splates r = all_plates ts /\ st r = t /\ s_event_shape r = evc /\ wf r /\ sparents r = map sid ts /\ s_stochastic r = false /\ sid r = base + 1.
Proof.
  intros f ts base o Hne HC H1 H2 H3 H4 H5 H6.
  destruct (call_fn_spec (torch_fnN f) ts base o Hne HC H1 H2 H3 H4 H5 H6) as [us [F [K1 K2]]]. exists us. split; [exact F|]. split.
  - intros e He. apply K1. unfold torch_fnN. rewrite raws_map, He. reflexivity.
  - intros t evc Ht Hs. apply K2; auto. unfold torch_fnN. rewrite raws_map, Ht. reflexivity.
Qed.

(** Calls that pass the storch tensors on (unwrap=False). *)
Lemma prepare_args_keep : forall (ts : list stensor) o, callable veq ts -> o_unwrap o = false -> o_dim o = None -> o_dims o = None ->
  prepare_args veq anc_unwrap (map PT ts) [] o = Ok (map PT ts, [], ts, all_plates ts).
Proof.
  intros ts o [Hwf [HA Hpl]] H1 H2 H3. unfold prepare_args. rewrite !collect_spec with (veq := veq).
  assert (Ecol : col veq (tensors_in (PDict [])) (col veq (tensors_in (PList (map PT ts))) ([], [], 0)) = (ts, all_plates ts, max_event ts)).
  { rewrite <- col_app. simpl tensors_in.
    assert (X : (fix go (l : list (pyval V)) := match l with [] => [] | x :: r => tensors_in x ++ go r end) (map PT ts) = ts) by (clear; induction ts; simpl; congruence).
    rewrite ?app_nil_r.
    match goal with |- col _ ?x _ = _ => replace x with ts by (clear; induction ts; simpl; congruence) end.
    unfold col. destruct (folded_spec veq anc_unwrap ts [] (flat_map splates ts)) as [E _]; auto.
    - intros x [].
    - constructor.
    - intros t Ht x Hx. apply in_flat_map. exists t; auto.
    - rewrite E. reflexivity. }
  rewrite Ecol.
  destruct (folded_spec veq anc_unwrap ts [] (flat_map splates ts)) as [_ [I [D X]]]; auto.
  { intros x []. } { constructor. } { intros t Ht x Hx. apply in_flat_map. exists t; auto. }
  change (folded ts []) with (all_plates ts) in *.
  rewrite (filter_collected_ok veq (flat_map splates ts)) by auto. cbn [bind].
  rewrite H2. cbn [bind]. rewrite H3. cbn [bind]. rewrite H1. reflexivity.
Qed.

Lemma merge_plate_plain : forall (l : list plate) p, pcls p = PlainPlate -> merge_plate l p = Ok (if has l (pname p) then l else p :: l).
Proof.
  intros l p Hp. unfold merge_plate. rewrite Hp.
  match goal with |- context [fold_left ?f l _] => set (step := f) end.
  assert (G : forall m k b, fold_left step m (Ok (k, b)) = Ok (k ++ m, b || has m (pname p))).
  { induction m as [|q m IH]; intros k b; [simpl; now rewrite app_nil_r, orb_false_r|].
    change (fold_left step (q :: m) (Ok (k, b))) with (fold_left step m (step (Ok (k, b)) q)). unfold step at 2. cbn [bind].
    rewrite (String.eqb_sym (pname p)). unfold has. cbn [existsb]. fold (has m (pname p)).
    destruct (String.eqb (pname q) (pname p)); rewrite IH, <- app_assoc; cbn [app]; f_equal; f_equal; destruct b; auto. }
  rewrite G. cbn [bind app orb]. reflexivity.
Qed.
Lemma merge_plates_plain : forall (ps l : list plate), NoDup (N ps) -> (forall p, In p ps -> pcls p = PlainPlate) ->
  foldM (@merge_plate V) (rev ps) l = Ok (filter (fun p => negb (has l (pname p))) ps ++ l).
Proof.
  intros ps l. assert (FA : forall (f : list plate -> plate -> res (list plate)) x y b, foldM f (x ++ y) b = do b' <- foldM f x b; foldM f y b').
  { intros f x. induction x as [|a x IH]; intros y b; simpl; auto. destruct (f b a); simpl; auto. }
  induction ps as [|p ps IH]; intros ND HP; [reflexivity|]. simpl rev. rewrite FA. inversion ND; subst.
  rewrite IH by (auto; intros; apply HP; simpl; auto). cbn [bind foldM]. rewrite merge_plate_plain by (apply HP; simpl; auto). cbn [bind].
  assert (Hh : has (filter (fun q => negb (has l (pname q))) ps ++ l) (pname p) = has l (pname p)).
  { unfold has at 1. rewrite existsb_app. fold (has l (pname p)).
    replace (existsb (fun q : plate => String.eqb (pname q) (pname p)) (filter (fun q => negb (has l (pname q))) ps)) with false; auto.
    symmetry. apply not_true_iff_false. intros C. apply existsb_exists in C. destruct C as [q [Hq E]]. apply filter_In in Hq. apply String.eqb_eq in E.
    apply H1. rewrite <- E. apply in_map. tauto. }
  rewrite Hh. cbn [filter]. destruct (has l (pname p)); reflexivity.
Qed.

(** The output gets back, in front, the plates of the arguments it lacks. *)
Theorem keep_spec : forall fn (ts : list stensor) base o r, ts <> [] -> callable veq ts ->
  o_unwrap o = false -> o_dim o = None -> o_dims o = None ->
  fn (map PT ts) [] = Ok (PT r) -> s_stochastic r = false ->
  handle_deterministic veq anc_unwrap top_ctx fn (map PT ts) [] [] o base
  = do t <- mk_tensor (base + 1) (st r) (map sid ts) (filter (fun p => negb (has (splates r) (pname p))) (all_plates ts) ++ splates r) false; Ok (PT t).
Proof.
  intros fn ts base o r Hne HC H1 H2 H3 Hf Hs. unfold handle_deterministic. simpl c_stochastic. cbv iota. rewrite prepare_args_keep by auto. cbn [bind].
  destruct (all_plates_facts veq anc_unwrap ts HC) as [I [D _]].
  destruct ts as [|t0 ts0]; [congruence|]. set (ts := t0 :: ts0) in *. rewrite Hf. cbn [bind c_ignore top_ctx].
  assert (Ef : filter (fun p => negb (existsb (String.eqb (pname p)) [])) (all_plates ts) = all_plates ts) by apply filter_none.
  rewrite Ef. cbn [prepare_outputs]. rewrite Hs. rewrite merge_plates_plain; auto.
  - cbn [bind]. destruct (mk_tensor _ _ _ _ _); reflexivity.
  - intros p Hp. destruct HC as [_ [_ HP]]. apply HP. now apply I.
Qed.

Lemma mk_tensor_err : forall id (t : ten V) par (ps : list plate) stoch e, mk_tensor id t par ps stoch = Err e -> e = ValueError.
Proof.
  intros id t par ps stoch e. unfold mk_tensor.
  assert (G : forall (l : list plate) names b e, check_plates (shape t) l names b = Err e -> e = ValueError).
  { induction l as [|q l IH]; intros names b e0 H; simpl in H; [discriminate|].
    destruct (existsb (String.eqb (pname q)) names); [congruence|]. destruct (pn q =? 1); [eauto|].
    destruct (nth_error (shape t) b); [|congruence]. destruct (negb (n =? pn q)); [congruence|eauto]. }
  destruct (check_plates (shape t) ps [] 0) eqn:Ec; cbn [bind]; [discriminate|]. intros Ee. injection Ee as <-. eapply G; eauto.
Qed.

(** An output with all wide plates of the arguments and no other keeps its plates; one that lacks a wide plate and has no more dimensions
    than its plates is rejected. *)
Theorem keep_good : forall fn (ts : list stensor) base o r, ts <> [] -> callable veq ts ->
  o_unwrap o = false -> o_dim o = None -> o_dims o = None ->
  fn (map PT ts) [] = Ok (PT r) -> s_stochastic r = false -> wf r -> (forall p, In p (all_plates ts) -> In (pname p) (N (splates r))) ->
  exists r', handle_deterministic veq anc_unwrap top_ctx fn (map PT ts) [] [] o base = Ok (PT r') /\
    splates r' = splates r /\ st r' = st r /\ s_event_shape r' = s_event_shape r /\ wf r' /\ sparents r' = map sid ts /\ s_stochastic r' = false.
Proof.
  intros fn ts base o r Hne HC H1 H2 H3 Hf Hs Hw Hp. rewrite (keep_spec fn ts base o r) by auto.
  replace (filter (fun p => negb (has (splates r) (pname p))) (all_plates ts)) with (@nil plate).
  2:{ symmetry. apply filter_nil_in. intros p Hq. apply negb_false_iff, has_In. auto. }
  cbn [app]. destruct (mk_tensor_good (base + 1) (st r) (map sid ts) (splates r) false (s_event_shape r)) as [r' [R1 [R2 [R3 [R4 [R5 [R6 [R7 R8]]]]]]]].
  { apply Hw. } { apply Hw. } { apply Hw. }
  rewrite R1. cbn [bind]. exists r'. repeat split; auto; apply R8.
Qed.
Theorem keep_rejects : forall fn (ts : list stensor) base o r p, ts <> [] -> callable veq ts ->
  o_unwrap o = false -> o_dim o = None -> o_dims o = None ->
  fn (map PT ts) [] = Ok (PT r) -> s_stochastic r = false -> wf r -> s_event_shape r = [] ->
  In p (all_plates ts) -> 1 < pn p -> ~ In (pname p) (N (splates r)) ->
  handle_deterministic veq anc_unwrap top_ctx fn (map PT ts) [] [] o base = Err ValueError.
Proof.
  intros fn ts base o r p Hne HC H1 H2 H3 Hf Hs Hw Hev Hp Hn Hnot. rewrite (keep_spec fn ts base o r) by auto.
  set (np := filter (fun p => negb (has (splates r) (pname p))) (all_plates ts) ++ splates r).
  destruct (mk_tensor (base + 1) (st r) (map sid ts) np false) as [t|e] eqn:E; cbn [bind].
  - exfalso. assert (X : exists a, mk_tensor (base + 1) (st r) (map sid ts) np false = Ok a) by eauto. apply mk_tensor_iff in X. destruct X as [ND [ev X]].
    pose proof (wf_shape r Hw) as S. rewrite Hev, app_nil_r in S. apply (f_equal (@length nat)) in X. rewrite S, app_length, !map_length in X.
    rewrite nonone_wide in X. 
    2:{ intros q Hq. unfold np in Hq. apply in_app_or in Hq. destruct Hq as [Hq|Hq]; [|now apply Hw]. apply filter_In in Hq. now apply (all_pos veq anc_unwrap ts HC). }
    unfold np, wide in X. rewrite filter_app, app_length in X.
    assert (L : 0 < length (filter (fun p0 : plate => 1 <? pn p0) (filter (fun p0 => negb (has (splates r) (pname p0))) (all_plates ts)))).
    { match goal with |- 0 < length ?l => assert (Hin : In p l); [|destruct l; [destruct Hin|simpl; lia]] end.
      apply filter_In. split; [|now apply Nat.ltb_lt]. apply filter_In. split; auto. apply negb_true_iff. apply not_true_iff_false. intros C. apply has_In in C. auto. }
    lia.
  - f_equal. eapply mk_tensor_err; eauto.
Qed.
End CallN.
