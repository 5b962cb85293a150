(** Proofs about samples in the outputs of deterministic functions. *)
From Coq Require Import String List Arith Bool Lia.
From Verif Require Import Base Torch Plates Wrap Inference SpecTensor SpecWrap SpecLeak WrapProofs CallProofs CallProofs2 CallN.
Import ListNotations.
Open Scope nat_scope.
Open Scope list_scope.

Section LeakProofs.
Context {V : Type}.
Variable veq : V -> V -> bool.
Variable anc_unwrap : plate V -> stensor V -> res (stensor V).
Notation stensor := (stensor V).
Notation pyval := (pyval V).

Definition clean (ps : list nat) (x : stensor) : Prop := s_stochastic x = false /\ sparents x = ps.

Lemma outputs_clean : forall (o : pyval) parents plates base i u v j, prepare_outputs o parents plates base i u = Ok (v, j) ->
  (forall x, within x o -> s_stochastic x = false) /\ (forall x, within x v -> clean (map sid parents) x).
Proof.
  induction o using pyval_ind'; intros parents plates base i u v j; simpl; intros E; try discriminate.
  - injection E as <- <-. split; intros x Hx; inversion Hx.
  - destruct (s_stochastic a) eqn:Hs; [discriminate|]. destruct (foldM merge_plate (rev plates) (splates a)) as [np|]; [|discriminate]. cbn [bind] in E.
    destruct (mk_tensor _ _ _ _ _) as [t|] eqn:M; [|discriminate]. cbn [bind] in E. injection E as <- <-.
    destruct (mk_tensor_fields _ _ _ _ _ _ M) as (F1 & F2 & F3 & F4 & F5 & _). split; intros x Hx; inversion Hx; subst; [exact Hs|]. split; auto.
  - match type of E with bind ?b _ = _ => destruct b as [t'|]; [|discriminate] end. cbn [bind] in E.
    destruct (mk_tensor _ _ _ _ _) as [s|] eqn:M; [|discriminate]. cbn [bind] in E. injection E as <- <-.
    destruct (mk_tensor_fields _ _ _ _ _ _ M) as (F1 & F2 & F3 & F4 & F5 & _). split; intros x Hx; inversion Hx; subst. split; auto.
  - match type of E with bind (?f l i) _ = _ => remember (f l i) as R eqn:ER end. destruct R as [[l' k]|]; [|discriminate]. simpl in E. injection E as <- <-.
    assert (G : (forall y, In y l -> forall x, within x y -> s_stochastic x = false) /\ (forall y, In y l' -> forall x, within x y -> clean (map sid parents) x)).
    { revert i l' k ER. induction H as [|y r Hy Hr IH]; intros i l' k ER.
      - injection ER as -> ->. split; intros y [].
      - destruct (prepare_outputs y parents plates base i u) as [[y' i1]|] eqn:Ey; [|discriminate]. simpl in ER.
        match type of ER with _ = bind (?f r i1) _ => remember (f r i1) as R eqn:ER2 end. destruct R as [[r' k2]|]; [|discriminate]. simpl in ER. injection ER as -> ->.
        destruct (Hy _ _ _ _ _ _ _ Ey) as [A B]. destruct (IH _ _ _ ER2) as [A' B']. split; intros z [<-|Hz]; eauto. }
    destruct G as [A B]. split; intros x Hx; inversion Hx; subst; eauto.
  - match type of E with bind (?f l i) _ = _ => remember (f l i) as R eqn:ER end. destruct R as [[l' k]|]; [|discriminate]. simpl in E. injection E as <- <-.
    assert (G : (forall y, In y l -> forall x, within x y -> s_stochastic x = false) /\ (forall y, In y l' -> forall x, within x y -> clean (map sid parents) x)).
    { revert i l' k ER. induction H as [|y r Hy Hr IH]; intros i l' k ER.
      - injection ER as -> ->. split; intros y [].
      - destruct (prepare_outputs y parents plates base i u) as [[y' i1]|] eqn:Ey; [|discriminate]. simpl in ER.
        match type of ER with _ = bind (?f r i1) _ => remember (f r i1) as R eqn:ER2 end. destruct R as [[r' k2]|]; [|discriminate]. simpl in ER. injection ER as -> ->.
        destruct (Hy _ _ _ _ _ _ _ Ey) as [A B]. destruct (IH _ _ _ ER2) as [A' B']. split; intros z [<-|Hz]; eauto. }
    destruct G as [A B]. split; intros x Hx; inversion Hx; subst; eauto.
  - destruct l; [|discriminate]. injection E as <- <-. split; intros x Hx; inversion Hx; subst; contradiction.
  - destruct c; try discriminate.
    2:{ match type of E with bind ?x _ = _ => destruct x as [?|]; discriminate end. }
    match type of E with bind (?f l i) _ = _ => remember (f l i) as R eqn:ER end. destruct R as [[l' k]|]; [|discriminate]. simpl in E. injection E as <- <-.
    assert (G : (forall n y, In (n, y) l -> forall x, within x y -> s_stochastic x = false) /\ (forall n y, In (n, y) l' -> forall x, within x y -> clean (map sid parents) x)).
    { revert i l' k ER. induction H as [|[m y] r Hy Hr IH]; intros i l' k ER.
      - injection ER as -> ->. split; intros n y [].
      - destruct (prepare_outputs y parents plates base i u) as [[y' i1]|] eqn:Ey; [|discriminate]. simpl in ER.
        match type of ER with _ = bind (?f r i1) _ => remember (f r i1) as R eqn:ER2 end. destruct R as [[r' k2]|]; [|discriminate]. simpl in ER. injection ER as -> ->.
        destruct (Hy _ _ _ _ _ _ _ Ey) as [A B]. destruct (IH _ _ _ ER2) as [A' B']. split; intros n z [Ez|Hz]; try (injection Ez as <- <-); eauto. }
    destruct G as [A B]. split; intros x Hx; inversion Hx; subst; eauto.
Qed.

Lemma call_runs : forall c fn args kwargs red o base v, call_tensors args kwargs <> [] -> c_ignore c = false ->
  handle_deterministic veq anc_unwrap c fn args kwargs red o base = Ok v ->
  exists args' kwargs' plates out j, prepare_args veq anc_unwrap args kwargs o = Ok (args', kwargs', call_tensors args kwargs, plates) /\ fn args' kwargs' = Ok out /\
    prepare_outputs out (call_tensors args kwargs) (filter (fun p => negb (existsb (String.eqb (pname p)) red)) plates) base 1 (o_flatten o) = Ok (v, j).
Proof.
  intros c fn args kwargs red o base v Hne Hi H. unfold handle_deterministic in H. destruct (c_stochastic c); [discriminate|].
  destruct (prepare_args veq anc_unwrap args kwargs o) as [[[[a k] ps] pl]|] eqn:E; [|discriminate]. cbn [bind] in H.
  pose proof (prepare_args_parents veq anc_unwrap _ _ _ _ _ _ _ E). subst ps. destruct (call_tensors args kwargs) as [|t ts] eqn:Et; [congruence|].
  destruct (fn a k) as [out|] eqn:Ef; [|discriminate]. cbn [bind] in H. rewrite Hi in H.
  match type of H with bind ?b _ = _ => destruct b as [[v' j]|] eqn:Ep; [|discriminate] end. cbn [bind] in H. injection H as <-. eauto 10.
Qed.

Theorem results_clean : forall c fn args kwargs red o base v, call_tensors args kwargs <> [] -> c_ignore c = false ->
  handle_deterministic veq anc_unwrap c fn args kwargs red o base = Ok v ->
  forall x, within x v -> s_stochastic x = false /\ sparents x = map sid (call_tensors args kwargs).
Proof.
  intros c fn args kwargs red o base v Hne Hi H x Hx. destruct (call_runs _ _ _ _ _ _ _ _ Hne Hi H) as (a & k & pl & out & j & _ & _ & Ho).
  exact (proj2 (outputs_clean _ _ _ _ _ _ _ _ Ho) x Hx).
Qed.

Theorem samples_rejected : forall c fn args kwargs red o base, call_tensors args kwargs <> [] -> c_ignore c = false ->
  (forall a k out, fn a k = Ok out -> exists x, within x out /\ s_stochastic x = true) ->
  exists e, handle_deterministic veq anc_unwrap c fn args kwargs red o base = Err e.
Proof.
  intros c fn args kwargs red o base Hne Hi Hf. destruct (handle_deterministic _ _ _ _ _ _ _ _ _) as [v|e] eqn:H; [|eauto]. exfalso.
  destruct (call_runs _ _ _ _ _ _ _ _ Hne Hi H) as (a & k & pl & out & j & _ & Ef & Ho). destruct (Hf _ _ _ Ef) as (x & Hx & Hs).
  rewrite (proj1 (outputs_clean _ _ _ _ _ _ _ _ Ho) x Hx) in Hs. discriminate.
Qed.

Theorem sample_itself : forall fn (ts : list stensor) base o r, ts <> [] -> callable veq ts -> o_unwrap o = false -> o_dim o = None -> o_dims o = None ->
  fn (map PT ts) [] = Ok (PT r) -> s_stochastic r = true ->
  handle_deterministic veq anc_unwrap top_ctx fn (map PT ts) [] [] o base = Err RuntimeError.
Proof.
  intros fn ts base o r Hne HC H1 H2 H3 Hf Hs. unfold handle_deterministic. simpl c_stochastic. cbv iota. rewrite prepare_args_keep by auto. cbn [bind].
  destruct ts as [|t0 ts0]; [congruence|]. set (ts := t0 :: ts0) in *. rewrite Hf. cbn [bind c_ignore top_ctx prepare_outputs]. now rewrite Hs.
Qed.

Variable recip : nat -> V.
Lemma independent_stochastic : forall id (t : ten V) ps pl name w l r, independent_tensor recip id t ps pl name w = (l, Ok r) -> s_stochastic r = true.
Proof.
  intros id t ps pl name w l r. unfold independent_tensor. destruct (shape t); [discriminate|]. destruct (existsb _ _); [discriminate|]. intros H. injection H as _ M.
  now destruct (mk_tensor_fields _ _ _ _ _ _ M) as (F1 & F2 & F3 & F4 & F5 & _).
Qed.
Theorem made_independent : forall (c : wctx) (r : stensor) dim name w id, (exists t, denote_independent_raw recip c t dim name w id = Ok r) \/
  (exists a, snd (denote_independent recip c a dim name w id) = Ok r) \/ (exists l, gather_samples recip c l name w id = Ok r) -> s_stochastic r = true.
Proof.
  intros c r dim name w id [[t H]|[[a H]|[l H]]].
  - unfold denote_independent_raw in H. destruct (negb (outside c)); [discriminate|]. destruct (to_front dim t) as [u|]; [|discriminate]. cbn [bind] in H.
    destruct (independent_tensor _ _ _ _ _ _ _) as [l x] eqn:E. cbn in H. subst x. eapply independent_stochastic; eauto.
  - unfold denote_independent in H. destruct (negb (outside c)); [discriminate|]. destruct (to_front dim (st a)) as [u|]; [|discriminate].
    destruct (independent_tensor _ _ _ _ _ _ _) as [l x] eqn:E. cbn in H. subst x. eapply independent_stochastic; eauto.
  - unfold gather_samples in H. destruct (negb (outside c)); [discriminate|]. destruct (cat_samples _) as [u|]; [|discriminate]. cbn [bind] in H. destruct l as [|a l]; [discriminate|].
    destruct (independent_tensor _ _ _ _ _ _ _) as [l' x] eqn:E. cbn in H. subst x. eapply independent_stochastic; eauto.
Qed.
End LeakProofs.
