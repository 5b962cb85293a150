(** Proofs about storch.grad. *)
From Coq Require Import String List Arith Bool ZArith Lia.
From Verif Require Import Base Torch Plates Wrap TensorFns Grad ListLemmas SpecTensor SpecWrap SpecGrad WrapProofs AlignProofs CallProofs.
Import ListNotations.
Open Scope nat_scope.

Section GradProofs.
Context {V : Type}.
Variable veq : V -> V -> bool.
Variable anc_unwrap : plate V -> stensor V -> res (stensor V).
Variable tname : stensor V -> option string.
Variable autograd : pyval V -> pyval V -> pyval V -> res (list (option (ten V))).
Notation wrap_gradient := (wrap_gradient veq anc_unwrap tname).
Notation wrap_gradients := (wrap_gradients veq anc_unwrap tname).
Notation storch_grad := (storch_grad veq anc_unwrap tname autograd).

Lemma link_all : forall outs : list (stensor V), link_parents (PList (map PT outs)) = Ok (map sid outs).
Proof.
  intros outs. cbn [link_parents]. induction outs as [|a l IH]; [reflexivity|]. cbn [map mapM]. rewrite IH. reflexivity.
Qed.
Lemma link_more : forall outs (a : stensor V), link_parents (PList (map PT outs ++ [PT a])) = Ok (map sid outs ++ [sid a]).
Proof. intros outs a. change [PT a] with (map (@PT V) [a]). rewrite <- map_app, link_all, map_app. reflexivity. Qed.

Lemma new_like : forall id (a : stensor V) g parents ids, wf a -> shape g = shape (st a) -> link_parents parents = Ok ids ->
  exists r, new_tensor id (Some g) parents (splates a) = Ok r /\ wf r /\ st r = g /\ splates r = splates a /\ s_event_shape r = s_event_shape a /\
    sparents r = ids /\ s_stochastic r = false.
Proof.
  intros id a g parents ids W E L. unfold new_tensor.
  destruct (proj2 (mk_tensor_iff id g ids (splates a) false)) as [r Hr].
  { split; [apply (wf_names a W)|]. exists (s_event_shape a). rewrite E, (wf_shape a W), nonone_wide by apply (wf_pos a W). reflexivity. }
  pose proof Hr as Hr'. unfold mk_tensor in Hr'. destruct (check_plates (shape g) (splates a) [] 0) as [bd|]; [|discriminate]. cbn [bind]. rewrite L. cbn [bind].
  exists r. split; [exact Hr|]. destruct (mk_tensor_fields _ _ _ _ _ _ Hr) as [_ [F1 [F2 [F3 [F4 [F5 F6]]]]]].
  rewrite nonone_wide in F5, F6 by apply (wf_pos a W). rewrite E, (wf_shape a W) in F6. apply app_inv_head in F6.
  split; [|split; [exact F1|split; [exact F2|split; [now rewrite F6|split; assumption]]]].
  constructor; rewrite ?F2; [apply (wf_names a W)|apply (wf_pos a W)|rewrite F1, <- F6, E; apply (wf_shape a W)|exact F5].
Qed.
Lemma new_bare : forall id (g : ten V) parents ids, link_parents parents = Ok ids ->
  exists r, new_tensor id (Some g) parents [] = Ok r /\ wf r /\ st r = g /\ splates r = [] /\ s_event_shape r = shape g /\ sparents r = ids /\ s_stochastic r = false.
Proof.
  intros id g parents ids L. unfold new_tensor. cbn [check_plates bind]. rewrite L. cbn [bind mk_tensor check_plates skipn].
  eexists. split; [reflexivity|]. split; [constructor; cbn; [constructor|intros ? []|reflexivity|reflexivity]|]. repeat split; reflexivity.
Qed.

Lemma wrap_all : forall outs ins done todo base gs, ins = done ++ todo ->
  Forall (fun x => match x with PT a => wf a | _ => True end) todo -> Forall (named_tensor tname) todo -> Forall2 gradient_shape gs todo ->
  forall inputs, inputs = PList ins \/ inputs = PTuple ins ->
  exists rs, wrap_gradients (PList (map PT outs)) inputs base (length done) (map Some gs) = Ok rs /\ gradients_of tname outs todo gs rs.
Proof.
  intros outs ins done todo. revert done. induction todo as [|x todo IH]; intros done base gs E W Nm F inputs HI; inversion F as [|g y gs' todo' S F']; subst.
  - exists []. split; [reflexivity|constructor].
  - cbn [map Grad.wrap_gradients].
    assert (A : input_at veq anc_unwrap inputs (length done) (base + 2 * length done + 1) = Ok x).
    { destruct HI as [-> | ->]; cbn [input_at]; rewrite nth_error_app2 by lia; rewrite Nat.sub_diag; reflexivity. }
    assert (B : exists r, wrap_gradient (PList (map PT outs)) inputs base (length done) (Some g) = Ok r /\ gradient_of tname outs x g r).
    { unfold Grad.wrap_gradient. rewrite A. cbn [bind]. inversion Nm as [|? ? N1 _]; subst. inversion W as [|? ? W1 _]; subst. destruct x; try contradiction.
      - cbn [plus_list bind]. destruct N1 as [n Hn]. rewrite Hn.
        destruct (new_like (base + 2 * length done) a g _ _ W1 S (link_more outs a)) as [r [E1 [E2 [E3 [E4 [E5 [E6 E7]]]]]]]. rewrite E1. cbn [bind].
        eexists. split; [reflexivity|]. constructor; assumption.
      - destruct (new_bare (base + 2 * length done) g _ _ (link_all outs)) as [r [E1 [E2 [E3 [E4 [E5 [E6 E7]]]]]]]. rewrite E1. cbn [bind].
        eexists. split; [reflexivity|]. constructor; try assumption. rewrite E5. exact S. }
    destruct B as [r [B1 B2]]. rewrite B1. cbn [bind].
    destruct (IH (done ++ [x]) base gs') with (inputs := inputs) as [rs [E1 E2]]; auto.
    + now rewrite <- app_assoc.
    + now inversion W.
    + now inversion Nm.
    + rewrite app_length in E1. cbn in E1. rewrite Nat.add_1_r in E1. rewrite E1. cbn [bind]. exists (r :: rs). split; [reflexivity|]. now constructor.
Qed.

Lemma bare_det : forall v w w' : pyval V, bare v w -> bare v w' -> w = w'.
Proof.
  fix IH 4. intros v w w' H H'. destruct H.
  - inversion H'. congruence.
  - inversion H'. reflexivity.
  - inversion H'. reflexivity.
  - inversion H'. reflexivity.
  - inversion H'. reflexivity.
  - inversion H' as [| | | | |? m F| | |]; subst. f_equal. revert m F H'. induction H as [|x y l l' A B C]; intros m F H'; inversion F; subst; [reflexivity|].
    f_equal; [eapply IH; eassumption|]. apply C; [assumption|constructor; assumption].
  - inversion H' as [| | | | | |? m F| |]; subst. f_equal. revert m F H'. induction H as [|x y l l' A B C]; intros m F H'; inversion F; subst; [reflexivity|].
    f_equal; [eapply IH; eassumption|]. apply C; [assumption|constructor; assumption].
  - inversion H' as [| | | | | | |? m F|]; subst. f_equal. revert m F H'. induction H as [|x y l l' [A1 A2] B C]; intros m F H'; inversion F as [|? z ? ? [D1 D2]]; subst; [reflexivity|].
    f_equal; [destruct y, z; cbn in *; f_equal; [congruence|eapply IH; eassumption]|]. apply C; [assumption|constructor; assumption].
  - inversion H' as [| | | | | | | |? ? m F]; subst. f_equal. revert m F H'. induction H as [|x y l l' [A1 A2] B C]; intros m F H'; inversion F as [|? z ? ? [D1 D2]]; subst; [reflexivity|].
    f_equal; [destruct y, z; cbn in *; f_equal; [congruence|eapply IH; eassumption]|]. apply C; [assumption|constructor; assumption].
Qed.

Lemma prepared : forall args, callable veq (call_tensors args []) -> Forall no_distr args ->
  exists args' ps pl, prepare_args veq anc_unwrap args [] grad_opts = Ok (args', [], ps, pl) /\ Forall2 bare args args'.
Proof.
  intros args HC ND. destruct (prepare_args_gen veq anc_unwrap (fun a u => u = st a) args [] grad_opts (call_tensors args [])) as [args' [k' [E [F1 F2]]]]; auto.
  - intros t Ht. exists (st t). split; reflexivity.
  - inversion F2; subst. eauto.
Qed.

Theorem grad_list : forall outs ins gouts o i g gs base inputs, inputs = PList ins \/ inputs = PTuple ins ->
  callable veq (call_tensors [PList (map PT outs); inputs; gouts] []) -> no_distr gouts -> Forall (named_tensor tname) ins ->
  bare (PList (map PT outs)) o -> bare inputs i -> bare gouts g -> autograd o i g = Ok (map Some gs) -> Forall2 gradient_shape gs ins ->
  exists rs, storch_grad (PList (map PT outs)) inputs gouts base = Ok rs /\ gradients_of tname outs ins gs rs.
Proof.
  intros outs ins gouts o i g gs base inputs HI HC ND Nm Bo Bi Bg HA HS.
  assert (NDi : no_distr inputs).
  { assert (X : forall l, Forall (named_tensor tname) l -> (fix go l := match l with [] => True | x :: r => @no_distr V x /\ go r end) l).
    { induction l as [|x l IH]; intros F; [exact I|]. inversion F; subst. split; [destruct x; try contradiction; exact I|now apply IH]. }
    destruct HI as [-> | ->]; cbn [no_distr]; now apply X. }
  assert (NDo : no_distr (PList (map (@PT V) outs))) by (clear; cbn [no_distr]; induction outs; cbn; auto).
  destruct (prepared [PList (map PT outs); inputs; gouts] HC) as [args' [ps [pl [E F]]]]; [repeat constructor; assumption|].
  unfold Grad.storch_grad. rewrite E. cbn [bind]. inversion F as [|? o' ? ? Fo F1]; subst. inversion F1 as [|? i' ? ? Fi F2]; subst. inversion F2 as [|? g' ? ? Fg F3]; subst. inversion F3; subst.
  rewrite (bare_det _ _ _ Fo Bo), (bare_det _ _ _ Fi Bi), (bare_det _ _ _ Fg Bg), HA. cbn [bind].
  apply (wrap_all outs ins [] ins base gs); auto.
  destruct HC as [W _]. rewrite Forall_forall in *. intros x Hx. destruct x; auto. apply W. unfold call_tensors. cbn [flat_map]. rewrite app_nil_r.
  apply in_or_app. right. apply in_or_app. left. destruct HI as [-> | ->]; cbn [tensors_in]; apply in_flat_map; exists (PT a); split; auto; now left.
Qed.

Lemma wrap_each : forall outputs inputs base gs i rs, wrap_gradients outputs inputs base i gs = Ok rs ->
  forall j g, nth_error gs j = Some g -> exists x, wrap_gradient outputs inputs base (i + j) g = Ok x.
Proof.
  intros outputs inputs base gs. induction gs as [|h gs IH]; intros i rs E j g Hj; [destruct j; discriminate|]. cbn [Grad.wrap_gradients] in E.
  destruct (wrap_gradient outputs inputs base i h) as [x|] eqn:Ex; [|discriminate]. cbn [bind] in E.
  destruct (wrap_gradients outputs inputs base (S i) gs) as [xs|] eqn:Exs; [|discriminate]. destruct j; cbn in Hj.
  - injection Hj as <-. rewrite Nat.add_0_r. eauto.
  - destruct (IH _ _ Exs _ _ Hj) as [y Hy]. exists y. now rewrite <- Nat.add_succ_comm.
Qed.
Lemma grad_each : forall outputs inputs gouts base rs, storch_grad outputs inputs gouts base = Ok rs ->
  exists o i g gs, autograd o i g = Ok gs /\ forall j h, nth_error gs j = Some h -> exists x, wrap_gradient outputs inputs base j h = Ok x.
Proof.
  intros outputs inputs gouts base rs E. unfold Grad.storch_grad in E. destruct (prepare_args _ _ _ _ _) as [[[[args k] ps] pl]|]; [|discriminate]. cbn [bind] in E.
  destruct args as [|o [|i [|g [|]]]]; try discriminate. destruct (autograd o i g) as [gs|] eqn:A; [|discriminate]. cbn [bind] in E.
  exists o, i, g, gs. split; [exact A|]. intros j h Hj. exact (wrap_each _ _ _ _ _ _ E j h Hj).
Qed.

(** As many gradients as inputs. *)
Definition one_each (n : nat) : Prop := forall o i g gs, autograd o i g = Ok gs -> length gs = n.

Lemma nth_some : forall {A} (l : list A) j, j < length l -> exists x, nth_error l j = Some x.
Proof. intros A l j H. destruct (nth_error l j) eqn:E; [eauto|]. apply nth_error_None in E. lia. Qed.

Theorem grad_unnamed : forall outputs ins gouts base a rs, one_each (length ins) -> In (PT a) ins -> tname a = None ->
  storch_grad outputs (PList ins) gouts base <> Ok rs.
Proof.
  intros outputs ins gouts base a rs HA HI Hn E. destruct (grad_each _ _ _ _ _ E) as [o [i [g [gs [A B]]]]]. apply HA in A.
  apply In_nth_error in HI. destruct HI as [j Hj]. assert (j < length ins) by (apply nth_error_Some; congruence).
  destruct (nth_some gs j) as [h Hh]; [lia|]. destruct (B j h Hh) as [x Hx]. unfold Grad.wrap_gradient in Hx. cbn [input_at] in Hx. rewrite Hj in Hx. cbn [bind] in Hx.
  destruct (plus_list outputs (PT a)); [|discriminate]. cbn [bind] in Hx. rewrite Hn in Hx. discriminate.
Qed.

Theorem grad_single : forall a ins gouts base rs, one_each (length ins) -> ins <> [] ->
  storch_grad (PT a) (PList ins) gouts base <> Ok rs.
Proof.
  intros a ins gouts base rs HA HI E. destruct (grad_each _ _ _ _ _ E) as [o [i [g [gs [A B]]]]]. apply HA in A.
  destruct ins as [|x0 ins]; [congruence|]. destruct gs as [|h gs]; [discriminate|]. destruct (B 0 h eq_refl) as [x Hx]. unfold Grad.wrap_gradient in Hx. cbn [input_at nth_error bind] in Hx.
  destruct x0; cbn [plus_list bind] in Hx; try discriminate; unfold new_tensor in Hx; cbn in Hx; destruct h; discriminate.
Qed.

Theorem grad_torch_output : forall outs t ins gouts base rs, one_each (length ins) -> ins <> [] -> In (PRaw t) outs ->
  storch_grad (PList outs) (PList ins) gouts base <> Ok rs.
Proof.
  intros outs t ins gouts base rs HA HI Ht E. destruct (grad_each _ _ _ _ _ E) as [o [i [g [gs [A B]]]]]. apply HA in A.
  assert (L : forall l ids, In (PRaw t) l -> link_parents (PList l) <> Ok ids).
  { clear. cbn [link_parents]. induction l as [|v l IH]; intros ids Hl; [destruct Hl|]. cbn [mapM]. destruct Hl as [-> |Hl]; [discriminate|].
    destruct v; try discriminate. cbn [bind]. destruct (mapM _ l) eqn:M; [|discriminate]. exfalso. exact (IH _ Hl eq_refl). }
  destruct ins as [|x0 ins]; [congruence|]. destruct gs as [|h gs]; [discriminate|]. destruct (B 0 h eq_refl) as [x Hx]. unfold Grad.wrap_gradient in Hx. cbn [input_at nth_error bind] in Hx.
  assert (N : forall id l pl r, In (PRaw t) l -> new_tensor id h (PList l) pl <> Ok r).
  { intros id l pl r Hl E'. unfold new_tensor in E'. destruct h.
    - destruct (check_plates _ _ _ _); [|discriminate]. cbn [bind] in E'. destruct (link_parents (PList l)) eqn:Lk; [|discriminate]. exact (L _ _ Hl Lk).
    - destruct (existsb _ _); [discriminate|]. destruct (link_parents (PList l)); discriminate. }
  destruct x0; cbn [plus_list bind] in Hx; try (destruct (new_tensor _ _ _ _) eqn:X; [|discriminate]; exact (N _ _ _ _ Ht X)).
  destruct (tname a); [|discriminate]. destruct (new_tensor _ _ _ _) eqn:X; [|discriminate]. revert X. apply N. apply in_or_app. now left.
Qed.

Theorem grad_unused : forall outputs inputs gouts base rs, (forall o i g gs, autograd o i g = Ok gs -> In None gs) ->
  storch_grad outputs inputs gouts base <> Ok rs.
Proof.
  intros outputs inputs gouts base rs HA E. destruct (grad_each _ _ _ _ _ E) as [o [i [g [gs [A B]]]]]. apply HA in A. apply In_nth_error in A. destruct A as [j Hj].
  destruct (B j None Hj) as [x Hx]. unfold Grad.wrap_gradient in Hx. destruct (input_at _ _ _ _ _) as [v|]; [|discriminate]. cbn [bind] in Hx.
  assert (N : forall id ps pl r, @new_tensor V id None ps pl <> Ok r).
  { intros id ps pl r E'. unfold new_tensor in E'. destruct (existsb _ _); [discriminate|]. destruct (link_parents ps); discriminate. }
  destruct v; try (destruct (new_tensor _ _ _ _) eqn:X; [|discriminate]; exact (N _ _ _ _ X)).
  destruct (plus_list outputs (PT a)); [|discriminate]. cbn [bind] in Hx. destruct (tname a); [|discriminate]. destruct (new_tensor _ _ _ _) eqn:X; [|discriminate]. exact (N _ _ _ _ X).
Qed.
End GradProofs.
