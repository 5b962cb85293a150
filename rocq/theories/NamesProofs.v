(** Proofs about attribute access and operators. *)
From Coq Require Import String List Arith Bool Lia.
From Verif Require Import Base Torch Plates Wrap Names SpecTensor SpecWrap SpecNames CallProofs CallProofs2 OpProofs.
Import ListNotations.

Section NamesProofs.
Context {V : Type}.
Variable veq : V -> V -> bool.
Variable anc_unwrap : plate V -> stensor V -> res (stensor V).

Lemma exposing_rejected : forall n fn self args kwargs base, In n exposing -> n <> "normal_"%string ->
  call_method veq anc_unwrap (ACall n fn) self args kwargs base = Err IllegalStorchExposeError /\
  torch_function veq anc_unwrap n fn args kwargs base = Err IllegalStorchExposeError.
Proof.
  intros n fn self args kwargs base H Hn. unfold exposing in H. simpl in H.
  repeat match type of H with _ \/ _ => destruct H as [<-|H] end; try contradiction;
  first [split; reflexivity | exfalso; apply Hn; reflexivity].
Qed.

Lemma method_elementwise : forall n f (a : stensor V) base,
  mem_name n exception_methods = false -> mem_name n excluded_methods = false -> callable veq [a] ->
  exists r, call_method veq anc_unwrap (ACall n (torch_fn1 (fun t => Ok (tmap f t)))) a [] [] base = Ok (PT r) /\
    splates r = splates a /\ s_event_shape r = s_event_shape a /\ sparents r = [sid a] /\
    forall s e, in_range s (splates a) -> valid e (s_event_shape a) -> den r s e = f (den a s e).
Proof.
  intros n f a base H1 H2 HC. unfold call_method, getattr. rewrite H1, H2. cbn [bind].
  destruct (op1_spec veq anc_unwrap f a base HC) as [r [E [A1 [A2 [A3 [A4 [A5 [A6 A7]]]]]]]].
  exists r. unfold torch_op1 in E. repeat split; auto.
Qed.

Lemma handle_ext : forall c fn fn' (args : list (pyval V)) kwargs rp o base, (forall a k, fn a k = fn' a k) ->
  handle_deterministic veq anc_unwrap c fn args kwargs rp o base = handle_deterministic veq anc_unwrap c fn' args kwargs rp o base.
Proof.
  intros c fn fn' args kwargs rp o base H. unfold handle_deterministic. destruct (c_stochastic c); auto.
  destruct (prepare_args veq anc_unwrap args kwargs o) as [[[[a k] ps] pl]|]; auto. cbn [bind].
  destruct ps; rewrite H; auto.
Qed.

Lemma operators_spec : forall name f sw sem (a b : stensor V) base evc,
  In (name, (f, sw)) expected_ops -> callable veq (if sw then [b; a] else [a; b]) ->
  let m := Nat.max (s_event_dims a) (s_event_dims b) in
  broadcasts (pad m (s_event_shape a)) (pad m (s_event_shape b)) evc ->
  exists r, eval_op veq anc_unwrap sem name (PT a) (PT b) base = Ok (PT r) /\ s_event_shape r = evc /\
    (forall n, has (splates r) n = has (splates a) n || has (splates b) n) /\
    forall s e, in_range s (splates r) -> valid e evc ->
      den r s e = (if sw then sem f (den b s (proj (s_event_shape b) e)) (den a s (proj (s_event_shape a) e))
                   else sem f (den a s (proj (s_event_shape a) e)) (den b s (proj (s_event_shape b) e))).
Proof.
  intros name f sw sem a b base evc H HC m HB.
  assert (Hhas : forall l k n, has (union l k) n = has l n || @has V k n).
  { intros l k n. apply eq_true_iff_eq. rewrite orb_true_iff, !AlignProofs.has_In.
    rewrite (union_names anc_unwrap). tauto. }
  assert (K : forall x y, (if sw then [y; x] else [x; y]) = (if sw then [b; a] else [a; b]) -> True) by auto.
  set (u := if sw then b else a). set (v := if sw then a else b).
  assert (HC' : callable veq [u; v]) by (unfold u, v; destruct sw; exact HC).
  assert (HB' : broadcasts (pad (Nat.max (s_event_dims u) (s_event_dims v)) (s_event_shape u))
                           (pad (Nat.max (s_event_dims u) (s_event_dims v)) (s_event_shape v)) evc).
  { unfold u, v. destruct sw; auto. rewrite Nat.max_comm. fold m. now apply IndexLemmas.broadcasts_sym. }
  destruct (op2_spec veq anc_unwrap (sem f) u v base evc HC' HB') as [r [E [A1 [A2 [A3 [A4 [A5 [A6 A7]]]]]]]].
  exists r. refine (conj _ (conj A2 (conj _ _))).
  - rewrite <- E. unfold torch_op2.
    unfold expected_ops in H. simpl in H.
    repeat match type of H with _ \/ _ => destruct H as [H|H] end; try contradiction;
    injection H as <- <- <-; unfold u, v; try reflexivity;
    unfold eval_op; simpl operator; cbv iota; apply handle_ext;
    intros [|x [|y [|]]] k; simpl; auto; destruct x; auto; destruct y; auto.
  - intros n. rewrite A1, Hhas. unfold u, v. destruct sw; auto. apply orb_comm.
  - intros s e Hs He. rewrite A7; auto. unfold u, v. destruct sw; reflexivity.
Qed.
End NamesProofs.
