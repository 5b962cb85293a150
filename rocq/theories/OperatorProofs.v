(** Operators that do not go through torch functions of two arguments in the written order. *)
From Coq Require Import String List Arith Bool Lia.
From Verif Require Import Base Torch Plates Wrap Names SpecTensor SpecWrap ListLemmas IndexLemmas WrapProofs PlateEqProofs AlignProofs CallProofs CallProofs2 OpProofs CallN.
Import ListNotations.
Open Scope nat_scope.
Open Scope list_scope.

Section OperatorProofs.
Context {V : Type}.
Variable veq : V -> V -> bool.
Variable anc_unwrap : plate V -> stensor V -> res (stensor V).
Notation plate := (plate V).
Notation stensor := (stensor V).

Lemma all2 : forall a b : stensor, all_plates [a; b] = union (splates a) (splates b).
Proof. intros. unfold all_plates. simpl. now rewrite union_nil_l. Qed.

(** A method with the deterministic decorator that calls a torch method on the unwrapped operands in either order. *)
Theorem swapped_spec : forall (f : V -> V -> V) (sw : bool) (a b : stensor) base evc, callable veq [a; b] ->
  let m := Nat.max (s_event_dims a) (s_event_dims b) in
  broadcasts (pad m (s_event_shape a)) (pad m (s_event_shape b)) evc ->
  exists r, handle_deterministic veq anc_unwrap top_ctx
      (fun args kw => match args with [u; v] => torch_fn2 f (if sw then [v; u] else [u; v]) kw | _ => Err TypeError end) [PT a; PT b] [] [] default_opts base = Ok (PT r) /\
    splates r = union (splates a) (splates b) /\ s_event_shape r = evc /\
    forall s e, in_range s (splates r) -> valid e evc ->
      den r s e = if sw then f (den b s (proj (s_event_shape b) e)) (den a s (proj (s_event_shape a) e)) else f (den a s (proj (s_event_shape a) e)) (den b s (proj (s_event_shape b) e)).
Proof.
  intros f sw a b base evc HC m HB.
  destruct (call_fn_spec veq anc_unwrap (fun args kw => match args with [u; v] => torch_fn2 f (if sw then [v; u] else [u; v]) kw | _ => Err TypeError end) [a; b] base default_opts
    ltac:(discriminate) HC eq_refl eq_refl eq_refl eq_refl eq_refl eq_refl) as [us [F [_ K]]].
  inversion F as [|? ua ? r1 La F1]; subst. inversion F1 as [|? ub ? r2 Lb F2]; subst. inversion F2; subst.
  destruct Lb as [Sb Xb], La as [Sa Xa]. simpl o_expand in *.
  change (max_event [a; b]) with m in *. set (ps := wide (all_plates [a; b])) in *.
  assert (Hps : forall p, In p ps -> 1 < pn p) by (intros p Hp; apply In_wide in Hp; tauto).
  assert (H2 : forall p, In p ps -> has (splates a) (pname p) = true \/ has (splates b) (pname p) = true).
  { intros p Hp. destruct (all_plates_facts veq anc_unwrap [a; b] HC) as [_ [_ X]]. apply In_wide in Hp. destruct Hp as [Hp _].
    destruct (proj1 (X (pname p)) (in_map _ _ _ Hp)) as [t [[<-|[<-|[]]] Ht]]; [left|right]; now apply has_In. }
  pose proof (broadcasts_app _ _ _ _ _ _ (wide_choice_broadcasts a b ps H2) HB) as BB. rewrite <- Sa, <- Sb in BB.
  set (t := if sw then mkten (map pn ps ++ evc) (fun idx => f (el ub (bidx (shape ub) idx)) (el ua (bidx (shape ua) idx)))
            else mkten (map pn ps ++ evc) (fun idx => f (el ua (bidx (shape ua) idx)) (el ub (bidx (shape ub) idx)))).
  destruct (K t evc) as [r [U1 [U2 [U3 [U4 [U5 [U6 [U7 U8]]]]]]]].
  { cbn [map]. unfold t, torch_fn2, elementwise2. destruct sw.
    - rewrite (broadcasts_bshape _ _ _ (broadcasts_sym _ _ _ BB)). reflexivity.
    - rewrite (broadcasts_bshape _ _ _ BB). reflexivity. }
  { unfold t. destruct sw; reflexivity. }
  exists r. split; [exact U1|]. rewrite all2 in U2. split; [exact U2|]. split; [exact U4|].
  intros s e Hs He. assert (Hsp : in_range s ps) by (intros p Hp; apply Hs; rewrite U2, <- all2; apply In_wide in Hp; tauto).
  pose proof (valid_length _ _ He) as Le. destruct (broadcasts_length _ _ _ HB) as [L1 L2].
  assert (C : forall (c : stensor) u, s_event_dims c <= m -> shape u = map (fun p => if has (splates c) (pname p) || false then pn p else 1) ps ++ pad m (s_event_shape c) ->
    valid (zip_clip (pad m (s_event_shape c)) e) (pad m (s_event_shape c)) ->
    (forall s e, in_range s ps -> valid e (pad m (s_event_shape c)) -> el u (map (fun p => if has (splates c) (pname p) || false then s (pname p) else 0) ps ++ e) = den c s (firstn (s_event_dims c) e)) ->
    length (pad m (s_event_shape c)) = length evc ->
    el u (bidx (shape u) (map (fun p => s (pname p)) ps ++ e)) = den c s (proj (s_event_shape c) e)).
  { intros c u Hm Su V1 Xu Lc. rewrite Su. rewrite bidx_same by (rewrite !app_length, !map_length; lia).
    rewrite zip_clip_app by now rewrite !map_length. rewrite clip_choice2 by auto. rewrite Xu by auto. unfold s_event_dims, pad.
    rewrite zip_clip_prefix, <- proj_zip_clip; [reflexivity|]. unfold pad in Lc. lia. }
  unfold den at 1. rewrite U3, U2, <- all2. fold ps. unfold t. destruct sw; cbn [el]; rewrite (C a ua), (C b ub); auto; unfold m; try lia;
    (eapply broadcasts_valid_l; eauto; fail) || (eapply broadcasts_valid_r; eauto).
Qed.

Theorem lshift_swapped : forall sem (a b : stensor) base evc, callable veq [a; b] ->
  let m := Nat.max (s_event_dims a) (s_event_dims b) in
  broadcasts (pad m (s_event_shape a)) (pad m (s_event_shape b)) evc ->
  exists r, eval_op veq anc_unwrap sem "__lshift__" (PT a) (PT b) base = Ok (PT r) /\
    splates r = union (splates a) (splates b) /\ s_event_shape r = evc /\
    forall s e, in_range s (splates r) -> valid e evc ->
      den r s e = sem "__lshift__"%string (den b s (proj (s_event_shape b) e)) (den a s (proj (s_event_shape a) e)).
Proof. intros sem a b base evc HC m HB. exact (swapped_spec (sem "__lshift__"%string) true a b base evc HC HB). Qed.
Theorem rshift_spec : forall sem (a b : stensor) base evc, callable veq [a; b] ->
  let m := Nat.max (s_event_dims a) (s_event_dims b) in
  broadcasts (pad m (s_event_shape a)) (pad m (s_event_shape b)) evc ->
  exists r, eval_op veq anc_unwrap sem "__rrshift__" (PT a) (PT b) base = Ok (PT r) /\
    splates r = union (splates a) (splates b) /\ s_event_shape r = evc /\
    forall s e, in_range s (splates r) -> valid e evc ->
      den r s e = sem "__rshift__"%string (den b s (proj (s_event_shape b) e)) (den a s (proj (s_event_shape a) e)).
Proof. intros sem a b base evc HC m HB. exact (swapped_spec (sem "__rshift__"%string) true a b base evc HC HB). Qed.
(** Whatever the operands: != raises. *)
Theorem ne_raises : forall sem (x y : pyval V) base, exists e, eval_op veq anc_unwrap sem "__ne__" x y base = Err e.
Proof.
  intros sem x y base. unfold eval_op. change (operator "__ne__") with ONotDefined. cbn [String.eqb Ascii.eqb Bool.eqb].
  destruct (handle_deterministic veq anc_unwrap top_ctx (torch_fn2 (sem "__eq__"%string)) [x; y] [] [] default_opts base); cbn [bind]; eexists; reflexivity.
Qed.
Theorem logical_spec : forall sem op f (a b : stensor) base evc, In (op, f) [("__and__", "logical_and"); ("__or__", "logical_or"); ("__xor__", "logical_xor")]%string ->
  callable veq [a; b] ->
  let m := Nat.max (s_event_dims a) (s_event_dims b) in
  broadcasts (pad m (s_event_shape a)) (pad m (s_event_shape b)) evc ->
  exists r, eval_op veq anc_unwrap sem op (PT a) (PT b) base = Ok (PT r) /\ s_event_shape r = evc /\
    forall s e, in_range s (splates r) -> valid e evc ->
      den r s e = sem f (den a s (proj (s_event_shape a) e)) (den b s (proj (s_event_shape b) e)).
Proof.
  intros sem op f a b base evc Hin HC m HB.
  destruct (op2_spec veq anc_unwrap (sem f) a b base evc HC HB) as [r [E [P [Ev D]]]].
  exists r. split; [|split; [exact Ev|intros; apply D; auto]].
  cbn in Hin. destruct Hin as [H|[H|[H|[]]]]; injection H as <- <-; exact E.
Qed.
End OperatorProofs.
