(** Proofs about right_expand_as on storch tensors. *)
From Coq Require Import String List Arith Bool ZArith Lia.
From Verif Require Import Base Torch Plates Wrap TensorFns Util ExpandAs SpecTensor SpecWrap SpecReduce SpecSample ListLemmas IndexLemmas WrapProofs PlateEqProofs AlignProofs CallProofs CallProofs2 OpProofs CallN CallV SharedProofs GetitemProofs UtilProofs.
Import ListNotations.
Open Scope nat_scope.
Open Scope list_scope.

Section ExpandAs.
Context {V : Type}.
Variable veq : V -> V -> bool.
Variable anc_unwrap : plate V -> stensor V -> res (stensor V).
Notation stensor := (stensor V).
Notation plate := (plate V).
Notation N l := (map (@pname V) l).

(** Without left broadcasting every tensor is laid out with its own event dimensions. *)
Lemma prepare_own : forall args kwargs o (ts : list stensor), ts = call_tensors args kwargs -> callable veq ts ->
  o_unwrap o = true -> o_align o = true -> o_lbroadcast o = false -> o_flatten o = false -> o_dim o = None -> o_dims o = None ->
  Forall no_distr args -> Forall (fun kv => no_distr (snd kv)) kwargs ->
  let R := fun t u => laid_out (wide (all_plates ts)) (o_expand o) (s_event_dims t) t u in
  exists args' kwargs',
    prepare_args veq anc_unwrap args kwargs o = Ok (args', kwargs', ts, all_plates ts) /\
    Forall2 (unwrapped R) args args' /\
    Forall2 (fun x y => fst x = fst y /\ unwrapped R (snd x) (snd y)) kwargs kwargs'.
Proof.
  intros args kwargs o ts Ets HC H1 H2 H3 H4 H5 H6 Na Nk R. apply prepare_args_gen; auto. intros t Ht.
  destruct (unwrap_side veq anc_unwrap ts t HC Ht) as [S1 [S2 [S3 [S4 [S5 [S6 [S7 S8]]]]]]].
  set (o' := mkW true true true (o_expand o) false None None).
  destruct (unwrap_tensor_spec veq anc_unwrap (wide (all_plates ts)) o' (s_event_dims t) t (flat_map splates ts)) as [u [U1 U2]]; auto; [apply HC|].
  exists u. split; [|exact U2]. rewrite <- U1. unfold unwrap_tensor. rewrite H2, H3, H4. cbn [o' o_align o_flatten o_lbroadcast o_expand negb].
  destruct (foldM _ (wide (all_plates ts)) t) as [a'|] eqn:Ea; [|reflexivity]. cbn [bind].
  assert (a' = t) as ->.
  { revert Ea. clear -S7. induction (wide (all_plates ts)) as [|p l IH]; simpl; [congruence|]. rewrite (S7 p) by (simpl; auto). cbn [bind]. apply IH. intros q Hq. apply S7. simpl; auto. }
  rewrite Nat.ltb_irrefl, !andb_false_r. reflexivity.
Qed.

Lemma pad_self : forall ev, pad (length ev) ev = ev.
Proof. intros ev. unfold pad. rewrite Nat.sub_diag. apply app_nil_r. Qed.

(** The expansion of the torch tensors, whatever their numbers of dimensions. *)
Lemma right_any : forall t e : ten V, exists u, right_expand_as t e = Ok u /\ shape u = shape t ++ skipn (ndim t) (shape e) /\
    forall i j, valid i (shape t) -> valid j (skipn (ndim t) (shape e)) -> el u (i ++ j) = el t i.
Proof.
  intros t e. destruct (le_lt_dec (ndim t) (ndim e)) as [H|H]; [now apply right_fits|].
  destruct (right_same t e H) as [u [E [S X]]]. exists u. split; auto. rewrite skipn_all2 by (unfold ndim in *; lia). rewrite app_nil_r. split; auto.
  intros i j Hi Hj. inversion Hj; subst. rewrite app_nil_r. apply X. now rewrite S.
Qed.

Lemma expand_torch : forall (t e : ten V) base, st_right_expand_as veq anc_unwrap (PRaw t) (PRaw e) base = do u <- right_expand_as t e; Ok (PRaw u).
Proof. reflexivity. Qed.

Section Two.
Variables a b : stensor.
Variable base : nat.
Hypothesis HC : callable veq [a; b].
Let W := wide (all_plates [a; b]).
Lemma two_args : exists u v, prepare_args veq anc_unwrap [PT a; PT b] [] getitem_opts = Ok ([PRaw u; PRaw v], [], [a; b], all_plates [a; b]) /\
  laid_out W false (s_event_dims a) a u /\ laid_out W false (s_event_dims b) b v.
Proof.
  destruct (prepare_own [PT a; PT b] [] getitem_opts [a; b]) as [args' [kwargs' [E [F1 F2]]]]; auto; try (repeat constructor; fail).
  inversion F2; subst. inversion F1 as [|? x1 ? r1 U1 F1']; subst. inversion F1' as [|? x2 ? r2 U2 F1'']; subst. inversion F1''; subst.
  inversion U1; subst. inversion U2; subst. exists u, u0. auto.
Qed.

Lemma expand_covered : (forall p, In p (wide (splates b)) -> has (splates a) (pname p) = true) ->
  let rest := skipn (s_event_dims a) (s_event_shape b) in
  exists r, st_right_expand_as veq anc_unwrap (PT a) (PT b) base = Ok (PT r) /\ splates r = all_plates [a; b] /\ s_event_shape r = s_event_shape a ++ rest /\
    wf r /\ sparents r = [sid a; sid b] /\ s_stochastic r = false /\
    forall s e e', in_range s (all_plates [a; b]) -> valid e (s_event_shape a) -> valid e' rest -> den r s (e ++ e') = den a s e.
Proof.
  intros H rest. destruct two_args as [u [v [E [[Su Xu] [Sv Xv]]]]].
  destruct (call_done veq anc_unwrap (torch_fnN right_expand_fn) _ _ _ _ [a; b] getitem_opts base ltac:(discriminate) HC eq_refl E) as [_ [K2 _]].
  unfold s_event_dims in Su, Xu, Sv, Xv. rewrite pad_self in Su, Xu, Sv, Xv.
  assert (C : forall p, In p W -> has (splates a) (pname p) = true).
  { intros p Hp. destruct (unwrap_side veq anc_unwrap [a; b] a HC (or_introl eq_refl)) as [S1 _]. pose proof (S1 p Hp) as I. apply In_wide in Hp.
    simpl in I. rewrite app_nil_r in I. apply in_app_iff in I. destruct I as [I|I].
    - apply existsb_exists. exists p. split; auto. apply String.eqb_refl.
    - apply H. apply In_wide. tauto. }
  assert (M1 : map (fun p => if has (splates a) (pname p) || false then pn p else 1) W = map pn W).
  { apply map_ext_in. intros p Hp. now rewrite (C p Hp). }
  assert (M2 : forall s : assignment, map (fun p => if has (splates a) (pname p) || false then s (pname p) else 0) W = map (fun p => s (pname p)) W).
  { intros s. apply map_ext_in. intros p Hp. now rewrite (C p Hp). }
  rewrite M1 in Su. destruct (right_any u v) as [w [Ew [Sw Xw]]].
  assert (Er : skipn (ndim u) (shape v) = rest).
  { unfold ndim. rewrite Su, Sv, app_length, map_length. rewrite <- (map_length (fun p => if has (splates b) (pname p) || false then pn p else 1) W).
    rewrite skipn_app. rewrite skipn_all2 by lia. cbn [app]. unfold rest, s_event_dims. f_equal. lia. }
  rewrite Er in Sw, Xw. destruct (K2 w (s_event_shape a ++ rest)) as [r [R1 R2]].
  { unfold torch_fnN. simpl raws. cbv iota. cbn [right_expand_fn]. rewrite Ew. reflexivity. }
  { rewrite Sw, Su, app_assoc. reflexivity. }
  destruct R2 as [R2 [R3 [R4 [R5 [R6 R7]]]]]. exists r. repeat split; auto; try apply R5.
  intros s e e' Hs He He'. unfold den at 1. rewrite R3, R2. fold W.
  assert (HW : in_range s W) by (intros p Hp; apply Hs; apply In_wide in Hp; tauto).
  rewrite app_assoc, Xw; auto.
  - rewrite <- (M2 s). rewrite Xu by auto. f_equal. unfold s_event_dims. rewrite <- (valid_length _ _ He). apply firstn_all.
  - rewrite Su. apply Forall2_app; auto. clear -HW. induction W as [|p l IH]; cbn; constructor; auto.
    + apply HW. now left.
    + apply IH. intros q Hq. apply HW. now right.
Qed.

Lemma expand_lacking : forall p, In p (wide (splates b)) -> has (splates a) (pname p) = false ->
  st_right_expand_as veq anc_unwrap (PT a) (PT b) base = Err ValueError.
Proof.
  intros p Hp Hh. destruct two_args as [u [v [E [[Su Xu] [Sv Xv]]]]].
  destruct (call_done veq anc_unwrap (torch_fnN right_expand_fn) _ _ _ _ [a; b] getitem_opts base ltac:(discriminate) HC eq_refl E) as [_ [_ [K3 _]]].
  destruct (right_any u v) as [w [Ew [Sw Xw]]]. apply (K3 w).
  { unfold torch_fnN. simpl raws. cbv iota. cbn [right_expand_fn]. rewrite Ew. reflexivity. }
  intros evc Hw. rewrite Sw, Su, <- app_assoc in Hw. fold W in Hw.
  destruct (unwrap_side veq anc_unwrap [a; b] b HC (or_intror (or_introl eq_refl))) as [_ [_ [_ [_ [S5 [S6 _]]]]]].
  pose proof (S6 p Hp) as I. apply in_map_iff in I. destruct I as [q [Eq Hq]]. fold W in Hq, S5.
  assert (M : map (fun p => if has (splates a) (pname p) || false then pn p else 1) W = map pn W).
  { apply (f_equal (firstn (length W))) in Hw. rewrite !firstn_app, !map_length, Nat.sub_diag in Hw. cbn [firstn] in Hw. rewrite !app_nil_r in Hw.
    rewrite !firstn_all2 in Hw by (rewrite map_length; lia). exact Hw. }
  assert (B : (if has (splates a) (pname q) || false then pn q else 1) = pn q).
  { clear -M Hq. induction W as [|x l IH]; [contradiction|]. cbn [map] in M. injection M as M0 M'. destruct Hq as [->|Hq]; auto. }
  rewrite Eq, Hh in B. cbn in B. specialize (S5 q Hq). lia.
Qed.
End Two.
End ExpandAs.
