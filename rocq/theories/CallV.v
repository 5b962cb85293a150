(** What a wrapped call makes of the result of its function. *)
From Coq Require Import String List Arith Bool Lia.
From Verif Require Import Base Torch Plates Wrap SpecTensor SpecWrap ListLemmas IndexLemmas WrapProofs PlateEqProofs AlignProofs CallProofs CallProofs2 OpProofs CallN.
Import ListNotations.
Open Scope nat_scope.

Section CallV.
Context {V : Type}.
Variable veq : V -> V -> bool.
Variable anc_unwrap : plate V -> stensor V -> res (stensor V).
Notation plate := (plate V).
Notation stensor := (stensor V).
Notation N l := (map (@pname V) l).

(** A storch tensor made by a call on [ts] from the torch tensor [t]. *)
Definition made (ts : list stensor) (evc : list nat) (t : ten V) (r : stensor) : Prop :=
  splates r = all_plates ts /\ st r = t /\ s_event_shape r = evc /\ wf r /\ sparents r = map sid ts /\ s_stochastic r = false.

Theorem call_done : forall fn args kwargs args' kwargs' (ts : list stensor) o base, ts <> [] -> callable veq ts -> o_flatten o = false ->
  prepare_args veq anc_unwrap args kwargs o = Ok (args', kwargs', ts, all_plates ts) ->
  (forall e, fn args' kwargs' = Err e -> handle_deterministic veq anc_unwrap top_ctx fn args kwargs [] o base = Err e) /\
  (forall t evc, fn args' kwargs' = Ok (PRaw t) -> shape t = map pn (wide (all_plates ts)) ++ evc ->
    exists r, handle_deterministic veq anc_unwrap top_ctx fn args kwargs [] o base = Ok (PT r) /\ made ts evc t r) /\
  (forall t, fn args' kwargs' = Ok (PRaw t) -> (forall evc, shape t <> map pn (wide (all_plates ts)) ++ evc) ->
    handle_deterministic veq anc_unwrap top_ctx fn args kwargs [] o base = Err ValueError) /\
  (forall us, fn args' kwargs' = Ok (PTuple (map (@PRaw V) us)) -> forall evcs, Forall2 (fun u evc => shape u = map pn (wide (all_plates ts)) ++ evc) us evcs ->
    exists rs, handle_deterministic veq anc_unwrap top_ctx fn args kwargs [] o base = Ok (PTuple (map PT rs)) /\
      Forall2 (fun ue r => made ts (snd ue) (fst ue) r) (combine us evcs) rs).
Proof.
  intros fn args kwargs args' kwargs' ts o base Hne HC Hfl E.
  assert (G : handle_deterministic veq anc_unwrap top_ctx fn args kwargs [] o base
    = do out <- fn args' kwargs'; do (v, _) <- prepare_outputs out ts (all_plates ts) base 1 false; Ok v).
  { unfold handle_deterministic. simpl c_stochastic. cbv iota. rewrite E. cbn [bind]. destruct ts as [|t0 ts0]; [congruence|].
    destruct (fn args' kwargs'); cbn [bind c_ignore top_ctx]; auto. rewrite filter_none, Hfl. reflexivity. }
  destruct (all_plates_facts veq anc_unwrap ts HC) as [_ [D _]]. pose proof (all_pos veq anc_unwrap ts HC) as AP.
  rewrite G. split; [|split; [|split]].
  - intros e ->. reflexivity.
  - intros t evc -> Hs. cbn [bind prepare_outputs].
    destruct (mk_tensor_good (base + 1) t (map sid ts) (all_plates ts) false evc D AP Hs) as [r [R1 [R2 [R3 [R4 [R5 [R6 [R7 R8]]]]]]]].
    rewrite R1. cbn [bind]. exists r. unfold made. auto 10.
  - intros t -> Hs. cbn [bind prepare_outputs]. destruct (mk_tensor (base + 1) t (map sid ts) (all_plates ts) false) as [r|e] eqn:M; cbn [bind].
    + exfalso. assert (X : exists r, mk_tensor (base + 1) t (map sid ts) (all_plates ts) false = Ok r) by eauto.
      apply mk_tensor_iff in X. destruct X as [_ [ev Hev]]. rewrite nonone_wide in Hev by auto. eapply Hs; eauto.
    + now rewrite (CallN.mk_tensor_err _ _ _ _ _ _ M).
  - intros us -> evcs F. cbn [bind prepare_outputs].
    match goal with |- context [bind (?f (map (@PRaw V) us) 1) _] => set (go := f) end.
    assert (H : forall i, exists rs j, go (map (@PRaw V) us) i = Ok (map PT rs, j) /\ Forall2 (fun ue r => made ts (snd ue) (fst ue) r) (combine us evcs) rs).
    { induction F as [|u evc us evcs Hu F IH]; intros i; [exists [], i; split; auto; constructor|].
      destruct (mk_tensor_good (base + i) u (map sid ts) (all_plates ts) false evc D AP Hu) as [r [R1 [R2 [R3 [R4 [R5 [R6 [R7 R8]]]]]]]].
      destruct (IH (S i)) as [rs [j [J1 J2]]]. exists (r :: rs), j. split.
      - cbn [map]. unfold go at 1. cbn [prepare_outputs bind]. rewrite R1. cbn [bind]. fold go. unfold go in J1 |- *. rewrite J1. reflexivity.
      - constructor; auto. unfold made. cbn [fst snd]. auto 10. }
    destruct (H 1) as [rs [j [J1 J2]]]. rewrite J1. cbn [bind]. exists rs. auto.
Qed.

Lemma in_range_wide_all : forall (s : assignment) (l : list plate), in_range s l -> in_range s (wide l).
Proof. intros s l H p Hp. apply H. apply filter_In in Hp. exact (proj1 Hp). Qed.
Lemma valid_choice : forall (s : assignment) (l : list plate), in_range s l -> valid (map (fun p => s (pname p)) l) (map pn l).
Proof. induction l as [|p l IH]; intros H; simpl; constructor; [apply H; simpl; auto|apply IH; intros q Hq; apply H; simpl; auto]. Qed.
End CallV.
