(** Unary operations, operations with raw scalars, and re-wrapping of results. *)
From Coq Require Import String List Arith Bool Lia.
From Verif Require Import Base Torch Plates Wrap ListLemmas IndexLemmas SpecTensor SpecWrap WrapProofs AlignProofs CallProofs CallProofs2.
Import ListNotations.

#[local] Arguments skipn {A} !n !l : simpl nomatch.
#[local] Arguments firstn {A} !n !l : simpl nomatch.

Section OpProofs.
Context {V : Type}.
Variable veq : V -> V -> bool.
Variable anc_unwrap : plate V -> stensor V -> res (stensor V).
Notation plate := (plate V).
Notation stensor := (stensor V).
Notation pyval := (pyval V).
Notation N l := (map (@pname V) l).

Lemma app_len_inj : forall {A} (a b c d : list A), length a = length c -> a ++ b = c ++ d -> a = c /\ b = d.
Proof.
  induction a as [|x a IH]; intros b [|y c] d L E; try discriminate; auto.
  simpl in *. injection L as L. injection E as <- E. destruct (IH _ _ _ L E). split; congruence.
Qed.

Lemma assign_for : forall (l : list plate) (i1 : list nat), NoDup (N l) -> length i1 = length l ->
  exists s : assignment, map (fun p : plate => s (pname p)) l = i1.
Proof.
  induction l as [|p l IH]; intros [|i i1] ND L; try discriminate.
  - exists (fun _ => 0). reflexivity.
  - simpl in *. inversion ND; subst. destruct (IH i1) as [s Hs]; auto.
    exists (fun x => if String.eqb x (pname p) then i else s x). simpl. rewrite String.eqb_refl. f_equal.
    rewrite <- Hs. apply map_ext_in. intros q Hq. destruct (String.eqb_spec (pname q) (pname p)); auto.
    exfalso. apply H1. rewrite <- e. now apply in_map.
Qed.

(** Construction of a tensor from an element function. *)
Lemma mk_tensor_good : forall id (t : ten V) par (pl : list plate) stoch ev,
  NoDup (N pl) -> (forall p, In p pl -> 1 <= pn p) -> shape t = map pn (wide pl) ++ ev ->
  exists r, mk_tensor id t par pl stoch = Ok r /\ sid r = id /\ st r = t /\ splates r = pl /\ sparents r = par /\
    s_stochastic r = stoch /\ s_event_shape r = ev /\ wf r.
Proof.
  intros id t par pl stoch ev ND Hpos Hs.
  assert (Hmk : exists r, mk_tensor id t par pl stoch = Ok r).
  { apply mk_tensor_iff. split; auto. rewrite nonone_wide by auto. exists ev. exact Hs. }
  destruct Hmk as [r Hr]. exists r. destruct (mk_tensor_fields _ _ _ _ _ _ Hr) as [F3 [F4 [F5 [F6 [F7 [F8 F9]]]]]].
  assert (Hwr : wf r) by (eapply mk_tensor_wf; eauto).
  refine (conj Hr (conj F3 (conj F4 (conj F5 (conj F6 (conj F7 (conj _ Hwr))))))).
  rewrite nonone_wide in F9 by auto. rewrite Hs in F9. apply app_inv_head in F9. auto.
Qed.

Lemma plain_self : forall a : stensor, wf a -> plain (splates a) -> (forall p, In p (splates a) -> peq veq p p = true) ->
  callable veq [a].
Proof.
  intros a Hw Hp Hr. unfold callable. simpl. rewrite app_nil_r. refine (conj _ (conj _ Hp)); [repeat constructor; apply Hw|].
  intros p q Hpi Hqi En. assert (p = q); [|subst; auto].
  pose proof (wf_names a Hw) as ND. clear -ND Hpi Hqi En. induction (splates a) as [|x l IH]; [destruct Hpi|].
  simpl in *. inversion ND; subst. destruct Hpi as [<-|Hpi]; destruct Hqi as [<-|Hqi]; auto.
  - exfalso. apply H1. rewrite En. now apply in_map.
  - exfalso. apply H1. rewrite <- En. now apply in_map.
Qed.

Lemma has_self_map : forall (a : stensor) (f g : plate -> nat) b, 
  map (fun p => if has (splates a) (pname p) || b then f p else g p) (wide (splates a)) = map f (wide (splates a)).
Proof.
  intros a f g b. apply map_ext_in. intros p Hp. apply In_wide in Hp. destruct Hp as [Hp _].
  replace (has (splates a) (pname p)) with true; auto. symmetry. apply has_In. now apply in_map.
Qed.

Lemma all_plates_single : forall a : stensor, all_plates [a] = splates a.
Proof. intros a. unfold all_plates. simpl. apply union_nil_l. Qed.

(** Arguments that contain a single storch tensor: the tensor is handed over as it is. *)
Lemma laid_out_self : forall (a : stensor) b u, wf a -> laid_out (wide (splates a)) b (s_event_dims a) a u -> teq (st a) u.
Proof.
  intros a b u Hw [S X]. rewrite has_self_map in S. unfold s_event_dims in *. rewrite pad_self in *.
  pose proof (wf_shape a Hw) as Hs. split; [congruence|].
  intros idx Hi. rewrite Hs in Hi.
  assert (Hl : length idx = length (wide (splates a)) + length (s_event_shape a)).
  { apply valid_length in Hi. rewrite app_length, map_length in Hi. exact Hi. }
  set (k := length (wide (splates a))) in *.
  rewrite <- (firstn_skipn k idx). set (i1 := firstn k idx). set (i2 := skipn k idx).
  assert (L1 : length i1 = k) by (unfold i1; rewrite firstn_length; lia).
  assert (Hv : valid i1 (map pn (wide (splates a))) /\ valid i2 (s_event_shape a)).
  { rewrite <- (firstn_skipn k idx) in Hi. fold i1 i2 in Hi. unfold valid in *.
    apply Forall2_app_inv_l in Hi. destruct Hi as [l1 [l2 [H1 [H2 E]]]].
    assert (length l1 = k) by (rewrite <- L1; clear -H1; induction H1; simpl; auto).
    destruct (app_len_inj (map pn (wide (splates a))) (s_event_shape a) l1 l2) as [<- <-]; auto. now rewrite map_length. }
  destruct Hv as [V1 V2].
  (* an assignment that picks i1 *)
  assert (Hs2 : exists s : assignment, map (fun p : plate => s (pname p)) (wide (splates a)) = i1).
  { assert (ND : NoDup (N (wide (splates a)))).
    { pose proof (wf_names a Hw) as ND. clear -ND. induction (splates a) as [|p l IH]; simpl; [constructor|]. simpl in ND.
      inversion ND; subst. destruct (1 <? pn p); simpl; auto. constructor; auto. intros C. apply H1.
      apply in_map_iff in C. destruct C as [q [E Hq]]. apply In_wide in Hq. rewrite <- E. apply in_map. tauto. }
    apply assign_for; auto. }
  destruct Hs2 as [s Es]. rewrite <- Es.
  assert (Hr : in_range s (wide (splates a))).
  { intros p Hp. rewrite <- Es in V1. clear -V1 Hp. induction (wide (splates a)) as [|q l IH]; [destruct Hp|].
    simpl in V1. inversion V1; subst. destruct Hp as [<-|Hp]; auto. }
  specialize (X s i2 Hr V2). rewrite has_self_map in X. rewrite X. unfold den. rewrite firstn_all2; auto.
  apply valid_length in V2. lia.
Qed.

Lemma op1_spec : forall f a base, callable veq [a] ->
  exists r, torch_op1 veq anc_unwrap top_ctx f (PT a) base = Ok (PT r) /\
    splates r = splates a /\ s_event_shape r = s_event_shape a /\ wf r /\
    sparents r = [sid a] /\ s_stochastic r = false /\ sid r = base + 1 /\
    forall s e, in_range s (splates a) -> valid e (s_event_shape a) -> den r s e = f (den a s e).
Proof.
  intros f a base HC.
  destruct (prepare_args_laid_out veq anc_unwrap [PT a] [] default_opts [a]) as [args' [kwargs' [E [F1 F2]]]]; auto.
  { repeat constructor. }
  inversion F1 as [|? x1 ? r1 U1 F1']; subst. inversion F1'; subst. inversion F2; subst.
  inversion U1 as [? u1 L1| | | | | | | |]; subst.
  unfold torch_op1, handle_deterministic. cbn [top_ctx c_stochastic]. rewrite E. cbn [bind torch_fn1 c_ignore].
  rewrite filter_none. cbn [prepare_outputs default_opts o_flatten bind].
  assert (Hw : wf a) by (destruct HC as [H _]; inversion H; auto).
  rewrite all_plates_single in *. change (max_event [a]) with (Nat.max 0 (s_event_dims a)) in L1. simpl Nat.max in L1.
  destruct (laid_out_self _ _ _ Hw L1) as [Hs X].
  destruct (mk_tensor_good (base + 1) (tmap f u1) (map sid [a]) (splates a) false (s_event_shape a))
    as [r [Hr [G1 [G2 [G3 [G4 [G5 [G6 G7]]]]]]]].
  { apply (wf_names a Hw). } { apply (wf_pos a Hw). } { simpl. rewrite <- Hs. apply (wf_shape a Hw). }
  rewrite Hr. cbn [bind]. exists r.
  refine (conj eq_refl (conj G3 (conj G6 (conj G7 (conj G4 (conj G5 (conj G1 _))))))).
  intros s e Hsr He. unfold den. rewrite G2, G3. simpl. f_equal. symmetry. apply X.
  rewrite (wf_shape a Hw). unfold valid. apply Forall2_app; auto. apply in_range_valid. now apply in_range_wide.
Qed.

Lemma zip_clip_nil : forall idx, zip_clip [] idx = [].
Proof. reflexivity. Qed.
Lemma bshape_nil_r : forall s, bshape s [] = Some s.
Proof.
  intros s. unfold bshape. replace (bshape_rev (rev s) (rev [])) with (Some (rev s)) by (destruct (rev s); reflexivity).
  simpl. now rewrite rev_involutive.
Qed.
Lemma bshape_nil_l : forall s, bshape [] s = Some s.
Proof. intros s. unfold bshape. simpl. now rewrite rev_involutive. Qed.

(** Operations of a storch tensor with a raw scalar on either side. *)
Lemma op2_scalar : forall f (c : V) a base (left : bool), callable veq [a] ->
  exists r, torch_op2 veq anc_unwrap top_ctx f (if left then PRaw (tscalar c) else PT a)
                                               (if left then PT a else PRaw (tscalar c)) base = Ok (PT r) /\
    splates r = splates a /\ s_event_shape r = s_event_shape a /\ wf r /\
    sparents r = [sid a] /\ s_stochastic r = false /\ sid r = base + 1 /\
    forall s e, in_range s (splates a) -> valid e (s_event_shape a) ->
      den r s e = if left then f c (den a s e) else f (den a s e) c.
Proof.
  intros f c a base left HC.
  assert (Hw : wf a) by (destruct HC as [H _]; inversion H; auto).
  set (g := fun v => if left then f c v else f v c).
  assert (P : exists u1, teq (st a) u1 /\
    prepare_args veq anc_unwrap [if left then PRaw (tscalar c) else PT a; if left then PT a else PRaw (tscalar c)] [] default_opts
    = Ok ([if left then PRaw (tscalar c) else PRaw u1; if left then PRaw u1 else PRaw (tscalar c)], [], [a], splates a)).
  { destruct (prepare_args_laid_out veq anc_unwrap [if left then PRaw (tscalar c) else PT a; if left then PT a else PRaw (tscalar c)] [] default_opts [a]) as [args' [kwargs' [E [F1 F2]]]]; auto.
    { destruct left; reflexivity. }
    { destruct left; repeat constructor. }
    rewrite all_plates_single in *. change (max_event [a]) with (Nat.max 0 (s_event_dims a)) in F1. simpl Nat.max in F1.
    inversion F1 as [|? x1 ? r1 U1 F1']; subst. inversion F1' as [|? x2 ? r2 U2 F1'']; subst. inversion F1''; subst. inversion F2; subst.
    destruct left.
    - inversion U1; subst. inversion U2 as [? u1 L1| | | | | | | |]; subst. exists u1. split; auto. eapply laid_out_self; eauto.
    - inversion U2; subst. inversion U1 as [? u1 L1| | | | | | | |]; subst. exists u1. split; auto. eapply laid_out_self; eauto. }
  destruct P as [u1 [[Hs X] E]].
  unfold torch_op2, handle_deterministic. cbn [top_ctx c_stochastic]. rewrite E. cbn [bind c_ignore].
  assert (Ef : exists t, torch_fn2 f [if left then PRaw (tscalar c) else PRaw u1; if left then PRaw u1 else PRaw (tscalar c)] [] = Ok (PRaw t) /\
     shape t = shape (st a) /\ forall idx, valid idx (shape (st a)) -> el t idx = g (el (st a) idx)).
  { destruct left; cbn [torch_fn2]; unfold elementwise2; simpl shape.
    - rewrite bshape_nil_l. cbn [bind]. eexists. split; [reflexivity|]. split; [simpl; congruence|].
      intros idx Hi. simpl. unfold g. rewrite X by auto. rewrite bidx_valid by congruence. reflexivity.
    - rewrite bshape_nil_r. cbn [bind]. eexists. split; [reflexivity|]. split; [simpl; congruence|].
      intros idx Hi. simpl. unfold g. rewrite X by auto. rewrite bidx_valid by congruence. reflexivity. }
  destruct Ef as [t [Et [St Xt]]]. rewrite Et. cbn [bind]. rewrite filter_none.
  cbn [prepare_outputs default_opts o_flatten bind].
  destruct (mk_tensor_good (base + 1) t (map sid [a]) (splates a) false (s_event_shape a))
    as [r [Hr [G1 [G2 [G3 [G4 [G5 [G6 G7]]]]]]]].
  { apply (wf_names a Hw). } { apply (wf_pos a Hw). } { rewrite St. apply (wf_shape a Hw). }
  rewrite Hr. cbn [bind]. exists r.
  refine (conj eq_refl (conj G3 (conj G6 (conj G7 (conj G4 (conj G5 (conj G1 _))))))).
  intros s e Hsr He. unfold den. rewrite G2, G3. rewrite Xt; auto.
  rewrite (wf_shape a Hw). unfold valid. apply Forall2_app; auto. apply in_range_valid. now apply in_range_wide.
Qed.

End OpProofs.
