(** Proofs about storch tensors next to torch tensors. *)
From Coq Require Import String List Arith Bool Lia.
From Verif Require Import Base Torch Plates Wrap SpecTensor SpecWrap SpecSample ListLemmas IndexLemmas WrapProofs PlateEqProofs AlignProofs CallProofs CallProofs2 OpProofs CallN CallV.
Import ListNotations.
Open Scope nat_scope.
Open Scope list_scope.

Lemma bshape_rev_front : forall a p b, length b <= length a -> bshape_rev (a ++ p) b = option_map (fun r => r ++ p) (bshape_rev a b).
Proof.
  induction a as [|x a IH]; intros p b L; destruct b as [|y b]; simpl in *; try lia; [destruct p; reflexivity|reflexivity|].
  rewrite IH by lia. destruct (bshape_rev a b) as [r|]; simpl; auto. destruct (x =? y); [reflexivity|]. destruct (x =? 1); [reflexivity|]. destruct (y =? 1); reflexivity.
Qed.
Lemma bshape_front : forall p a b, length b <= length a -> bshape (p ++ a) b = option_map (app p) (bshape a b).
Proof.
  intros p a b L. unfold bshape. rewrite rev_app_distr, bshape_rev_front by (rewrite !rev_length; lia).
  destruct (bshape_rev (rev a) (rev b)) as [r|]; simpl; auto. f_equal. now rewrite rev_app_distr, rev_involutive.
Qed.
Lemma bshape_rev_sym : forall a b, bshape_rev a b = bshape_rev b a.
Proof.
  induction a as [|x a IH]; intros [|y b]; simpl; auto. rewrite IH. destruct (bshape_rev b a); auto.
  destruct (Nat.eqb_spec x y) as [->|H]; [now rewrite Nat.eqb_refl|]. destruct (Nat.eqb_spec y x); [congruence|].
  destruct (Nat.eqb_spec x 1), (Nat.eqb_spec y 1); subst; auto; congruence.
Qed.
Lemma bshape_sym : forall a b, bshape a b = bshape b a.
Proof. intros. unfold bshape. now rewrite bshape_rev_sym. Qed.
Lemma bshape_rev_len : forall a b c, length b <= length a -> bshape_rev a b = Some c -> length c = length a.
Proof.
  induction a as [|x a IH]; intros [|y b] c L H; simpl in *; try lia; try (injection H as <-; reflexivity).
  destruct (bshape_rev a b) as [r|] eqn:E; [|discriminate]. assert (length r = length a) by (apply (IH b); [lia|exact E]).
  destruct (x =? y); [injection H as <-; simpl; lia|]. destruct (x =? 1); [injection H as <-; simpl; lia|]. destruct (y =? 1); [injection H as <-; simpl; lia|discriminate].
Qed.
Lemma bshape_len : forall a b c, length b <= length a -> bshape a b = Some c -> length c = length a.
Proof.
  intros a b c L H. unfold bshape in H. destruct (bshape_rev (rev a) (rev b)) as [r|] eqn:E; [|discriminate]. injection H as <-.
  rewrite rev_length. apply bshape_rev_len in E; rewrite ?rev_length in *; lia.
Qed.
Lemma bidx_front : forall w x e, length w <= length e -> bidx w (x ++ e) = bidx w e.
Proof.
  intros w x e L. unfold bidx. rewrite app_length. replace (length x + length e - length w) with (length x + (length e - length w)) by lia.
  rewrite skipn_app, skipn_all2 by lia. cbn [app]. f_equal. f_equal. lia.
Qed.
Lemma clip_valid_rev : forall a b c idx, length b <= length a -> bshape_rev a b = Some c -> valid idx c -> valid (zip_clip a idx) a.
Proof.
  induction a as [|x a IH]; intros [|y b] c idx L H V; simpl in *; try lia.
  - constructor.
  - injection H as <-. inversion V; subst. simpl. constructor; [destruct (Nat.eqb_spec x 1); lia|]. eapply IH with (b := []); [simpl; lia|destruct a; reflexivity|auto].
  - destruct (bshape_rev a b) as [r|] eqn:E; [|discriminate].
    assert (X : forall k, Some (k :: r) = Some c -> k = x \/ x = 1 -> valid (zip_clip (x :: a) idx) (x :: a)).
    { intros k Hk Hx. injection Hk as <-. inversion V; subst. simpl. constructor; [destruct (Nat.eqb_spec x 1); lia|]. eapply IH with (b := b); eauto; lia. }
    change (valid (zip_clip (x :: a) idx) (x :: a)).
    destruct (Nat.eqb_spec x y); [eapply X; eauto|]. destruct (Nat.eqb_spec x 1); [eapply X; eauto|]. destruct (Nat.eqb_spec y 1); [eapply X; eauto|discriminate].
Qed.
Lemma zip_clip_rev : forall a i, length i = length a -> zip_clip (rev a) (rev i) = rev (zip_clip a i).
Proof.
  induction a as [|x a IH]; intros [|k i] L; simpl in *; try lia; auto. rewrite zip_clip_app by (rewrite !rev_length; lia). rewrite IH by lia. reflexivity.
Qed.
Lemma valid_rev : forall i s, valid i s -> valid (rev i) (rev s).
Proof. intros i s H. induction H; simpl; [constructor|]. apply Forall2_app; auto. Qed.
Lemma clip_valid : forall a b c idx, length b <= length a -> bshape a b = Some c -> valid idx c -> valid (bidx a idx) a.
Proof.
  intros a b c idx L H V. pose proof (bshape_len _ _ _ L H) as Lc. pose proof (valid_length _ _ V) as Li.
  rewrite bidx_same by lia. unfold bshape in H. destruct (bshape_rev (rev a) (rev b)) as [r|] eqn:E; [|discriminate]. injection H as <-.
  assert (V' : valid (rev idx) r) by (rewrite <- (rev_involutive r); now apply valid_rev).
  apply clip_valid_rev with (idx := rev idx) in E; auto; [|rewrite !rev_length; lia].
  rewrite zip_clip_rev in E by lia. apply valid_rev in E. now rewrite !rev_involutive in E.
Qed.

Section SharedProofs.
Context {V : Type}.
Variable veq : V -> V -> bool.
Variable anc_unwrap : plate V -> stensor V -> res (stensor V).
Notation plate := (plate V).
Notation stensor := (stensor V).
Notation N l := (map (@pname V) l).

Definition ord {A} (flip : bool) (x y : A) : list A := if flip then [y; x] else [x; y].
Definition ew (f : V -> V -> V) (flip : bool) (t u : ten V) : res (ten V) := if flip then elementwise2 f u t else elementwise2 f t u.

Lemma ew_spec : forall f (flip : bool) (t w : ten V) s, bshape (shape t) (shape w) = Some s ->
  exists r, ew f flip t w = Ok r /\ shape r = s /\
    forall i, el r i = (if flip then f (el w (bidx (shape w) i)) (el t (bidx (shape t) i)) else f (el t (bidx (shape t) i)) (el w (bidx (shape w) i))).
Proof.
  intros f flip t w s H. unfold ew, elementwise2. destruct flip; [rewrite bshape_sym|]; rewrite H; eexists; (split; [reflexivity|split; reflexivity]).
Qed.
Lemma ew_fail : forall f (flip : bool) (t w : ten V), bshape (shape t) (shape w) = None -> ew f flip t w = Err RuntimeError.
Proof. intros f flip t w H. unfold ew, elementwise2. destruct flip; [rewrite bshape_sym|]; now rewrite H. Qed.

(** The call on the torch tensors. *)
Lemma op_raw : forall f (flip : bool) (a : stensor) (w : ten V) base, callable veq [a] ->
  exists u, shape u = map pn (wide (splates a)) ++ s_event_shape a /\
    (forall (s : assignment) e, in_range s (splates a) -> valid e (s_event_shape a) -> el u (map (fun p => s (pname p)) (wide (splates a)) ++ e) = den a s e) /\
    let call := torch_op2 veq anc_unwrap top_ctx f (if flip then PRaw w else PT a) (if flip then PT a else PRaw w) base in
    (forall e, ew f flip u w = Err e -> call = Err e) /\
    (forall t evc, ew f flip u w = Ok t -> shape t = map pn (wide (splates a)) ++ evc -> exists r, call = Ok (PT r) /\ made [a] evc t r) /\
    (forall t, ew f flip u w = Ok t -> (forall evc, shape t <> map pn (wide (splates a)) ++ evc) -> call = Err ValueError).
Proof.
  intros f flip a w base HC.
  assert (Ea : all_plates [a] = splates a) by apply all_plates_single.
  assert (Ew : wf a) by (destruct HC as [H _]; inversion H; auto).
  destruct (prepare_args_laid_out veq anc_unwrap (ord flip (PT a) (PRaw w)) [] default_opts [a]) as [args' [kwargs' [E [F1 F2]]]]; auto.
  { destruct flip; reflexivity. } { destruct flip; repeat constructor. }
  change (max_event [a]) with (s_event_dims a) in F1. rewrite Ea in F1. inversion F2; subst.
  assert (X : exists u, args' = ord flip (PRaw u) (PRaw w) /\ laid_out (wide (splates a)) false (s_event_dims a) a u).
  { destruct flip; cbn [ord] in F1; inversion F1 as [|? x ? ? H1 H2]; subst; inversion H2 as [|? y ? ? H3 H4]; subst; inversion H4; subst;
      inversion H1; subst; inversion H3; subst; eexists; (split; [reflexivity|auto]). }
  destruct X as [u [-> L]]. destruct (laid_out_self a false u Ew L) as [S T]. exists u.
  split; [rewrite <- S; apply Ew|]. split.
  { intros s e Hs He. unfold den. symmetry. apply T. rewrite (wf_shape a Ew). apply Forall2_app; auto. apply valid_choice. now apply in_range_wide_all. }
  cbv zeta.
  destruct (call_done veq anc_unwrap (torch_fn2 f) _ _ _ _ [a] default_opts base ltac:(discriminate) HC eq_refl E) as [K1 [K2 [K3 _]]].
  rewrite Ea in K2, K3.
  assert (R : torch_fn2 f (ord flip (PRaw u) (PRaw w)) [] = do r <- ew f flip u w; Ok (PRaw r)) by (destruct flip; reflexivity).
  assert (R' : torch_op2 veq anc_unwrap top_ctx f (if flip then PRaw w else PT a) (if flip then PT a else PRaw w) base = handle_deterministic veq anc_unwrap top_ctx (torch_fn2 f) (ord flip (PT a) (PRaw w)) [] [] default_opts base) by (destruct flip; reflexivity).
  rewrite R'. rewrite R in K1, K2, K3. split; [|split].
  - intros e He. apply K1. now rewrite He.
  - intros t evc Ht Hs. apply (K2 t evc); auto. now rewrite Ht.
  - intros t Ht Hs. apply (K3 t); auto. now rewrite Ht.
Qed.

Theorem shared_spec : forall f (flip : bool) (a : stensor) (w : ten V) base, callable veq [a] -> ndim w <= s_event_dims a ->
  let call := torch_op2 veq anc_unwrap top_ctx f (if flip then PRaw w else PT a) (if flip then PT a else PRaw w) base in
  let one s := if flip then elementwise2 f w (at_sample s a) else elementwise2 f (at_sample s a) w in
  (exists r, call = Ok (PT r) /\ splates r = splates a /\ wf r /\ sparents r = [sid a] /\
     forall s, in_range s (splates a) -> exists t, one s = Ok t /\ teq t (at_sample s r)) \/
  (call = Err RuntimeError /\ forall s, one s = Err RuntimeError).
Proof.
  intros f flip a w base HC Hn call one. destruct (op_raw f flip a w base HC) as [u [S [X [K1 [K2 _]]]]]. fold call in K1, K2.
  unfold ndim in Hn. unfold s_event_dims in Hn.
  destruct (bshape (s_event_shape a) (shape w)) as [ec|] eqn:B.
  - left. destruct (ew_spec f flip u w (map pn (wide (splates a)) ++ ec)) as [t [T1 [T2 T3]]].
    { rewrite S, bshape_front by auto. now rewrite B. }
    destruct (K2 t ec T1 T2) as [r [R1 [R2 [R3 [R4 [R5 [R6 R7]]]]]]]. rewrite all_plates_single in R2. exists r.
    split; [exact R1|]. split; [exact R2|]. split; [exact R5|]. split; [exact R6|]. intros s Hs.
    destruct (ew_spec f flip (at_sample s a) w ec B) as [t1 [U1 [U2 U3]]]. exists t1. split; [exact U1|]. split; [rewrite U2; cbn [at_sample shape]; auto|].
    intros e He. rewrite U2 in He. rewrite U3. cbn [at_sample el shape]. unfold den at 3. rewrite R3, R2, T3. pose proof (valid_length _ _ He) as Le.
    pose proof (bshape_len _ _ _ Hn B) as Lb.
    rewrite (bidx_front (shape w)) by lia.
    assert (C : el u (bidx (shape u) (map (fun p => s (pname p)) (wide (splates a)) ++ e)) = den a s (bidx (s_event_shape a) e)).
    { rewrite S, bidx_same by (rewrite !app_length, !map_length; lia). rewrite zip_clip_app by now rewrite !map_length.
      rewrite zip_clip_valid by (apply valid_choice; now apply in_range_wide_all). rewrite <- bidx_same by lia. apply X; auto. eapply clip_valid; eauto. }
    rewrite C. destruct flip; reflexivity.
  - right. split; [apply K1; apply ew_fail; rewrite S, bshape_front by auto; now rewrite B|]. intros s. apply (ew_fail f flip (at_sample s a) w B).
Qed.

(** A torch vector next to numbers: it is taken for the samples of the last plate. *)
Theorem shared_vector : forall f (flip : bool) (a : stensor) (w : ten V) base p k, callable veq [a] -> s_event_shape a = [] ->
  last (wide (splates a)) p = p -> wide (splates a) <> [] -> shape w = [k] -> k <> 1 ->
  let call := torch_op2 veq anc_unwrap top_ctx f (if flip then PRaw w else PT a) (if flip then PT a else PRaw w) base in
  (k <> pn p -> call = Err RuntimeError) /\
  (k = pn p -> exists r, call = Ok (PT r) /\ splates r = splates a /\ s_event_shape r = [] /\
     forall s, in_range s (splates a) -> den r s [] = if flip then f (el w [s (pname p)]) (den a s []) else f (den a s []) (el w [s (pname p)])).
Proof.
  intros f flip a w base p k HC He Hl Hne Hw Hk call. destruct (op_raw f flip a w base HC) as [u [S [X [K1 [K2 _]]]]]. fold call in K1, K2.
  rewrite He, app_nil_r in S. pose proof (app_removelast_last p Hne) as EL. rewrite Hl in EL. set (l := removelast (wide (splates a))) in *.
  assert (Hp : 1 < pn p). { assert (In p (wide (splates a))) by (rewrite EL; apply in_or_app; simpl; auto). apply In_wide in H. tauto. }
  rewrite EL, map_app in S. cbn [map] in S.
  split.
  - intros Hkp. apply K1. apply ew_fail. rewrite S, Hw, bshape_front by (simpl; lia). unfold bshape. cbn [rev app bshape_rev].
    destruct (Nat.eqb_spec (pn p) k); [congruence|]. destruct (Nat.eqb_spec (pn p) 1); [lia|]. destruct (Nat.eqb_spec k 1); [lia|]. reflexivity.
  - intros Hkp. destruct (ew_spec f flip u w (map pn l ++ [pn p])) as [t [T1 [T2 T3]]].
    { rewrite S, Hw, bshape_front by (simpl; lia). unfold bshape. cbn [rev app bshape_rev]. rewrite Hkp, Nat.eqb_refl. reflexivity. }
    destruct (K2 t [] T1) as [r [R1 [R2 [R3 [R4 _]]]]]; [rewrite T2, EL, map_app, app_nil_r; reflexivity|]. rewrite all_plates_single in R2.
    exists r. split; [exact R1|]. split; [exact R2|]. split; [exact R4|]. intros s Hs. unfold den at 1. rewrite R3, R2, T3. rewrite !app_nil_r.
    pose proof (in_range_wide_all s (splates a) Hs) as Hs'. pose proof (valid_choice s _ Hs') as HV.
    assert (C : el u (bidx (shape u) (map (fun p0 => s (pname p0)) (wide (splates a)))) = den a s []).
    { rewrite bidx_valid; [|rewrite S; rewrite EL, map_app in HV |- *; rewrite map_app in HV; exact HV].
      specialize (X s [] Hs). rewrite app_nil_r in X. apply X. rewrite He. constructor. }
    assert (D : bidx (shape w) (map (fun p0 => s (pname p0)) (wide (splates a))) = [s (pname p)]).
    { rewrite EL, map_app, Hw. cbn [map]. rewrite bidx_front by (simpl; lia). unfold bidx. simpl. destruct (k =? 1) eqn:Ek; [apply Nat.eqb_eq in Ek; lia|reflexivity]. }
    rewrite C, D. destruct flip; reflexivity.
Qed.
End SharedProofs.
