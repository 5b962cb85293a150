(** Proofs about assigning to parts of storch tensors. *)
From Coq Require Import String List Arith Bool ZArith Lia.
From Verif Require Import Base Torch Plates Wrap TensorFns SpecTensor SpecWrap SpecReduce SpecSample SpecIndex ListLemmas IndexLemmas WrapProofs PlateEqProofs AlignProofs CallProofs CallProofs2 OpProofs CallV SharedProofs GetitemProofs IndexProofs ReduceProofs2 Setitem.
Import ListNotations.
Open Scope nat_scope.
Open Scope list_scope.

(** Different elements of the result of an index are different elements of the tensor. *)
Lemma picks_injective : forall b l shp e j, picks b l shp e j -> forall e', picks b l shp e' j -> e = e'.
Proof.
  intros b l shp e j H. induction H; intros e' H'; inversion H'; subst; auto.
  - f_equal; auto.
  - f_equal; auto.
  - f_equal; auto; lia.
  - assert (L : length q0 = length q).
    { match goal with X : q0 ++ ?s = q ++ shp, Y : picks true r ?s _ _ |- _ => pose proof (picks_consumed _ _ _ _ Y); pose proof (picks_consumed _ _ _ _ H0); apply (f_equal (@length nat)) in X; rewrite !app_length in X end. lia. }
    match goal with X : q0 ++ ?s = q ++ shp |- _ => destruct (app_same _ _ _ _ L X) as [-> ->] end.
    assert (L' : length x0 = length x) by (match goal with Y : valid x0 _ |- _ => apply valid_length in Y; apply valid_length in H; congruence end).
    match goal with X : x0 ++ ?s = x ++ j |- _ => destruct (app_same _ _ _ _ L' X) as [-> ->] end.
    f_equal; auto.
Qed.

(** Every element of the documented result has one place. *)
Lemma places_front : forall items full q ev evc, leaves_front items full (length q) (length ev) -> indexed false items ev evc ->
  exists p, torch_index full (mkten (q ++ ev) (fun i => i)) = Ok p /\ shape p = q ++ evc /\
    forall x j, length x = length q -> valid j evc -> exists e, picks false items ev j e /\ el p (x ++ j) = x ++ e.
Proof.
  intros items full q ev evc HL HI. destruct (torch_index_documented items (mkten ev (fun e : list nat => e))) as [D _]. destruct (D evc HI) as [t1 [T1 [T2 T3]]].
  pose proof (torch_index_front items full q ev (mkten (q ++ ev) (fun i => i)) HL eq_refl) as F. rewrite torch_index_map in F. cbn [shape el] in *. rewrite T1 in *. cbn [shape el] in F.
  destruct F as [t [F1 [F2 [_ F3]]]]. exists t. split; [exact F1|]. split; [congruence|]. intros x j Hx Hj. destruct (T3 j Hj) as [e [E1 E2]]. exists e. split; [exact E1|]. rewrite F3 by exact Hx. now rewrite E2.
Qed.
Lemma fit_short : forall {A} s (v : ten A), ndim v <= length s -> exists v', teq v v' /\ fit_value s v = expand s v' /\ shape v' = shape v /\ el v' = fun i => el v i.
Proof.
  intros A s v H. unfold fit_value. replace (ndim v - length s) with 0 by lia. cbn [firstn forallb skipn repeat app].
  exists (mkten (shape v) (fun i => el v i)). cbn [shape el]. repeat split; auto.
Qed.

Lemma torch_assign_front : forall {A} items full q ev evc (u w : ten A), leaves_front items full (length q) (length ev) -> indexed false items ev evc -> shape u = q ++ ev -> ndim w <= length q + length evc ->
  (expandable_rev (rev (shape w)) (rev (q ++ evc)) = true -> exists t, torch_assign full u w = Ok t /\ shape t = q ++ ev /\
     forall x e, valid x q -> (forall j, picks false items ev j e -> valid j evc -> el t (x ++ e) = el w (bidx (shape w) (x ++ j))) /\ ((forall j, valid j evc -> ~ picks false items ev j e) -> el t (x ++ e) = el u (x ++ e))) /\
  (expandable_rev (rev (shape w)) (rev (q ++ evc)) = false -> torch_assign full u w = Err RuntimeError).
Proof.
  intros A items full q ev evc u w HL HI Hu Hw. destruct (places_front _ _ q _ _ HL HI) as [p [P1 [P2 P3]]]. unfold torch_assign. rewrite Hu, P1. cbn [bind].
  destruct (fit_short (shape p) w) as [w' [_ [W1 [W2 W3]]]]; [rewrite P2, app_length; exact Hw|]. rewrite W1, P2. unfold expand. rewrite W2, W3.
  split; intros HE; rewrite HE; cbn [bind]; [|reflexivity]. eexists. split; [reflexivity|]. split; [reflexivity|]. cbn [el shape]. intros x e Hx.
  assert (Hf : forall y, In y (indices (q ++ evc)) -> list_eqb (el p y) (x ++ e) = true -> exists j, y = x ++ j /\ valid j evc /\ picks false items ev j e).
  { intros y Hy E. apply in_indices in Hy. apply list_eqb_eq in E. apply Forall2_app_inv_r in Hy. destruct Hy as [x' [j [V1 [V2 ->]]]]. pose proof (valid_length _ _ V1) as L1. pose proof (valid_length _ _ Hx) as L2.
    destruct (P3 x' j L1 V2) as [e' [E1 E2]]. rewrite E2 in E. destruct (app_same _ _ _ _ (eq_trans L1 (eq_sym L2)) E) as [-> ->]. eauto. }
  destruct (find _ _) as [y|] eqn:F.
  - apply find_some in F. destruct F as [F1 F2]. destruct (Hf y F1 F2) as [j [-> [J1 J2]]]. split.
    + intros j' K1 _. now rewrite (picks_injective _ _ _ _ _ K1 _ J2).
    + intros K. exfalso. eapply K; eauto.
  - split; [|reflexivity]. intros j K1 K2. exfalso. pose proof (valid_length _ _ Hx) as L2. destruct (P3 x j L2 K2) as [e' [E1 E2]]. rewrite (picks_functional _ _ _ _ _ K1 _ E1) in F.
    eapply find_none in F; [|apply in_indices; apply Forall2_app; [exact Hx|exact K2]]. cbv beta in F. rewrite E2 in F. rewrite (proj2 (list_eqb_eq _ _) eq_refl) in F. discriminate.
Qed.

Section SetitemProofs.
Context {V : Type}.
Variable veq : V -> V -> bool.
Variable anc_unwrap : plate V -> stensor V -> res (stensor V).
Notation plate := (plate V).
Notation stensor := (stensor V).
Notation N l := (map (@pname V) l).

(** Without left-broadcasting every storch tensor is laid out with its own event dimensions. *)
Lemma prepare_own : forall args (ts : list stensor), ts = call_tensors args [] -> callable veq ts -> Forall (@no_distr V) args ->
  exists args', prepare_args veq anc_unwrap args [] getitem_opts = Ok (args', [], ts, all_plates ts) /\
    Forall2 (unwrapped (fun t u => laid_out (wide (all_plates ts)) false (s_event_dims t) t u)) args args'.
Proof.
  intros args ts Ht HC ND.
  destruct (prepare_args_gen veq anc_unwrap (fun t u => laid_out (wide (all_plates ts)) false (s_event_dims t) t u) args [] getitem_opts ts) as [args' [kwargs' [E [F1 F2]]]]; auto.
  { intros t Hin. destruct (unwrap_side veq anc_unwrap ts t HC Hin) as [S1 [S2 [S3 [S4 [S5 [S6 [S7 S8]]]]]]].
    set (o' := mkW true true true false false None None).
    destruct (unwrap_tensor_spec veq anc_unwrap (wide (all_plates ts)) o' (s_event_dims t) t (flat_map splates ts)) as [u [U1 U2]]; auto; [apply HC|].
    exists u. split; [|exact U2]. rewrite <- U1. unfold unwrap_tensor. cbn [o' getitem_opts o_align o_flatten o_lbroadcast o_expand negb andb orb].
    destruct (foldM _ (wide (all_plates ts)) t) as [a'|] eqn:Ea; [|reflexivity]. cbn [bind].
    assert (a' = t) as ->.
    { revert Ea. clear -S7. induction (wide (all_plates ts)) as [|p l IH]; simpl; [congruence|]. rewrite (S7 p) by (simpl; auto). cbn [bind]. apply IH. intros q Hq. apply S7. simpl; auto. }
    rewrite Nat.ltb_irrefl. reflexivity. }
  inversion F2; subst. eauto.
Qed.

Lemma fits_expandable : forall (w s : list nat), Forall2 (fun d n => d = n \/ d = 1) w s -> expandable_rev w s = true.
Proof. intros w s H. induction H as [|d n w s [->| ->] H IH]; simpl; auto; rewrite IH, ?Nat.eqb_refl, ?orb_true_r; reflexivity. Qed.
Lemma fits_rev : forall (w s : list nat), Forall2 (fun d n => d = n \/ d = 1) w s -> expandable_rev (rev w) (rev s) = true.
Proof. intros w s H. apply fits_expandable. induction H; simpl; [constructor|]. apply Forall2_app; auto. Qed.
Lemma expandable_length : forall (a b : list nat), length a <= length b -> expandable_rev a b = true -> Forall2 (fun d n => d = n \/ d = 1) a (firstn (length a) b).
Proof.
  induction a as [|x a IH]; intros [|y b] L H; simpl in *; try lia; try constructor. { apply andb_prop in H. destruct H as [H _]. apply orb_prop in H. rewrite !Nat.eqb_eq in H. exact H. }
  apply IH; [lia|]. apply andb_prop in H. apply H.
Qed.

(** What is seen through the storch tensor after its view [u] of the same shape has become [t]. *)
Lemma seen : forall (a : stensor) (t : ten V) s e, wf a -> shape t = map pn (wide (splates a)) ++ s_event_shape a ->
  el (through_view (s_plate_dims a) (st a) t) (map (fun p => s (pname p)) (wide (splates a)) ++ e) = el t (map (fun p => s (pname p)) (wide (splates a)) ++ e).
Proof.
  intros a t s e W Ht. unfold through_view, ndim. cbn [el]. rewrite Ht, (wf_shape a W), Nat.sub_diag, (wf_dims a W). cbn [repeat app].
  now rewrite firstn_skipn.
Qed.
Lemma wf_written : forall (a : stensor) t, wf a -> wf (mkS (sid a) (through_view (s_plate_dims a) (st a) t) (splates a) (s_plate_dims a) (s_event_shape a) (sparents a) (s_stochastic a)).
Proof. intros a t [W1 W2 W3 W4]. constructor; assumption. Qed.
Lemma own_view : forall (a : stensor) u, wf a -> laid_out (wide (splates a)) false (s_event_dims a) a u ->
  shape u = map pn (wide (splates a)) ++ s_event_shape a /\ forall s e, in_range s (splates a) -> valid e (s_event_shape a) -> el u (map (fun p => s (pname p)) (wide (splates a)) ++ e) = den a s e.
Proof.
  intros a u W L. destruct (laid_out_self a false u W L) as [T1 T2]. rewrite (wf_shape a W) in *. split; [auto|]. intros s e Hs He. symmetry. apply T2.
  apply Forall2_app; [|exact He]. apply valid_choice. now apply in_range_wide_all.
Qed.

Theorem setitem_spec : forall (a v : stensor) items full evc base, callable veq [a; v] -> (forall p, In p (splates v) -> In (pname p) (N (splates a))) ->
  leaves_front items full (length (wide (splates a))) (length (s_event_shape a)) -> indexed false items (s_event_shape a) evc -> Forall2 (fun d n => d = n \/ d = 1) (s_event_shape v) evc ->
  exists r, setitem veq anc_unwrap a full (PT v) base = Ok r /\ sid r = sid a /\ splates r = splates a /\ s_event_shape r = s_event_shape a /\ sparents r = sparents a /\ wf r /\
    forall s e, in_range s (splates a) -> valid e (s_event_shape a) ->
      (forall j, valid j evc -> picks false items (s_event_shape a) j e -> den r s e = den v s (proj (s_event_shape v) j)) /\
      ((forall j, valid j evc -> ~ picks false items (s_event_shape a) j e) -> den r s e = den a s e).
Proof.
  intros a v items full evc base HC HS HL HI HF. pose proof (proj1 HC) as Hw. inversion Hw as [|? ? Wa Hw1]; subst. inversion Hw1 as [|? ? Wv _]; subst.
  destruct (prepare_own [PT a; PT v] [a; v] eq_refl HC) as [args' [E F]]; [repeat constructor|].
  assert (AP : all_plates [a; v] = splates a) by (unfold all_plates; cbn [fold_left]; rewrite union_nil_l; now apply union_sub). rewrite AP in *.
  inversion F as [|? ? ? ? U F1]; subst. inversion U as [? u Lu| | | | | | | | ]; subst. inversion F1 as [|? ? ? ? U' F2]; subst. inversion U' as [? w Lw| | | | | | | | ]; subst. inversion F2; subst.
  unfold setitem. rewrite E. cbn [bind]. destruct (own_view a u Wa Lu) as [Su Xu]. destruct Lw as [Sw Xw]. unfold s_event_dims in Sw, Xw. rewrite pad_self in Sw, Xw.
  set (mw := map (fun p => if has (splates v) (pname p) || false then pn p else 1) (wide (splates a))) in *.
  assert (Lm : length mw = length (map pn (wide (splates a)))) by (unfold mw; now rewrite !map_length).
  assert (LF : length (s_event_shape v) = length evc) by (clear -HF; induction HF; simpl; congruence).
  destruct (torch_assign_front items full (map pn (wide (splates a))) (s_event_shape a) evc u w) as [T _]; auto.
  { now rewrite map_length. } { unfold ndim. rewrite Sw, app_length. lia. }
  destruct T as [t [T1 [T2 T3]]].
  { rewrite Sw. apply fits_rev. apply Forall2_app; [|exact HF]. unfold mw. clear. induction (wide (splates a)) as [|p l IH]; constructor; auto. destruct (_ || _); auto. }
  rewrite T1. cbn [bind prepare_outputs]. eexists. split; [reflexivity|]. cbn [sid splates s_event_shape sparents]. do 4 (split; [reflexivity|]). split; [now apply wf_written|].
  intros s e Hs He. unfold den at 1 3. cbn [st splates]. rewrite seen by auto. pose proof (in_range_wide_all s _ Hs) as Hs'. destruct (T3 (map (fun p => s (pname p)) (wide (splates a))) e (valid_choice s _ Hs')) as [K1 K2]. split.
  - intros j J1 J2. rewrite (K1 j J2 J1), Sw. rewrite bidx_same by (rewrite !app_length, Lm, !map_length, (valid_length _ _ J1), LF; reflexivity).
    rewrite zip_clip_app by (now rewrite Lm, !map_length).
    assert (Z : zip_clip mw (map (fun p => s (pname p)) (wide (splates a))) = map (fun p => if has (splates v) (pname p) || false then s (pname p) else 0) (wide (splates a))).
    { unfold mw. clear -V. assert (G : forall p, In p (wide (splates a)) -> 1 < pn p) by (intros p Hp; now apply In_wide in Hp). induction (wide (splates a)) as [|p l IH]; [reflexivity|]. cbn [map zip_clip].
      rewrite IH by (intros q Hq; apply G; simpl; auto). f_equal. pose proof (G p ltac:(simpl; auto)) as Gp. destruct (has (splates v) (pname p) || false); [|reflexivity]. destruct (Nat.eqb_spec (pn p) 1); auto; lia. }
    rewrite Z, <- proj_zip_clip. assert (VP : valid (proj (s_event_shape v) j) (s_event_shape v)).
    { clear -HF J1. revert j J1. induction HF as [|d n w s [->| ->] H IH]; intros j J; inversion J; subst; simpl; constructor; auto; try lia. all: try (destruct (Nat.eqb_spec n 1); lia). all: apply IH; auto. }
    rewrite Xw by auto. f_equal. rewrite firstn_all2; auto. rewrite (valid_length _ _ VP). reflexivity.
  - intros K. rewrite (K2 K). now apply Xu.
Qed.

(** Torch tensors and numbers. *)
Theorem setitem_raw : forall (a : stensor) (w : ten V) items full evc q1 q2 base, callable veq [a] ->
  leaves_front items full (length (wide (splates a))) (length (s_event_shape a)) -> indexed false items (s_event_shape a) evc -> evc = q1 ++ q2 -> Forall2 (fun d n => d = n \/ d = 1) (shape w) q2 ->
  exists r, setitem veq anc_unwrap a full (PRaw w) base = Ok r /\ sid r = sid a /\ splates r = splates a /\ s_event_shape r = s_event_shape a /\ sparents r = sparents a /\ wf r /\
    forall s e, in_range s (splates a) -> valid e (s_event_shape a) ->
      (forall j, valid j evc -> picks false items (s_event_shape a) j e -> den r s e = el w (proj (shape w) (skipn (length q1) j))) /\
      ((forall j, valid j evc -> ~ picks false items (s_event_shape a) j e) -> den r s e = den a s e).
Proof.
  intros a w items full evc q1 q2 base HC HL HI HQ HF. pose proof (proj1 HC) as Hw. inversion Hw as [|? ? Wa _]; subst.
  destruct (prepare_own [PT a; PRaw w] [a] eq_refl HC) as [args' [E F]]; [repeat constructor|]. rewrite all_plates_single in *.
  inversion F as [|? ? ? ? U F1]; subst. inversion U as [? u Lu| | | | | | | | ]; subst. inversion F1 as [|? ? ? ? U' F2]; subst. inversion U'; subst. inversion F2; subst.
  unfold setitem. rewrite E. cbn [bind]. destruct (own_view a u Wa Lu) as [Su Xu].
  assert (LF : length (shape w) = length q2) by (clear -HF; induction HF; simpl; congruence).
  destruct (torch_assign_front items full (map pn (wide (splates a))) (s_event_shape a) (q1 ++ q2) u w) as [T _]; auto.
  { now rewrite map_length. } { unfold ndim. rewrite app_length. lia. }
  destruct T as [t [T1 [T2 T3]]].
  { rewrite app_assoc, rev_app_distr. rewrite <- (app_nil_r (rev (shape w))), expandable_rev_app by (rewrite !rev_length; exact LF). rewrite fits_rev by exact HF. reflexivity. }
  rewrite T1. cbn [bind prepare_outputs]. eexists. split; [reflexivity|]. cbn [sid splates s_event_shape sparents]. do 4 (split; [reflexivity|]). split; [now apply wf_written|].
  intros s e Hs He. unfold den at 1 2. cbn [st splates]. rewrite seen by auto. pose proof (in_range_wide_all s _ Hs) as Hs'. destruct (T3 (map (fun p => s (pname p)) (wide (splates a))) e (valid_choice s _ Hs')) as [K1 K2]. split.
  - intros j J1 J2. rewrite (K1 j J2 J1). f_equal. pose proof (valid_length _ _ J1) as LJ. rewrite app_length in LJ. rewrite proj_zip_clip. rewrite <- (firstn_skipn (length q1) j) at 1. rewrite app_assoc.
    rewrite bidx_front by (rewrite skipn_length; lia). apply bidx_same. rewrite skipn_length. lia.
  - intros K. rewrite (K2 K). now apply Xu.
Qed.

(** An index that torch rejects for the event. *)
Theorem setitem_outside : forall (a v : stensor) items full base, callable veq [a; v] -> (forall p, In p (splates v) -> In (pname p) (N (splates a))) ->
  leaves_front items full (length (wide (splates a))) (length (s_event_shape a)) -> (forall evc, ~ indexed false items (s_event_shape a) evc) -> setitem veq anc_unwrap a full (PT v) base = Err IndexError.
Proof.
  intros a v items full base HC HS HL HN. pose proof (proj1 HC) as Hw. inversion Hw as [|? ? Wa Hw1]; subst.
  destruct (prepare_own [PT a; PT v] [a; v] eq_refl HC) as [args' [E F]]; [repeat constructor|].
  assert (AP : all_plates [a; v] = splates a) by (unfold all_plates; cbn [fold_left]; rewrite union_nil_l; now apply union_sub). rewrite AP in *.
  inversion F as [|? ? ? ? U F1]; subst. inversion U as [? u Lu| | | | | | | | ]; subst. inversion F1 as [|? ? ? ? U' F2]; subst. inversion U' as [? w Lw| | | | | | | | ]; subst. inversion F2; subst.
  unfold setitem. rewrite E. cbn [bind]. destruct (own_view a u Wa Lu) as [Su _]. unfold torch_assign.
  pose proof (torch_index_front items full (map pn (wide (splates a))) (s_event_shape a) (mkten (shape u) (fun i => i))) as T. rewrite map_length in T. specialize (T HL Su).
  destruct (torch_index_documented items (mkten (s_event_shape a) (fun e : list nat => e))) as [_ D]. cbn [shape] in D. rewrite (D HN) in T. now rewrite T.
Qed.

(** A value with samples of a variable the tensor assigned to does not have. *)
Theorem setitem_new : forall (a v : stensor) r evc p base, callable veq [a; v] -> In p (splates v) -> 1 < pn p -> ~ In (pname p) (N (splates a)) ->
  consumed r <= length (s_event_shape a) -> indexed false (IEllipsis :: r) (s_event_shape a) evc -> length (s_event_shape v) = length evc -> setitem veq anc_unwrap a (IEllipsis :: r) (PT v) base = Err RuntimeError.
Proof.
  intros a v r evc p base HC HP H1 HN Hr HI LE. pose proof (proj1 HC) as Hw. inversion Hw as [|? ? Wa Hw1]; subst.
  destruct (prepare_own [PT a; PT v] [a; v] eq_refl HC) as [args' [E F]]; [repeat constructor|].
  inversion F as [|? ? ? ? U F1]; subst. inversion U as [? u Lu| | | | | | | | ]; subst. inversion F1 as [|? ? ? ? U' F2]; subst. inversion U' as [? w Lw| | | | | | | | ]; subst. inversion F2; subst.
  assert (IP : In p (wide (all_plates [a; v]))).
  { apply In_wide. split; auto. unfold all_plates. cbn [fold_left]. rewrite union_nil_l. unfold union. apply in_or_app. right. apply filter_In. split; auto. destruct (has (splates a) (pname p)) eqn:Eh; auto. apply has_In in Eh. contradiction. }
  unfold setitem. rewrite E. cbn [bind]. destruct Lu as [Su _]. destruct Lw as [Sw _]. unfold s_event_dims in Su, Sw. rewrite pad_self in Su, Sw.
  destruct (torch_assign_front (IEllipsis :: r) (IEllipsis :: r) (map (fun p => if has (splates a) (pname p) || false then pn p else 1) (wide (all_plates [a; v]))) (s_event_shape a) evc u w) as [_ T]; auto.
  { right. split; auto. exists r. auto. } { unfold ndim. rewrite Sw, app_length, !map_length. lia. }
  rewrite T; [reflexivity|]. destruct (expandable_rev _ _) eqn:X; [|reflexivity]. exfalso. rewrite Sw, !rev_app_distr in X. rewrite expandable_rev_app in X by (rewrite !rev_length; exact LE).
  apply andb_prop in X. destruct X as [_ X]. apply expandable_length in X; [|rewrite !rev_length, !map_length; lia]. rewrite firstn_all2 in X by (rewrite !rev_length, !map_length; lia).
  rewrite <- !map_rev in X. apply in_rev in IP. induction (rev (wide (all_plates [a; v]))) as [|x l IH]; [destruct IP|]. cbn [map] in X. inversion X as [|? ? ? ? X1 X2]; subst. destruct IP as [->|IP]; [|now apply IH].
  assert (Ha : has (splates a) (pname p) = false). { destruct (has (splates a) (pname p)) eqn:Eh; auto. apply has_In in Eh. contradiction. }
  assert (Hv : has (splates v) (pname p) = true) by (apply has_In; now apply in_map). rewrite Ha, Hv in X1. cbn [orb] in X1. lia.
Qed.

(** A single number per sample, assigned to the whole vector of every sample. *)
Theorem setitem_scalar : forall (a v : stensor) p m base, callable veq [a; v] -> (forall q, In q (splates v) -> In (pname q) (N (splates a))) -> wide (splates a) = [p] -> In (pname p) (N (splates v)) ->
  s_event_shape a = [m] -> s_event_shape v = [] ->
  (m <> pn p -> setitem veq anc_unwrap a [IEllipsis] (PT v) base = Err RuntimeError) /\
  (m = pn p -> exists r, setitem veq anc_unwrap a [IEllipsis] (PT v) base = Ok r /\ splates r = splates a /\ s_event_shape r = [m] /\
     forall s j, in_range s (splates a) -> j < m -> den r s [j] = den v (set_to s (pname p) j) []).
Proof.
  intros a v p m base HC HS Hp Hpv Ea Ev. pose proof (proj1 HC) as Hw. inversion Hw as [|? ? Wa Hw1]; subst.
  assert (H1 : 1 < pn p) by (assert (I : In p (wide (splates a))) by (rewrite Hp; simpl; auto); now apply In_wide in I).
  destruct (prepare_own [PT a; PT v] [a; v] eq_refl HC) as [args' [E F]]; [repeat constructor|].
  assert (AP : all_plates [a; v] = splates a) by (unfold all_plates; cbn [fold_left]; rewrite union_nil_l; now apply union_sub). rewrite AP in *.
  inversion F as [|? ? ? ? U F1]; subst. inversion U as [? u Lu| | | | | | | | ]; subst. inversion F1 as [|? ? ? ? U' F2]; subst. inversion U' as [? w Lw| | | | | | | | ]; subst. inversion F2; subst.
  unfold setitem. rewrite E. cbn [bind]. destruct (own_view a u Wa Lu) as [Su Xu]. destruct Lw as [Sw Xw]. unfold s_event_dims in Sw, Xw. rewrite pad_self in Sw, Xw. apply has_In in Hpv. rewrite Hp, Ev in *. cbn [map app length firstn] in *. rewrite Hpv in *. cbn [orb] in *. rewrite Ea in *.
  assert (HI : indexed false [IEllipsis] [m] [m]) by exact (ix_dots [m] [] [] [] ix_end).
  destruct (torch_assign_front [IEllipsis] [IEllipsis] [pn p] [m] [m] u w) as [T T']; auto.
  { right. split; auto. exists []. split; auto. unfold consumed. simpl. lia. } { unfold ndim. rewrite Sw. simpl. lia. }
  rewrite Sw in T, T'. cbn [rev app expandable_rev] in T, T'. rewrite andb_true_r in T, T'. destruct (Nat.eqb_spec (pn p) 1) as [|_]; [lia|]. rewrite orb_false_r in T, T'. split.
  - intros Hm. rewrite T'; [reflexivity|]. apply Nat.eqb_neq. auto.
  - intros Hm. destruct T as [t [T1 [T2 T3]]]; [apply Nat.eqb_eq; auto|]. rewrite T1. cbn [bind prepare_outputs]. eexists. split; [reflexivity|]. cbn [splates s_event_shape]. split; [reflexivity|]. split; [reflexivity|].
    intros s j Hs Hj. assert (Hps : s (pname p) < pn p). { apply Hs. assert (I : In p (wide (splates a))) by (rewrite Hp; simpl; auto). now apply In_wide in I. }
    unfold den at 1. cbn [st splates]. rewrite seen by (auto; rewrite Hp, Ea; exact T2). rewrite Hp. cbn [map].
    destruct (T3 [s (pname p)] [j]) as [K _]; [repeat constructor; exact Hps|]. rewrite (K [j]); [|exact (pk_dots [m] [] [] [j] [] [] ltac:(repeat constructor; exact Hj) pk_end)|repeat constructor; exact Hj].
    specialize (Xw (set_to s (pname p) j) []). unfold set_to in Xw at 2. rewrite String.eqb_refl in Xw. rewrite <- Xw.
    + unfold bidx. cbn. destruct (Nat.eqb_spec (pn p) 1); [lia|reflexivity].
    + intros q [<-|[]]. unfold set_to. rewrite String.eqb_refl. lia.
    + constructor.
Qed.
End SetitemProofs.
