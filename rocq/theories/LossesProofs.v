(** Proofs about b_binary_cross_entropy. *)
From Coq Require Import String List Arith Bool ZArith Lia.
From Verif Require Import Base Torch Plates Wrap OrderPlates Scalar Names Reduce Losses SpecLosses SpecTensor SpecWrap SpecReduce ListLemmas IndexLemmas WrapProofs PlateEqProofs AlignProofs CallProofs
  CallProofs2 OpProofs ReduceProofs VarianceProofs CallN InferenceProofs.
Import ListNotations.
Open Scope nat_scope.
Open Scope list_scope.

Section LossProofs.
Context {V : Type}.
Variable veq : V -> V -> bool.
Variable anc_unwrap : plate V -> stensor V -> res (stensor V).
Variable loss : V -> V -> V.
Variables mean total : list V -> V.
Notation plate := (plate V).
Notation stensor := (stensor V).
Notation N l := (map (@pname V) l).

Lemma expandable_bc : forall a b, broadcasts a b b -> expandable_rev (rev a) (rev b) = true.
Proof.
  assert (G : forall a b, broadcasts a b b -> forall x y : list nat, expandable_rev x y = true -> expandable_rev (rev a ++ x) (rev b ++ y) = true).
  { induction a as [|n a IH]; intros b H x y Hx; destruct b as [|m b]; try (inversion H; fail); [exact Hx|].
    simpl. rewrite <- !app_assoc. simpl. apply IH; [inversion H; auto|]. simpl. rewrite Hx, andb_true_r. inversion H; subst; rewrite ?Nat.eqb_refl, ?orb_true_r; auto. }
  intros a b H. specialize (G a b H [] [] eq_refl). now rewrite !app_nil_r in G.
Qed.
Lemma expand_bc : forall (t : ten V) shp, broadcasts (shape t) shp shp -> expand shp t = Ok (mkten shp (fun i => el t (bidx (shape t) i))).
Proof. intros t shp H. unfold expand. now rewrite expandable_bc. Qed.

Lemma all2 : forall a b : stensor, all_plates [a; b] = union (splates a) (splates b).
Proof. intros. unfold all_plates. simpl. now rewrite union_nil_l. Qed.

Lemma plates_clip : forall (a : stensor) (s : assignment) ps, (forall p : plate, In p ps -> 1 < pn p) -> (forall p, In p ps -> has (splates a) (pname p) = true) ->
  map (fun p => if has (splates a) (pname p) || false then pn p else 1) ps = map pn ps /\
  map (fun p => if has (splates a) (pname p) || false then s (pname p) else 0) ps = map (fun p => s (pname p)) ps.
Proof. intros a s ps _ H. split; apply map_ext_in; intros p Hp; now rewrite H. Qed.

(** The loss per element, before the reduction. *)
Theorem unreduced_spec : forall (a b : stensor) base, callable veq [a; b] ->
  (forall p, In p (wide (splates b)) -> In (pname p) (N (splates a))) ->
  s_event_dims b <= s_event_dims a -> broadcasts (pad (s_event_dims a) (s_event_shape b)) (s_event_shape a) (s_event_shape a) ->
  exists b' u, handle_deterministic veq anc_unwrap top_ctx (torch_fnN (@expand_as_fn V)) [PT b; PT a] [] [] default_opts base = Ok (PT b') /\
    handle_deterministic veq anc_unwrap top_ctx (torch_fnN (bce_fn loss)) [PT a; PT b'] [] [] default_opts (base + 2) = Ok (PT u) /\
    splates u = union (splates a) (splates b) /\ s_event_shape u = s_event_shape a /\ wf u /\ s_stochastic u = false /\
    forall s e, in_range s (splates u) -> valid e (s_event_shape a) -> den u s e = loss (den a s e) (den b s (proj (s_event_shape b) e)).
Proof.
  intros a b base HC Hsub Hed Hev.
  assert (HC' : callable veq [b; a]).
  { destruct HC as [W [A P]]. rewrite Forall_forall in W. split; [apply Forall_forall; intros x Hx; apply W; simpl in *; tauto|].
    assert (Sw : forall x, In x (flat_map splates [b; a]) -> In x (flat_map splates [a; b])).
    { intros x. cbn [flat_map]. rewrite !app_nil_r, !in_app_iff. tauto. }
    refine (conj _ _); [intros p q Hp Hq E; apply A; auto|intros p Hp; apply P; auto]. }
  assert (Wa : wf a) by (destruct HC as [W _]; inversion W; auto).
  assert (Wb : wf b) by (destruct HC' as [W _]; inversion W; auto).
  destruct (call_spec veq anc_unwrap (@expand_as_fn V) [b; a] base default_opts ltac:(discriminate) HC' eq_refl eq_refl eq_refl eq_refl eq_refl eq_refl) as [us [F [_ K]]].
  inversion F as [|? ub ? r1 Lb F1]; subst. inversion F1 as [|? ua ? r2 La F2]; subst. inversion F2; subst.
  destruct Lb as [Sb Xb], La as [Sa Xa]. simpl o_expand in *.
  assert (Em : max_event [b; a] = s_event_dims a) by (change (max_event [b; a]) with (Nat.max (s_event_dims b) (s_event_dims a)); lia).
  rewrite Em in *. set (ps := wide (all_plates [b; a])) in *.
  assert (Pa : pad (s_event_dims a) (s_event_shape a) = s_event_shape a).
  { unfold pad, s_event_dims. rewrite Nat.sub_diag. apply app_nil_r. }
  rewrite Pa in *.
  assert (Hps : forall p, In p ps -> 1 < pn p) by (intros p Hp; apply In_wide in Hp; tauto).
  destruct (all_plates_facts veq anc_unwrap [b; a] HC') as [I1 [D1 X1]].
  assert (HA : agree veq (flat_map splates [b; a])) by apply HC'.
  assert (Hha : forall p, In p ps -> has (splates a) (pname p) = true).
  { intros p Hp. apply In_wide in Hp. destruct Hp as [Hp Hn]. apply has_In.
    destruct (proj1 (X1 (pname p)) (in_map _ _ _ Hp)) as [t [[<-|[<-|[]]] Ht]]; auto.
    apply in_map_iff in Ht. destruct Ht as [q [Eq Hq]]. rewrite <- Eq. apply Hsub. apply In_wide. split; auto.
    destruct (HA p q (I1 _ Hp) ltac:(cbn; apply in_or_app; now left) ltac:(auto)) as [_ En]. lia. }
  assert (Sa' : shape ua = map pn ps ++ s_event_shape a).
  { rewrite Sa. f_equal. apply (plates_clip a (fun _ => 0)); auto. }
  assert (HB : broadcasts (shape ub) (shape ua) (shape ua)).
  { rewrite Sb, Sa'. apply broadcasts_app; auto.
    clear - Hps. induction ps as [|p ps IH]; simpl; [constructor|]. destruct (has (splates b) (pname p) || false); constructor; apply IH; intros; apply Hps; simpl; auto. }
  destruct (K (mkten (shape ua) (fun i => el ub (bidx (shape ub) i))) (s_event_shape a)) as [b' [B1 [B2 [B3 [B4 [B5 [B6 [B7 B8]]]]]]]].
  { cbn [expand_as_fn]. now apply expand_bc. } { exact Sa'. }
  cbn [map] in B1. exists b'.
  (* the expanded target *)
  rewrite all2 in B2.
  assert (Db : forall s e, in_range s (splates b') -> valid e (s_event_shape a) -> den b' s e = den b s (proj (s_event_shape b) e)).
  { intros s e Hs He. unfold den at 1. rewrite B3, B2, <- all2. fold ps. cbn [el].
    assert (Hsp : in_range s ps) by (intros p Hp; apply Hs; rewrite B2, <- all2; apply In_wide in Hp; tauto).
    rewrite bidx_same. 2:{ pose proof (broadcasts_length _ _ _ HB) as [L1 L2]. rewrite L1, Sa', !app_length, !map_length. f_equal. now apply valid_length. }
    rewrite Sb, zip_clip_app by now rewrite !map_length. rewrite clip_choice2 by auto.
    assert (V1 : valid (zip_clip (pad (s_event_dims a) (s_event_shape b)) e) (pad (s_event_dims a) (s_event_shape b))) by (eapply broadcasts_valid_l; eauto).
    rewrite Xb by auto. unfold s_event_dims, pad.
    rewrite zip_clip_prefix, <- proj_zip_clip; [reflexivity|]. pose proof (CallProofs.pad_length _ _ Hed) as PL. unfold pad, s_event_dims in PL. apply valid_length in He. unfold s_event_dims in He. unfold s_event_dims. congruence. }
  (* the loss *)
  assert (HC2 : callable veq [a; b']).
  { destruct HC' as [W [A P]].
    assert (Sw : forall x, In x (flat_map splates [a; b']) -> In x (flat_map splates [b; a])).
    { intros x. cbn [flat_map]. rewrite !app_nil_r, !in_app_iff, B2. unfold union. rewrite in_app_iff, filter_In. tauto. }
    refine (conj _ (conj _ _)); [constructor; auto|intros p q Hp Hq E; apply A; auto|intros p Hp; apply P; auto]. }
  destruct (call_spec veq anc_unwrap (bce_fn loss) [a; b'] (base + 2) default_opts ltac:(discriminate) HC2 eq_refl eq_refl eq_refl eq_refl eq_refl eq_refl) as [us [G [_ K2]]].
  inversion G as [|? va ? g1 Ga G1]; subst. inversion G1 as [|? vb ? g2 Gb G2]; subst. inversion G2; subst.
  destruct Ga as [Ta Ya], Gb as [Tb Yb]. simpl o_expand in *.
  assert (Em2 : max_event [a; b'] = s_event_dims a).
  { change (max_event [a; b']) with (Nat.max (s_event_dims a) (s_event_dims b')). unfold s_event_dims at 2. rewrite B4. unfold s_event_dims. lia. }
  rewrite Em2, B4 in *. rewrite Pa in *. set (qs := wide (all_plates [a; b'])) in *.
  assert (Eq2 : all_plates [a; b'] = union (splates a) (splates b)).
  { rewrite all2, B2. unfold union at 1. unfold union at 2. f_equal. unfold union. rewrite filter_app.
    replace (filter (fun p : plate => negb (has (splates a) (pname p))) (filter (fun p => negb (has (splates b) (pname p))) (splates a))) with (@nil plate).
    - rewrite app_nil_r. reflexivity.
    - symmetry. apply filter_nil_in. intros p Hp. apply filter_In in Hp. destruct Hp as [Hp _]. apply negb_false_iff, has_In. now apply in_map. }
  assert (Hqs : forall p, In p qs -> 1 < pn p) by (intros p Hp; apply In_wide in Hp; tauto).
  assert (Hqa : forall p, In p qs -> has (splates a) (pname p) = true).
  { intros p Hp. apply In_wide in Hp. destruct Hp as [Hp Hn]. rewrite Eq2 in Hp. unfold union in Hp. apply in_app_or in Hp. apply has_In. destruct Hp as [Hp|Hp]; [now apply in_map|].
    apply filter_In in Hp. apply Hsub. apply In_wide. tauto. }
  assert (Hqb : forall p, In p qs -> has (splates b') (pname p) = true).
  { intros p Hp. apply Hqa in Hp. apply has_In. apply has_In in Hp. rewrite B2. unfold union. rewrite map_app, in_app_iff.
    apply in_map_iff in Hp. destruct Hp as [q [<- Hq]]. destruct (has (splates b) (pname q)) eqn:E; [left; now apply has_In|right].
    apply in_map. apply filter_In. split; auto. now rewrite E. }
  destruct (K2 (mkten (shape va) (fun i => loss (el va i) (el vb i))) (s_event_shape a)) as [u [U1 [U2 [U3 [U4 [U5 [U6 [U7 U8]]]]]]]].
  { cbn [bce_fn]. rewrite Ta, Tb. rewrite (proj1 (plates_clip a (fun _ => 0) qs Hqs Hqa)), (proj1 (plates_clip b' (fun _ => 0) qs Hqs Hqb)). now rewrite list_eqb_refl. }
  { cbn [shape]. rewrite Ta. f_equal. apply (plates_clip a (fun _ => 0)); auto. }
  exists u. rewrite Eq2 in U2. repeat split; auto; try apply U5.
  intros s e Hs He. unfold den at 1. rewrite U3, U2, <- Eq2. fold qs. cbn [el].
  assert (Hsq : in_range s qs) by (intros p Hp; apply Hs; rewrite U2, <- Eq2; apply In_wide in Hp; tauto).
  rewrite <- (proj2 (plates_clip a s qs Hqs Hqa)) at 1. rewrite Ya by auto. rewrite <- (proj2 (plates_clip b' s qs Hqs Hqb)). rewrite Yb by auto.
  unfold s_event_dims. rewrite !B4. rewrite <- (valid_length _ _ He), firstn_all. f_equal. apply Db; auto.
  intros p Hp. rewrite B2 in Hp. unfold union in Hp. rewrite in_app_iff, filter_In in Hp.
  destruct Hp as [Hp|[Hp _]]; [|apply Hs; rewrite U2; unfold union; apply in_or_app; auto].
  destruct (has (splates a) (pname p)) eqn:E; [|apply Hs; rewrite U2; unfold union; apply in_or_app; right; apply filter_In; now rewrite E].
  apply has_In in E. apply in_map_iff in E. destruct E as [q [Eq Hq]].
  destruct HC as [_ [A _]]. destruct (A q p) as [_ En]; auto; try (cbn [flat_map]; rewrite !in_app_iff; auto).
  rewrite <- Eq, <- En. apply Hs. rewrite U2. unfold union. apply in_or_app. auto.
Qed.

(** Reducing all event dimensions and the plates named. *)
Definition loss_dims (u : stensor) (dims : list string) : list dimarg :=
  map (fun i => DInt (Z.of_nat i)) (seq (s_plate_dims u) (ndim (st u) - s_plate_dims u)) ++ map DPlate dims.
Lemma seq_shift_plus : forall n b c, map (fun j => b + j) (seq c n) = seq (b + c) n.
Proof. induction n; intros b c; simpl; auto. rewrite IHn. now rewrite Nat.add_succ_r. Qed.
Lemma ndim_events : forall u : stensor, wf u -> ndim (st u) - s_plate_dims u = s_event_dims u.
Proof. intros u Hw. unfold ndim. rewrite (wf_shape u Hw), (wf_dims u Hw), app_length, map_length. unfold s_event_dims. lia. Qed.

Lemma loss_dims_mean : forall (u : stensor) dims, wf u -> (forall d, In d dims -> exists p, In p (splates u) /\ 1 < pn p /\ pname p = d) ->
  Forall2 (dim_means u) (loss_dims u dims) (map (fun j => inr j) (seq 0 (s_event_dims u)) ++ map (fun d => inl d) dims).
Proof.
  intros u dims Hw Hd. unfold loss_dims. rewrite ndim_events by auto. apply Forall2_app.
  - rewrite (wf_dims u Hw). replace (seq (length (wide (splates u))) (s_event_dims u)) with (map (fun j => length (wide (splates u)) + j) (seq 0 (s_event_dims u))) by (rewrite seq_shift_plus; now rewrite Nat.add_0_r).
    rewrite map_map.
    assert (G : forall l, (forall j, In j l -> j < s_event_dims u) ->
      Forall2 (dim_means u) (map (fun j => DInt (Z.of_nat (length (wide (splates u)) + j))) l) (map (fun j => @inr string nat j) l)).
    { induction l; intros H; simpl; constructor; [constructor; apply H; simpl; auto|apply IHl; intros; apply H; simpl; auto]. }
    apply G. intros j Hj. apply in_seq in Hj. lia.
  - induction dims as [|d dims IH]; simpl; constructor; [|apply IH; intros; apply Hd; simpl; auto].
    destruct (Hd d (or_introl eq_refl)) as [p [H1 [H2 <-]]]. now constructor.
Qed.
Lemma loss_dims_nodup : forall n (dims : list string), NoDup dims -> NoDup (map (fun j => @inr string nat j) (seq 0 n) ++ map (fun d => inl d) dims).
Proof.
  intros n dims ND. apply NoDup_app_intro.
  - apply FinFun.Injective_map_NoDup; [intros x y E; now injection E|apply seq_NoDup].
  - apply FinFun.Injective_map_NoDup; [intros x y E; now injection E|auto].
  - intros x H1 H2. apply in_map_iff in H1. apply in_map_iff in H2. destruct H1 as [? [<- _]]. destruct H2 as [? [E _]]. discriminate.
Qed.
Lemma loss_named : forall n (dims : list string) (x : string), SpecReduce.named (map (fun j => @inr string nat j) (seq 0 n) ++ map (fun d => inl d) dims) x = existsb (fun d => String.eqb d x) dims.
Proof.
  intros n dims x. unfold SpecReduce.named. rewrite existsb_app. replace (existsb _ (map _ (seq 0 n))) with false; [|generalize (seq 0 n); intros l; induction l; simpl; auto].
  simpl. induction dims; simpl; auto. now f_equal.
Qed.
Lemma loss_mask : forall (u : stensor) dims, event_mask u (map (fun j => @inr string nat j) (seq 0 (s_event_dims u)) ++ map (fun d => inl d) dims) = repeat true (s_event_dims u).
Proof.
  intros u dims. unfold event_mask.
  set (ts := map (fun j => @inr string nat j) (seq 0 (s_event_dims u)) ++ map (fun d => inl d) dims).
  assert (G : forall l, (forall j, In j l -> counted ts j = true) -> map (counted ts) l = repeat true (length l)).
  { induction l; intros H; simpl; auto. rewrite H by (simpl; auto). f_equal. apply IHl. intros; apply H; simpl; auto. }
  rewrite G; [now rewrite seq_length|]. intros j Hj. apply counted_In. unfold ts. apply in_or_app. left. now apply in_map.
Qed.

Lemma reduce_loss : forall red (u : stensor) dims base, callable veq [u] -> NoDup dims ->
  (forall d, In d dims -> exists p, In p (splates u) /\ 1 < pn p /\ pname p = d) -> s_event_shape u <> [] \/ dims <> [] ->
  exists r, reduce_with veq anc_unwrap top_ctx red u (loss_dims u dims) base = Ok (PT r) /\
    splates r = filter (fun p => negb (existsb (fun d => String.eqb d (pname p)) dims)) (splates u) /\
    s_event_shape r = [] /\ wf r /\ s_stochastic r = false /\
    (dims = [] -> forall s, in_range s (splates u) -> den r s [] = red (map (den u s) (indices (s_event_shape u)))).
Proof.
  intros red u dims base HC ND Hd Hne.
  assert (Hw : wf u) by (destruct HC as [H _]; inversion H; auto).
  destruct (reduce_with_spec veq anc_unwrap red u (loss_dims u dims) _ base HC (loss_dims_mean u dims Hw Hd) (loss_dims_nodup _ _ ND)) as [r [E [P [Ev [Wr [Pa [St D]]]]]]].
  { destruct Hne as [Hne|Hne].
    - unfold s_event_dims. destruct (s_event_shape u); [congruence|discriminate].
    - destruct dims; [congruence|]. intros C. apply app_eq_nil in C. destruct C as [_ C]. discriminate. }
  exists r. rewrite loss_mask in Ev.
  assert (PF : pick false (repeat true (s_event_dims u)) (s_event_shape u) = []).
  { destruct (pick_front (s_event_dims u) 0 (s_event_shape u) [] eq_refl eq_refl) as [_ Pf]. simpl in Pf. now rewrite !app_nil_r in Pf. }
  rewrite PF in Ev. split; [exact E|]. split; [rewrite P; apply filter_ext; intros p; now rewrite loss_named|]. split; [exact Ev|]. split; [exact Wr|]. split; [exact St|].
  intros -> s Hs. 
  assert (Ep : splates r = splates u).
  { rewrite P. transitivity (filter (fun _ : plate => true) (splates u)); [apply filter_ext; intros q; now rewrite loss_named|].
    clear. induction (splates u); simpl; congruence. }
  rewrite D by (rewrite ?Ep, ?Ev; auto; constructor). f_equal. unfold group.
  assert (Erp : reduced_plates u (map (fun j => inr j) (seq 0 (s_event_dims u)) ++ map (fun d => inl d) []) = []).
  { unfold reduced_plates. apply filter_nil_in. intros p _. now rewrite loss_named. }
  rewrite Erp, loss_mask. simpl length. simpl map at 2. simpl app.
  destruct (pick_front (s_event_dims u) 0 (s_event_shape u) [] eq_refl eq_refl) as [Pt _]. simpl in Pt. rewrite !app_nil_r in Pt. rewrite Pt.
  apply map_ext_in. intros ix Hix. simpl set_all. simpl skipn. f_equal.
  pose proof (fill_front (s_event_dims u) 0 ix []) as FF. simpl in FF. rewrite !app_nil_r in FF. apply FF; auto. apply in_indices in Hix. now apply valid_length.
Qed.

Notation bce := (b_binary_cross_entropy veq anc_unwrap loss mean total).
Notation body := (bce_body veq anc_unwrap loss mean total).

Lemma callable1 : forall (a b u : stensor), callable veq [a; b] -> wf u -> splates u = union (splates a) (splates b) -> callable veq [u].
Proof.
  intros a b u [W [A P]] Wu Eu.
  assert (Sw : forall x, In x (flat_map splates [u]) -> In x (flat_map splates [a; b])).
  { intros x. cbn [flat_map]. rewrite !app_nil_r, Eu. unfold union. rewrite !in_app_iff, filter_In. tauto. }
  refine (conj _ (conj _ _)); [constructor; auto|intros p q Hp Hq E; apply A; auto|intros p Hp; apply P; auto].
Qed.
Lemma den_st : forall a b : stensor, st a = st b -> splates a = splates b -> forall s e, den a s e = den b s e.
Proof. intros a b H1 H2 s e. unfold den. now rewrite H1, H2. Qed.

Theorem bce_reduced : forall (a b : stensor) base r, callable veq [a; b] -> target_fits a b -> s_event_shape a <> [] -> r = RMean \/ r = RSum ->
  exists l, bce a b [] r base = Ok (PT l) /\ splates l = union (splates a) (splates b) /\ s_event_shape l = [] /\ wf l /\ sparents l = [sid a; sid b] /\
    forall s, in_range s (splates l) ->
    den l s [] = (match r with RMean => mean | _ => total end) (map (fun e => loss (den a s e) (den b s (proj (s_event_shape b) e))) (indices (s_event_shape a))).
Proof.
  intros a b base r HC [T1 [T2 T3]] Hne Hr.
  destruct (unreduced_spec a b base HC T1 T2 T3) as [b' [u [E1 [E2 [Eu [Ev [Wu [Su D]]]]]]]].
  pose proof (callable1 a b u HC Wu Eu) as HCu.
  destruct (reduce_loss (match r with RMean => mean | _ => total end) u [] (base + 4) HCu ltac:(constructor) ltac:(intros d []) ltac:(left; congruence)) as [v [R1 [R2 [R3 [R4 [R5 R6]]]]]].
  assert (Ep : splates v = splates u).
  { rewrite R2. transitivity (filter (fun _ : plate => true) (splates u)); [apply filter_ext; auto|]. clear. induction (splates u); simpl; congruence. }
  assert (Eb : body a b [] r base = Ok (PT v)).
  { unfold bce_body. rewrite E1. cbn [bind]. rewrite E2. cbn [bind as_tensor]. fold (loss_dims u []). destruct Hr as [-> | ->]; exact R1. }
  unfold b_binary_cross_entropy.
  destruct (keep_good veq anc_unwrap (fun args _ => match args with [PT i; PT t] => body i t [] r base | _ => Err TypeError end) [a; b] (base + 10) keep_opts v) as [l [L1 [L2 [L3 [L4 [L5 [L6 L7]]]]]]]; auto.
  { discriminate. }
  { intros p Hp. rewrite all2, <- Eu in Hp. rewrite Ep. now apply in_map. }
  exists l. split; [exact L1|]. rewrite L2, Ep, Eu, L4. split; auto. split; auto. split; auto. split; auto.
  intros s Hs. rewrite (den_st l v) by auto. rewrite R6 by (auto; now rewrite Eu). rewrite Ev. f_equal. apply map_ext_in. intros e He. apply in_indices in He. rewrite <- Eu in Hs. auto.
Qed.

Theorem bce_none : forall (a b : stensor) dims base, callable veq [a; b] -> target_fits a b ->
  exists l, bce a b dims RNone base = Ok (PT l) /\ splates l = union (splates a) (splates b) /\ s_event_shape l = s_event_shape a /\ wf l /\ sparents l = [sid a; sid b] /\
    forall s e, in_range s (splates l) -> valid e (s_event_shape a) -> den l s e = loss (den a s e) (den b s (proj (s_event_shape b) e)).
Proof.
  intros a b dims base HC [T1 [T2 T3]].
  destruct (unreduced_spec a b base HC T1 T2 T3) as [b' [u [E1 [E2 [Eu [Ev [Wu [Su D]]]]]]]].
  assert (Eb : body a b dims RNone base = Ok (PT u)) by (unfold bce_body; rewrite E1; cbn [bind]; rewrite E2; reflexivity).
  destruct (keep_good veq anc_unwrap (fun args _ => match args with [PT i; PT t] => body i t dims RNone base | _ => Err TypeError end) [a; b] (base + 10) keep_opts u) as [l [L1 [L2 [L3 [L4 [L5 [L6 L7]]]]]]]; auto.
  { discriminate. }
  { intros p Hp. rewrite all2, <- Eu in Hp. now apply in_map. }
  exists l. split; [exact L1|]. rewrite L2, Eu, L4. split; auto. split; auto. split; auto. split; auto.
  intros s e Hs He. rewrite (den_st l u) by auto. apply D; auto. now rewrite Eu.
Qed.

(** Another name for the reduction: the loss is computed and dropped. *)
Theorem bce_other : forall (a b : stensor) dims base, callable veq [a; b] -> target_fits a b -> bce a b dims ROther base = Ok PNone.
Proof.
  intros a b dims base HC [T1 [T2 T3]].
  destruct (unreduced_spec a b base HC T1 T2 T3) as [b' [u [E1 [E2 _]]]].
  assert (Eb : body a b dims ROther base = Ok PNone) by (unfold bce_body; rewrite E1; cbn [bind]; rewrite E2; reflexivity).
  unfold b_binary_cross_entropy, handle_deterministic. simpl c_stochastic. cbv iota.
  change [PT a; PT b] with (map PT [a; b]). rewrite (prepare_args_keep veq anc_unwrap [a; b] keep_opts) by (auto; discriminate). cbn [bind map]. rewrite Eb. reflexivity.
Qed.

(** Whatever wide plates of the input are named, the call raises. *)
Theorem bce_dims_raise : forall (a b : stensor) dims base r, callable veq [a; b] -> target_fits a b -> r = RMean \/ r = RSum ->
  NoDup dims -> dims <> [] -> (forall d, In d dims -> exists p, In p (wide (splates a)) /\ pname p = d) ->
  bce a b dims r base = Err ValueError.
Proof.
  intros a b dims base r HC [T1 [T2 T3]] Hr ND Hne Hd.
  destruct (unreduced_spec a b base HC T1 T2 T3) as [b' [u [E1 [E2 [Eu [Ev [Wu [Su D]]]]]]]].
  pose proof (callable1 a b u HC Wu Eu) as HCu.
  destruct (reduce_loss (match r with RMean => mean | _ => total end) u dims (base + 4) HCu ND) as [v [R1 [R2 [R3 [R4 [R5 R6]]]]]]; auto.
  { intros d Hdd. destruct (Hd d Hdd) as [p [H1 H2]]. apply In_wide in H1. exists p. split; [rewrite Eu; apply in_or_app; tauto|tauto]. }
  assert (Eb : body a b dims r base = Ok (PT v)).
  { unfold bce_body. rewrite E1. cbn [bind]. rewrite E2. cbn [bind as_tensor]. fold (loss_dims u dims). destruct Hr as [-> | ->]; exact R1. }
  destruct dims as [|d dims]; [congruence|]. destruct (Hd d (or_introl eq_refl)) as [p [Hp Ep]]. apply In_wide in Hp.
  apply (keep_rejects veq anc_unwrap (fun args _ => match args with [PT i; PT t] => body i t (d :: dims) r base | _ => Err TypeError end) [a; b] (base + 10) keep_opts v p); auto; try tauto.
  - discriminate.
  - rewrite all2. apply in_or_app. tauto.
  - intros C. rewrite R2 in C. apply in_map_iff in C. destruct C as [q [Eq Hq]]. apply filter_In in Hq. destruct Hq as [_ Hq]. simpl in Hq.
    rewrite Eq, Ep, String.eqb_refl in Hq. discriminate.
Qed.

(** Without event dimensions and names the tuple of dimensions is empty, which means all dimensions to torch. *)
Theorem bce_no_events_raise : forall (a b : stensor) base r, callable veq [a; b] -> target_fits a b -> r = RMean \/ r = RSum ->
  s_event_shape a = [] -> wide (splates a) <> [] -> bce a b [] r base = Err ValueError.
Proof.
  intros a b base r HC [T1 [T2 T3]] Hr He Hp.
  destruct (unreduced_spec a b base HC T1 T2 T3) as [b' [u [E1 [E2 [Eu [Ev [Wu [Su D]]]]]]]].
  pose proof (callable1 a b u HC Wu Eu) as HCu.
  assert (Eb : body a b [] r base = Err ValueError).
  { unfold bce_body. rewrite E1. cbn [bind]. rewrite E2. cbn [bind as_tensor]. fold (loss_dims u []).
    assert (EL : loss_dims u [] = []) by (unfold loss_dims; rewrite ndim_events by auto; unfold s_event_dims; now rewrite Ev, He).
    rewrite EL. assert (G : forall red, reduce_with veq anc_unwrap top_ctx red u [] (base + 4) = Err ValueError); [|destruct Hr as [-> | ->]; apply G].
    intros red. unfold reduce_with. cbn [convert_indices mapM bind map flat_map].
    destruct (prepare_args_laid_out veq anc_unwrap [PT u] [] default_opts [u]) as [args' [kwargs' [E [F1 F2]]]]; auto.
    { repeat constructor. }
    inversion F1 as [|? x1 ? r1 U1 F1']; subst. inversion F1'; subst. inversion F2; subst. inversion U1 as [? t' [Lt _]| | | | | | | |]; subst.
    unfold handle_deterministic. simpl c_stochastic. cbv iota. rewrite E. cbn [bind torch_fn1]. unfold torch_reduce.
    assert (Sn : shape t' <> []).
    { rewrite Lt. intros C. apply app_eq_nil in C. destruct C as [C _]. apply map_eq_nil in C. apply Hp.
      assert (I : forall p, In p (wide (splates a)) -> In p (wide (all_plates [u]))).
      { intros p Hq. apply In_wide in Hq. apply In_wide. split; [|tauto]. unfold all_plates. simpl. rewrite union_nil_l, Eu. apply in_or_app. tauto. }
      rewrite C in I. destruct (wide (splates a)); auto. destruct (I p (or_introl eq_refl)). }
    assert (Em : forall l : list nat, select false (repeat true (length l)) l = []) by (induction l; simpl; auto).
    destruct (shape t') as [|n0 s0] eqn:Es; [congruence|]. cbn [mapM bind]. unfold reduce_dims. cbn [forallb negb length nodup Nat.eqb bind]. unfold ndim. rewrite Es, Em. cbn [bind c_ignore top_ctx].
    assert (Ef : filter (fun p => negb (existsb (String.eqb (pname p)) [])) (all_plates [u]) = all_plates [u]) by apply filter_none.
    rewrite Ef. cbn [prepare_outputs default_opts o_flatten bind].
    match goal with |- context [mk_tensor ?i ?t ?pa ?pl ?st] => destruct (mk_tensor i t pa pl st) as [w|e] eqn:Ew end; cbn [bind].
    - exfalso. assert (X : exists x, mk_tensor (base + 4 + 1) (mkten [] (fun idx => red (map (fun r0 => el t' (merge (repeat true (length (n0 :: s0))) idx r0)) (indices (select true (repeat true (length (n0 :: s0))) (n0 :: s0)))))) (map sid [u]) (all_plates [u]) false = Ok x) by eauto.
      apply mk_tensor_iff in X. destruct X as [_ [ev X]]. cbn [shape] in X. symmetry in X. apply app_eq_nil in X. destruct X as [X _]. apply map_eq_nil in X.
      rewrite nonone_wide in X by (apply (all_pos veq anc_unwrap); auto). rewrite X in Lt. simpl in Lt. rewrite Ev, He in Lt. unfold max_event in Lt. simpl in Lt.
      unfold s_event_dims in Lt. rewrite Ev, He in Lt. simpl in Lt. discriminate.
    - f_equal. eapply mk_tensor_err; eauto. }
  unfold b_binary_cross_entropy, handle_deterministic. simpl c_stochastic. cbv iota. change [PT a; PT b] with (map (@PT V) [a; b]).
  rewrite prepare_args_keep by auto. cbn [bind map]. rewrite Eb. reflexivity.
Qed.

(** A target with a wide plate the input lacks cannot be expanded. *)
Lemma expandable_app : forall a b x y : list nat, length a = length b -> expandable_rev (a ++ x) (b ++ y) = true -> expandable_rev a b = true /\ expandable_rev x y = true.
Proof.
  induction a as [|n a IH]; intros b x y L H; destruct b as [|m b]; try discriminate; [auto|]. simpl in *. apply andb_true_iff in H. destruct H as [H1 H2].
  rewrite H1. apply IH in H2; [tauto|lia].
Qed.
Lemma expandable_nth : forall a b, length a = length b -> expandable_rev a b = true -> forall i n m, nth_error a i = Some n -> nth_error b i = Some m -> n = m \/ n = 1.
Proof.
  induction a as [|x a IH]; intros b L H i n m H1 H2; destruct b as [|y b]; try discriminate; [destruct i; discriminate|]. simpl in H. apply andb_true_iff in H. destruct H as [H3 H4].
  destruct i as [|i]; simpl in *.
  - injection H1 as <-. injection H2 as <-. apply orb_true_iff in H3. rewrite !Nat.eqb_eq in H3. auto.
  - eapply (IH b); eauto.
Qed.
Theorem bce_extra_raises : forall (a b : stensor) dims base r p, callable veq [a; b] ->
  In p (wide (splates b)) -> ~ In (pname p) (N (splates a)) -> s_event_dims b <= s_event_dims a ->
  bce a b dims r base = Err RuntimeError.
Proof.
  intros a b dims base r p HC Hp Hnot Hed.
  assert (HC' : callable veq [b; a]).
  { destruct HC as [W [A P]]. rewrite Forall_forall in W. split; [apply Forall_forall; intros x Hx; apply W; simpl in *; tauto|].
    assert (Sw : forall x, In x (flat_map splates [b; a]) -> In x (flat_map splates [a; b])).
    { intros x. cbn [flat_map]. rewrite !app_nil_r, !in_app_iff. tauto. }
    refine (conj _ _); [intros x y Hx Hy E; apply A; auto|intros x Hx; apply P; auto]. }
  destruct (call_spec veq anc_unwrap (@expand_as_fn V) [b; a] base default_opts ltac:(discriminate) HC' eq_refl eq_refl eq_refl eq_refl eq_refl eq_refl) as [us [F [K _]]].
  inversion F as [|? ub ? r1 Lb F1]; subst. inversion F1 as [|? ua ? r2 La F2]; subst. inversion F2; subst.
  destruct Lb as [Sb _], La as [Sa _]. simpl o_expand in *.
  assert (Em : max_event [b; a] = s_event_dims a) by (change (max_event [b; a]) with (Nat.max (s_event_dims b) (s_event_dims a)); lia).
  rewrite Em in *. set (ps := wide (all_plates [b; a])) in *.
  assert (Eb : body a b dims r base = Err RuntimeError).
  { unfold bce_body. cbn [map] in K. rewrite (K RuntimeError); [reflexivity|]. cbn [expand_as_fn]. unfold expand.
    destruct (expandable_rev (rev (shape ub)) (rev (shape ua))) eqn:Ee; [exfalso|reflexivity].
    rewrite Sb, Sa, !rev_app_distr in Ee. apply expandable_app in Ee.
    2:{ rewrite !rev_length. rewrite !CallProofs.pad_length; auto. }
    destruct Ee as [_ Ee].
    assert (Hin : In p ps).
    { unfold ps. apply In_wide in Hp. apply In_wide. rewrite all2. split; [apply in_or_app; tauto|tauto]. }
    apply in_rev in Hin. apply In_nth_error in Hin. destruct Hin as [i Hi].
    assert (Ha : has (splates a) (pname p) = false) by (apply not_true_iff_false; intros C; apply has_In in C; auto).
    assert (Hb : has (splates b) (pname p) = true) by (apply has_In; apply in_map; apply In_wide in Hp; tauto).
    rewrite <- !map_rev in Ee.
    pose proof (map_nth_error (fun p0 : plate => if has (splates b) (pname p0) || false then pn p0 else 1) i (rev ps) Hi) as M1.
    pose proof (map_nth_error (fun p0 : plate => if has (splates a) (pname p0) || false then pn p0 else 1) i (rev ps) Hi) as M2.
    cbn beta in M1, M2. rewrite Hb in M1. rewrite Ha in M2. cbn [orb] in M1, M2.
    eapply expandable_nth in Ee; [|now rewrite !map_length|exact M1|exact M2]. apply In_wide in Hp. lia. }
  unfold b_binary_cross_entropy, handle_deterministic. simpl c_stochastic. cbv iota. change [PT a; PT b] with (map (@PT V) [a; b]).
  rewrite prepare_args_keep by auto. cbn [bind map]. rewrite Eb. reflexivity.
Qed.

(** torch's own function on storch tensors: plates either argument lacks are expanded. *)
Theorem torch_bce_spec : forall (a b : stensor) base, callable veq [a; b] -> s_event_shape a = s_event_shape b ->
  exists l, torch_bce veq anc_unwrap loss a b base = Ok (PT l) /\ splates l = union (splates a) (splates b) /\ s_event_shape l = s_event_shape a /\ wf l /\ sparents l = [sid a; sid b] /\
    forall s e, in_range s (splates l) -> valid e (s_event_shape a) -> den l s e = loss (den a s e) (den b s e).
Proof.
  intros a b base HC He.
  destruct (call_spec veq anc_unwrap (bce_fn loss) [a; b] base expand_opts ltac:(discriminate) HC eq_refl eq_refl eq_refl eq_refl eq_refl eq_refl) as [us [F [_ K]]].
  inversion F as [|? ua ? r1 La F1]; subst. inversion F1 as [|? ub ? r2 Lb F2]; subst. inversion F2; subst.
  destruct Lb as [Sb Xb], La as [Sa Xa]. simpl o_expand in *.
  assert (Ed : s_event_dims b = s_event_dims a) by (unfold s_event_dims; now rewrite He).
  assert (Em : max_event [a; b] = s_event_dims a) by (change (max_event [a; b]) with (Nat.max (s_event_dims a) (s_event_dims b)); lia).
  rewrite Em, <- He in *. set (ps := wide (all_plates [a; b])) in *.
  assert (Pa : pad (s_event_dims a) (s_event_shape a) = s_event_shape a).
  { unfold pad, s_event_dims. rewrite Nat.sub_diag. apply app_nil_r. }
  rewrite Pa in *.
  assert (M : forall (c : stensor) (f g : plate -> nat), map (fun p => if has (splates c) (pname p) || true then f p else g p) ps = map f ps).
  { intros c f g. apply map_ext. intros p. now rewrite orb_true_r. }
  rewrite M in Sa, Sb.
  destruct (K (mkten (shape ua) (fun i => loss (el ua i) (el ub i))) (s_event_shape a)) as [l [U1 [U2 [U3 [U4 [U5 [U6 [U7 U8]]]]]]]].
  { cbn [bce_fn]. now rewrite Sa, Sb, list_eqb_refl. } { exact Sa. }
  exists l. rewrite all2 in U2. split; [exact U1|]. split; [exact U2|]. split; [exact U4|]. split; [exact U5|]. split; [exact U6|].
  intros s e Hs Hv. unfold den at 1. rewrite U3, U2, <- all2. fold ps. cbn [el].
  assert (Hsp : in_range s ps) by (intros p Hp; apply Hs; rewrite U2, <- all2; apply In_wide in Hp; tauto).
  specialize (Xa s e Hsp Hv). specialize (Xb s e Hsp Hv). rewrite M in Xa, Xb. rewrite Xa, Xb, Ed. unfold s_event_dims. rewrite <- (valid_length _ _ Hv), firstn_all. reflexivity.
Qed.
(** Different event shapes of equal rank are an error, also where other operations would broadcast. *)
Theorem torch_bce_events : forall (a b : stensor) base, callable veq [a; b] -> s_event_dims a = s_event_dims b -> s_event_shape a <> s_event_shape b ->
  torch_bce veq anc_unwrap loss a b base = Err ValueError.
Proof.
  intros a b base HC Ed He.
  destruct (call_spec veq anc_unwrap (bce_fn loss) [a; b] base expand_opts ltac:(discriminate) HC eq_refl eq_refl eq_refl eq_refl eq_refl eq_refl) as [us [F [K _]]].
  inversion F as [|? ua ? r1 La F1]; subst. inversion F1 as [|? ub ? r2 Lb F2]; subst. inversion F2; subst.
  destruct Lb as [Sb _], La as [Sa _]. simpl o_expand in *.
  assert (Em : max_event [a; b] = s_event_dims a) by (change (max_event [a; b]) with (Nat.max (s_event_dims a) (s_event_dims b)); lia).
  apply K. cbn [bce_fn]. destruct (list_eqb (shape ua) (shape ub)) eqn:E; [exfalso|reflexivity]. apply list_eqb_true in E.
  rewrite Sa, Sb, Em in E. 
  assert (AL : forall (x x' y y' : list nat), length x = length x' -> x ++ y = x' ++ y' -> y = y').
  { induction x as [|n x IH]; intros [|m x'] y y' L H; simpl in *; try discriminate; auto. injection H as _ H. apply (IH x'); auto; lia. }
  apply AL in E; [|now rewrite !map_length].
  unfold pad in E. replace (s_event_dims a - length (s_event_shape a)) with 0 in E by (unfold s_event_dims; lia).
  replace (s_event_dims a - length (s_event_shape b)) with 0 in E by (rewrite Ed; unfold s_event_dims; lia).
  simpl in E. rewrite !app_nil_r in E. auto.
Qed.
End LossProofs.
