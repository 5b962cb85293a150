(** Proofs about indexing storch tensors. *)
From Coq Require Import String List Arith Bool ZArith Lia.
From Verif Require Import Base Torch Plates Wrap TensorFns SpecTensor SpecWrap SpecReduce SpecSample ListLemmas IndexLemmas WrapProofs PlateEqProofs AlignProofs CallProofs CallProofs2 OpProofs CallN CallV SharedProofs.
Import ListNotations.
Open Scope nat_scope.
Open Scope list_scope.

Lemma index_front : forall k q l shp, length q = k ->
  match index_dims l shp with
  | Ok (s, g) => exists g', index_dims (repeat IAll k ++ l) (q ++ shp) = Ok (q ++ s, g') /\ forall x i, length x = k -> g' (x ++ i) = x ++ g i
  | Err e => index_dims (repeat IAll k ++ l) (q ++ shp) = Err e
  end.
Proof.
  induction k as [|k IH]; intros q l shp L.
  - destruct q; [|discriminate]. cbn [repeat app]. destruct (index_dims l shp) as [[s g]|e]; auto. exists g. split; auto. intros [|] i Hx; [reflexivity|discriminate].
  - destruct q as [|n q]; [discriminate|]. injection L as L. specialize (IH q l shp L). cbn [repeat app index_dims].
    destruct (index_dims l shp) as [[s g]|e]; [|now rewrite IH]. destruct IH as [g' [E G]]. rewrite E. cbn [bind]. eexists. split; [reflexivity|].
    intros [|y x] i Hx; [discriminate|]. injection Hx as Hx. cbn [app hd tl]. now rewrite G.
Qed.
Lemma index_valid : forall l shp s g i, index_dims l shp = Ok (s, g) -> valid i s -> valid (g i) shp.
Proof.
  induction l as [|x l IH]; intros shp s g i H Vi; [simpl in H; injection H as <- <-; auto|].
  destruct x; cbn [index_dims] in H; try discriminate.
  - destruct shp as [|n shp]; [discriminate|]. destruct (_ && _)%bool eqn:B; [|discriminate]. destruct (index_dims l shp) as [[s' g']|e] eqn:E; [|discriminate].
    cbn [bind] in H. injection H as <- <-. apply andb_prop in B. destruct B as [B1 B2]. apply Z.leb_le in B1. apply Z.ltb_lt in B2. constructor; [lia|eapply IH; eauto].
  - destruct shp as [|n shp]; [discriminate|]. destruct (index_dims l shp) as [[s' g']|e] eqn:E; [|discriminate]. cbn [bind] in H. injection H as <- <-.
    inversion Vi; subst. cbn [hd tl]. constructor; [lia|eapply IH; eauto].
  - destruct shp as [|n shp]; [discriminate|]. destruct (index_dims l shp) as [[s' g']|e] eqn:E; [|discriminate]. cbn [bind] in H. injection H as <- <-.
    inversion Vi; subst. cbn [hd tl]. constructor; [lia|eapply IH; eauto].
  - destruct (index_dims l shp) as [[s' g']|e] eqn:E; [|discriminate]. cbn [bind] in H. injection H as <- <-. inversion Vi; subst. cbn [tl]. eapply IH; eauto.
Qed.
Lemma fill_front : forall k m l, fill_ellipsis m (repeat IAll k ++ l) = repeat IAll k ++ fill_ellipsis m l.
Proof. induction k as [|k IH]; intros m l; cbn [repeat app fill_ellipsis]; auto. now rewrite IH. Qed.
Lemma consumed_front : forall k l, consumed (repeat IAll k ++ l) = k + consumed l.
Proof. induction k as [|k IH]; intros l; auto. unfold consumed in *. cbn [repeat app filter consumes length]. now rewrite IH. Qed.
Lemma repeat_add : forall {A} (x : A) n m, repeat x (n + m) = repeat x n ++ repeat x m.
Proof. intros A x n m. induction n; simpl; congruence. Qed.

Lemma torch_index_front : forall {A} (items full : list idx_item) (q ev : list nat) (u : ten A), leaves_front items full (length q) (length ev) -> shape u = q ++ ev ->
  match torch_index items (mkten ev (fun e => e)) with
  | Ok t1 => exists t, torch_index full u = Ok t /\ shape t = q ++ shape t1 /\ (forall e, valid e (shape t1) -> valid (el t1 e) ev) /\
      forall x e, length x = length q -> el t (x ++ e) = el u (x ++ el t1 e)
  | Err e => torch_index full u = Err e
  end.
Proof.
  intros A items full q ev u HL Hu.
  assert (F : (ndim u <? consumed full) = (length ev <? consumed items) /\ fill_ellipsis (ndim u - consumed full) full = repeat IAll (length q) ++ fill_ellipsis (length ev - consumed items) items).
  { unfold ndim. rewrite Hu, app_length. destruct HL as [->|[-> [r [-> Hr]]]].
    - rewrite consumed_front, fill_front. replace (length q + length ev - (length q + consumed items)) with (length ev - consumed items) by lia. split; auto.
      destruct (Nat.ltb_spec (length ev) (consumed items)), (Nat.ltb_spec (length q + length ev) (length q + consumed items)); auto; lia.
    - change (consumed (IEllipsis :: r)) with (consumed r). cbn [fill_ellipsis].
      replace (length q + length ev - consumed r) with (length q + (length ev - consumed r)) by lia. rewrite repeat_add, app_assoc. split; auto.
      destruct (Nat.ltb_spec (length ev) (consumed r)), (Nat.ltb_spec (length q + length ev) (consumed r)); auto; lia. }
  destruct F as [F1 F2]. unfold torch_index. rewrite F1, F2. unfold ndim at 1 2. cbn [shape]. destruct (length ev <? consumed items); [reflexivity|].
  pose proof (index_front (length q) q (fill_ellipsis (length ev - consumed items) items) ev eq_refl) as I.
  pose proof (index_valid (fill_ellipsis (length ev - consumed items) items) ev) as IV. rewrite Hu.
  destruct (index_dims (fill_ellipsis (length ev - consumed items) items) ev) as [[s g]|e]; cbn [bind].
  - destruct I as [g' [E G]]. rewrite E. cbn [bind]. eexists. split; [reflexivity|]. cbn [shape el]. split; [reflexivity|]. split; [intros e He; eapply IV; eauto|].
    intros x e Hx. now rewrite G.
  - now rewrite I.
Qed.
Lemma torch_index_map : forall {A} l (t : ten A), torch_index l t = match torch_index l (mkten (shape t) (fun e => e)) with Ok t1 => Ok (mkten (shape t1) (fun i => el t (el t1 i))) | Err e => Err e end.
Proof.
  intros A l t. unfold torch_index, ndim. cbn [shape]. destruct (length (shape t) <? consumed l); auto.
  destruct (index_dims (fill_ellipsis (length (shape t) - consumed l) l) (shape t)) as [[s g]|e]; reflexivity.
Qed.

Section GetitemProofs.
Context {V : Type}.
Variable veq : V -> V -> bool.
Variable anc_unwrap : plate V -> stensor V -> res (stensor V).
Notation plate := (plate V).
Notation stensor := (stensor V).
Notation N l := (map (@pname V) l).

(** A call on one storch tensor hands its tensor over. *)
Lemma prepare_single : forall (a : stensor) o, callable veq [a] -> o_unwrap o = true -> o_align o = true -> o_flatten o = false -> o_dim o = None -> o_dims o = None ->
  exists u, prepare_args veq anc_unwrap [PT a] [] o = Ok ([PRaw u], [], [a], all_plates [a]) /\ teq (st a) u.
Proof.
  intros a o HC H1 H2 H3 H4 H5. pose proof (proj1 HC) as Hw. inversion Hw as [|? ? Hw' _]; subst.
  destruct (prepare_args_gen veq anc_unwrap (fun a u => teq (st a) u) [PT a] [] o [a]) as [args' [kwargs' [E [F1 F2]]]]; auto; try (repeat constructor; fail).
  { intros t Ht. destruct (unwrap_side veq anc_unwrap [a] t HC Ht) as [S1 [S2 [S3 [S4 [S5 [S6 [S7 S8]]]]]]]. destruct Ht as [<-|[]].
    set (o' := mkW true true true (o_expand o) false None None).
    destruct (unwrap_tensor_spec veq anc_unwrap (wide (all_plates [a])) o' (max_event [a]) a (flat_map splates [a])) as [u [U1 U2]]; auto; [apply HC|].
    exists u. split.
    - rewrite <- U1. unfold unwrap_tensor. rewrite H2, H3. cbn [o' o_align o_flatten o_lbroadcast o_expand negb].
      destruct (foldM _ (wide (all_plates [a])) a) as [a'|] eqn:Ea; [|reflexivity]. cbn [bind].
      assert (a' = a) as ->.
      { revert Ea. clear -S7. induction (wide (all_plates [a])) as [|p l IH]; simpl; [congruence|]. rewrite (S7 p) by (simpl; auto). cbn [bind]. apply IH. intros q Hq. apply S7. simpl; auto. }
      change (max_event [a]) with (s_event_dims a). rewrite Nat.ltb_irrefl, !andb_false_r. reflexivity.
    - rewrite all_plates_single in U2. change (max_event [a]) with (s_event_dims a) in U2. eapply laid_out_self; eauto. }
  inversion F2; subst. inversion F1 as [|? x ? r U F]; subst. inversion F; subst. inversion U; subst. eauto.
Qed.

Theorem getitem_spec : forall (a : stensor) items full base, callable veq [a] -> leaves_front items full (length (wide (splates a))) (length (s_event_shape a)) ->
  (exists r, getitem veq anc_unwrap a full base = Ok (PT r) /\ splates r = splates a /\ wf r /\ sparents r = [sid a] /\
     forall s, in_range s (splates a) -> exists t, torch_index items (at_sample s a) = Ok t /\ teq t (at_sample s r)) \/
  (exists e, getitem veq anc_unwrap a full base = Err e /\ forall s, torch_index items (at_sample s a) = Err e).
Proof.
  intros a items full base HC HL. pose proof (proj1 HC) as Hw. inversion Hw as [|? ? Hw' _]; subst.
  destruct (prepare_single a getitem_opts HC) as [u [E [Hs X]]]; auto. rewrite (wf_shape a Hw') in Hs, X.
  destruct (call_done veq anc_unwrap (torch_fn1 (torch_index full)) _ _ _ _ [a] getitem_opts base ltac:(discriminate) HC eq_refl E) as [K1 [K2 _]].
  fold (getitem veq anc_unwrap a full base) in K1, K2. rewrite all_plates_single in K2.
  pose proof (torch_index_front items full (map pn (wide (splates a))) (s_event_shape a) u) as T. rewrite map_length in T. specialize (T HL (eq_sym Hs)).
  destruct (torch_index items (mkten (s_event_shape a) (fun e => e))) as [t1|e] eqn:E1.
  - left. destruct T as [t [T1 [T2 [T3 T4]]]]. destruct (K2 t (shape t1)) as [r [R1 [R2 [R3 [R4 [R5 [R6 R7]]]]]]]; [cbn [torch_fn1]; rewrite T1; reflexivity|exact T2|].
    rewrite all_plates_single in R2. exists r. split; [exact R1|]. split; [exact R2|]. split; [exact R5|]. split; [exact R6|]. intros s Hs'.
    rewrite torch_index_map. cbn [at_sample shape]. rewrite E1. eexists. split; [reflexivity|]. split; [cbn [shape]; auto|]. intros e He. cbn [shape el at_sample] in *. unfold den. rewrite R3, R2.
    rewrite T4 by now rewrite !map_length. apply X. unfold valid. apply Forall2_app; [apply valid_choice; now apply in_range_wide_all|]. now apply T3.
  - right. exists e. split; [apply K1; cbn [torch_fn1]; rewrite T; reflexivity|]. intros s. rewrite torch_index_map. cbn [at_sample shape]. now rewrite E1.
Qed.

(** A number as index: it selects a sample of the first plate. *)
Theorem getitem_number : forall (a : stensor) i base p ps, callable veq [a] -> wide (splates a) = p :: ps -> i < pn p ->
  let call := getitem veq anc_unwrap a [IInt (Z.of_nat i)] base in
  ((forall evc, map pn ps ++ s_event_shape a <> pn p :: map pn ps ++ evc) -> call = Err ValueError) /\
  (forall evc, ps = [] -> s_event_shape a = pn p :: evc -> exists r, call = Ok (PT r) /\ splates r = splates a /\ s_event_shape r = evc /\
     forall s e, in_range s (splates a) -> valid e evc -> den r s e = den a (set_to s (pname p) i) (s (pname p) :: e)).
Proof.
  intros a i base p ps HC Hp Hi call. pose proof (proj1 HC) as Hw. inversion Hw as [|? ? Hw' _]; subst.
  destruct (prepare_single a getitem_opts HC) as [u [E [Hs X]]]; auto. rewrite (wf_shape a Hw') in Hs, X. rewrite Hp in Hs, X. cbn [map app] in Hs, X.
  destruct (call_done veq anc_unwrap (torch_fn1 (torch_index [IInt (Z.of_nat i)])) _ _ _ _ [a] getitem_opts base ltac:(discriminate) HC eq_refl E) as [K1 [K2 [K3 _]]].
  fold (getitem veq anc_unwrap a [IInt (Z.of_nat i)] base) in K1, K2, K3. fold call in K1, K2, K3. rewrite all_plates_single in K2, K3. rewrite Hp in K2, K3. cbn [map app] in K2, K3.
  assert (T : torch_index [IInt (Z.of_nat i)] u = Ok (mkten (map pn ps ++ s_event_shape a) (fun e => el u (i :: e)))).
  { unfold torch_index, ndim. rewrite <- Hs. cbn [length consumed filter consumes fill_ellipsis]. cbn [Nat.ltb Nat.leb]. cbn [index_dims].
    destruct (Z.ltb_spec (Z.of_nat i) 0); [lia|]. destruct (Z.leb_spec 0 (Z.of_nat i)); [|lia]. destruct (Z.ltb_spec (Z.of_nat i) (Z.of_nat (pn p))); [|lia].
    cbn [andb bind]. now rewrite Nat2Z.id. }
  split.
  - intros Hne. apply (K3 _ ltac:(cbn [torch_fn1]; rewrite T; reflexivity)). exact Hne.
  - intros evc -> Hev. cbn [map app] in *. destruct (K2 _ evc ltac:(cbn [torch_fn1]; rewrite T; reflexivity) Hev) as [r [R1 [R2 [R3 [R4 _]]]]]. rewrite all_plates_single in R2.
    exists r. split; [exact R1|]. split; [exact R2|]. split; [exact R4|]. intros s e Hse He. unfold den. rewrite R3, R2, Hp. cbn [map app el].
    unfold set_to. rewrite String.eqb_refl. symmetry. apply X. constructor; [exact Hi|]. rewrite Hev. constructor; [|exact He]. apply Hse.
    assert (Hin : In p (wide (splates a))) by (rewrite Hp; simpl; auto). apply In_wide in Hin. tauto.
Qed.
End GetitemProofs.
