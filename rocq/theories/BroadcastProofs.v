(** Proofs about torch.broadcast_tensors on storch tensors. *)
From Coq Require Import String List Arith Bool Lia.
From Verif Require Import Base Torch Plates Wrap TensorFns SpecTensor SpecWrap SpecSample ListLemmas IndexLemmas WrapProofs PlateEqProofs AlignProofs CallProofs CallProofs2 OpProofs CallN CallV SharedProofs.
Import ListNotations.
Open Scope nat_scope.
Open Scope list_scope.

Lemma expandable_rev_refl : forall a, expandable_rev a a = true.
Proof. induction a as [|x a IH]; simpl; auto. now rewrite Nat.eqb_refl, IH. Qed.
Lemma expandable_rev_trans : forall a b c, expandable_rev a b = true -> expandable_rev b c = true -> expandable_rev a c = true.
Proof.
  induction a as [|x a IH]; intros b c H1 H2; simpl; auto. destruct b as [|y b]; [discriminate|]. destruct c as [|z c]; [discriminate|].
  simpl in *. apply andb_prop in H1. apply andb_prop in H2. destruct H1 as [H1 H1'], H2 as [H2 H2']. rewrite (IH b c) by auto. rewrite andb_true_r.
  destruct (Nat.eqb_spec x 1) as [->|]; [apply orb_true_r|]. destruct (Nat.eqb_spec x y) as [->|]; [|discriminate].
  destruct (Nat.eqb_spec y z), (Nat.eqb_spec y 1); try discriminate; try reflexivity; lia.
Qed.
Lemma bshape_rev_expandable : forall a b c, bshape_rev a b = Some c -> expandable_rev a c = true /\ expandable_rev b c = true.
Proof.
  induction a as [|x a IH]; intros b c H.
  - simpl in H. injection H as <-. split; [reflexivity|apply expandable_rev_refl].
  - destruct b as [|y b]; simpl in H; [injection H as <-; split; [apply expandable_rev_refl|reflexivity]|].
    destruct (bshape_rev a b) as [r|] eqn:E; [|discriminate]. destruct (IH b r E) as [E1 E2].
    destruct (Nat.eqb_spec x y) as [->|]; [injection H as <-; simpl; rewrite E1, E2, Nat.eqb_refl; auto|].
    destruct (Nat.eqb_spec x 1) as [->|]; [injection H as <-; simpl; rewrite E1, E2, !Nat.eqb_refl, orb_true_r; auto|].
    destruct (Nat.eqb_spec y 1) as [->|]; [injection H as <-; simpl; rewrite E1, E2, !Nat.eqb_refl, orb_true_r; auto|discriminate].
Qed.
Definition exp_to (a c : list nat) : Prop := expandable_rev (rev a) (rev c) = true.
Lemma bshape_exp : forall a b c, bshape a b = Some c -> exp_to a c /\ exp_to b c.
Proof.
  intros a b c H. unfold bshape in H. destruct (bshape_rev (rev a) (rev b)) as [r|] eqn:E; [|discriminate]. injection H as <-.
  apply bshape_rev_expandable in E. unfold exp_to. now rewrite rev_involutive.
Qed.
Lemma exp_trans : forall a b c, exp_to a b -> exp_to b c -> exp_to a c.
Proof. intros a b c. apply expandable_rev_trans. Qed.
Lemma exp_rev_clip : forall a c idx, expandable_rev a c = true -> length a = length c -> valid idx c -> valid (zip_clip a idx) a.
Proof.
  induction a as [|x a IH]; intros [|z c] idx H L V; simpl in *; try discriminate; try constructor.
  inversion V; subst. apply andb_prop in H. destruct H as [H H']. injection L as L. simpl. constructor; [|eapply IH; eauto].
  destruct (Nat.eqb_spec x z), (Nat.eqb_spec x 1); try discriminate; lia.
Qed.
Lemma exp_clip : forall a c idx, exp_to a c -> length a = length c -> valid idx c -> valid (bidx a idx) a.
Proof.
  intros a c idx H L V. pose proof (valid_length _ _ V) as Li. rewrite bidx_same by lia.
  apply exp_rev_clip with (idx := rev idx) in H; [|now rewrite !rev_length|now apply valid_rev].
  rewrite zip_clip_rev in H by lia. apply valid_rev in H. now rewrite !rev_involutive in H.
Qed.
Lemma bshape_app : forall p q a b, length a = length b -> length p = length q ->
  bshape (p ++ a) (q ++ b) = match bshape p q, bshape a b with Some x, Some y => Some (x ++ y) | _, _ => None end.
Proof.
  intros p q a b L L'. unfold bshape. rewrite !rev_app_distr, bshape_rev_app by now rewrite !rev_length.
  destruct (bshape_rev (rev a) (rev b)), (bshape_rev (rev p) (rev q)); simpl; auto. now rewrite rev_app_distr.
Qed.
Lemma bshape_len_le : forall a b c M, bshape a b = Some c -> length a <= M -> length b <= M -> length c <= M.
Proof.
  intros a b c M H La Lb. destruct (le_lt_dec (length b) (length a)).
  - now rewrite (bshape_len _ _ _ l H).
  - rewrite bshape_sym in H. rewrite (bshape_len b a c); auto; lia.
Qed.

Definition step (s : list nat) (sh : list nat) : res (list nat) := match bshape s sh with Some r => Ok r | None => Err RuntimeError end.
Lemma step_fold : forall {A} (ts : list (ten A)) s, foldM (fun s t => match bshape s (shape t) with Some r => Ok r | None => Err RuntimeError end) ts s = foldM step (map shape ts) s.
Proof. induction ts as [|t ts IH]; intros s; simpl; auto. unfold step at 1. destruct (bshape s (shape t)); simpl; auto. Qed.
Lemma fold_err : forall l s e, foldM step l s = Err e -> e = RuntimeError.
Proof. induction l as [|x l IH]; intros s e H; simpl in H; [discriminate|]. unfold step at 1 in H. destruct (bshape s x); simpl in H; [eauto|congruence]. Qed.
Lemma fold_exp : forall l s c, foldM step l s = Ok c -> exp_to s c /\ Forall (fun x => exp_to x c) l.
Proof.
  induction l as [|x l IH]; intros s c H; simpl in H; [injection H as <-; split; [apply expandable_rev_refl|constructor]|].
  unfold step at 1 in H. destruct (bshape s x) as [r|] eqn:E; simpl in H; [|discriminate]. destruct (IH _ _ H) as [I1 I2]. destruct (bshape_exp _ _ _ E).
  split; [eapply exp_trans; eauto|]. constructor; auto. eapply exp_trans; eauto.
Qed.
Lemma mapM_expand : forall {A} (ts : list (ten A)) c, Forall (fun x => exp_to x c) (map shape ts) ->
  mapM (expand c) ts = Ok (map (fun t => mkten c (fun idx => el t (bidx (shape t) idx))) ts).
Proof.
  induction ts as [|t ts IH]; intros c F; simpl; auto. inversion F; subst. unfold expand at 1. unfold exp_to in H1. rewrite H1. cbn [bind]. rewrite IH by auto. reflexivity.
Qed.
Lemma broadcast_ok : forall {A} (ts : list (ten A)) c, foldM step (map shape ts) [] = Ok c ->
  broadcast_tensors ts = Ok (map (fun t => mkten c (fun idx => el t (bidx (shape t) idx))) ts).
Proof. intros A ts c H. unfold broadcast_tensors. rewrite step_fold, H. cbn [bind]. apply mapM_expand. apply (fold_exp _ _ _ H). Qed.
Lemma broadcast_err : forall {A} (ts : list (ten A)) e, foldM step (map shape ts) [] = Err e -> broadcast_tensors ts = Err RuntimeError.
Proof. intros A ts e H. unfold broadcast_tensors. rewrite step_fold, H, (fold_err _ _ _ H). reflexivity. Qed.

Section BroadcastProofs.
Context {V : Type}.
Variable veq : V -> V -> bool.
Variable anc_unwrap : plate V -> stensor V -> res (stensor V).
Notation plate := (plate V).
Notation stensor := (stensor V).
Notation N l := (map (@pname V) l).

(** The plate dimensions of a broadcast of the tensors [seen]. *)
Definition covered (seen : list stensor) (p : plate) : bool := existsb (fun t => has (splates t) (pname p)) seen.
Definition Q (ps : list plate) (seen : list stensor) : list nat := map (fun p => if covered seen p then pn p else 1) ps.
Lemma Q_step : forall ps seen t, (forall p, In p ps -> 1 < pn p) ->
  bshape (Q ps seen) (map (fun p => if has (splates t) (pname p) || false then pn p else 1) ps) = Some (Q ps (seen ++ [t])).
Proof.
  intros ps seen t H. apply broadcasts_bshape. unfold Q. induction ps as [|p ps IH]; simpl; [constructor|].
  unfold covered at 1 3. rewrite existsb_app. cbn [existsb]. rewrite !orb_false_r.
  assert (IH' := IH (fun q Hq => H q (or_intror Hq))).
  destruct (existsb _ seen), (has (splates t) (pname p)); cbn [orb]; constructor; exact IH'.
Qed.

(** Shapes of the torch tensors of a call and of the events. *)
Definition full_shape (ps : list plate) (M : nat) (x : operand V) : list nat :=
  match x with inl a => map (fun p => if has (splates a) (pname p) || false then pn p else 1) ps ++ pad M (s_event_shape a) | inr w => shape w end.
Definition event_shape (M : nat) (x : operand V) : list nat := match x with inl a => pad M (s_event_shape a) | inr w => shape w end.
Definition front (ps : list plate) (seen : list stensor) : list nat := match seen with [] => [] | _ => Q ps seen end.
Lemma fold_shapes : forall ps M, (forall p, In p ps -> 1 < pn p) -> forall args seen ev,
  (forall a, In (inl a) args -> s_event_dims a <= M) -> ranks_fit M args ->
  length ev <= M -> (seen <> [] -> length ev = M) ->
  foldM step (map (full_shape ps M) args) (front ps seen ++ ev)
  = match foldM step (map (event_shape M) args) ev with Ok c => Ok (front ps (seen ++ storch_of args) ++ c) | Err e => Err e end.
Proof.
  intros ps M Hps. induction args as [|x args IH]; intros seen ev Ha Hr L Ls; [simpl; now rewrite app_nil_r|].
  assert (Ha' : forall a, In (inl a) args -> s_event_dims a <= M) by (intros; apply Ha; simpl; auto).
  assert (Hr' : ranks_fit M args) by (intros w Hw; apply Hr; simpl; auto).
  cbn [map foldM]. destruct x as [a|w]; cbn [full_shape event_shape].
  - assert (Lp : length (pad M (s_event_shape a)) = M) by (apply pad_length; apply (Ha a); simpl; auto).
    replace (seen ++ storch_of (inl a :: args)) with ((seen ++ [a]) ++ storch_of args) by (rewrite <- app_assoc; reflexivity).
    assert (E : step (front ps seen ++ ev) (map (fun p => if has (splates a) (pname p) || false then pn p else 1) ps ++ pad M (s_event_shape a))
      = match step ev (pad M (s_event_shape a)) with Ok c => Ok (front ps (seen ++ [a]) ++ c) | Err e => Err e end).
    { unfold step. destruct seen as [|b seen].
      - cbn [front app]. rewrite bshape_sym, bshape_front by lia. rewrite bshape_sym. destruct (bshape ev (pad M (s_event_shape a))); cbn [option_map]; reflexivity.
      - assert (Le : length ev = M) by (apply Ls; discriminate). cbn [front]. rewrite bshape_app by (rewrite ?map_length; unfold Q; rewrite ?map_length; lia).
        rewrite Q_step by auto. destruct (bshape ev (pad M (s_event_shape a))); auto. }
    rewrite E. destruct (step ev (pad M (s_event_shape a))) as [c|e] eqn:E2; cbn [bind]; auto.
    assert (Lc : length c = M). { unfold step in E2. destruct (bshape ev (pad M (s_event_shape a))) as [r|] eqn:B; [|discriminate]. injection E2 as <-. rewrite bshape_sym in B. assert (L2 : length ev <= length (pad M (s_event_shape a))) by lia. rewrite (bshape_len _ _ _ L2 B). exact Lp. }
    apply IH; auto; lia.
  - assert (Lw : length (shape w) <= M) by (apply (Hr w); simpl; auto).
    cbn [storch_of flat_map app].
    assert (E : step (front ps seen ++ ev) (shape w) = match step ev (shape w) with Ok c => Ok (front ps seen ++ c) | Err e => Err e end).
    { unfold step. destruct seen as [|b seen]; [cbn [front app]; destruct (bshape ev (shape w)); auto|].
      assert (Le : length ev = M) by (apply Ls; discriminate). rewrite bshape_front by lia. destruct (bshape ev (shape w)); auto. }
    rewrite E. destruct (step ev (shape w)) as [c|e] eqn:E2; cbn [bind]; auto.
    unfold step in E2. destruct (bshape ev (shape w)) as [r|] eqn:B; [|discriminate]. injection E2 as <-.
    apply IH; auto; [eapply bshape_len_le; eauto|]. intros Hs. assert (L2 : length (shape w) <= length ev) by (rewrite (Ls Hs); exact Lw). rewrite (bshape_len _ _ _ L2 B). auto.
Qed.

Lemma storch_values : forall args : list (operand V), call_tensors (map as_value args) [] = storch_of args.
Proof.
  intros args. unfold call_tensors. cbn [flat_map]. rewrite app_nil_r. induction args as [|[a|w] args IH]; simpl; auto. now f_equal.
Qed.
Lemma raws_operands : forall (R : stensor -> ten V -> Prop) (args : list (operand V)) l, Forall2 (unwrapped R) (map as_value args) l ->
  exists us, l = map (@PRaw V) us /\ Forall2 (fun x u => match x with inl a => R a u | inr w => u = w end) args us.
Proof.
  induction args as [|x args IH]; intros l F; inversion F as [|? y ? r U F']; subst; [exists []; auto|].
  destruct (IH _ F') as [us [-> G]]. destruct x as [a|w]; cbn [as_value] in U; inversion U; subst; eexists (_ :: us); (split; [reflexivity|constructor; auto]).
Qed.

Theorem broadcast_spec : forall (args : list (operand V)) base, storch_of args <> [] -> callable veq (storch_of args) ->
  let M := max_event (storch_of args) in ranks_fit M args ->
  let one s := broadcast_tensors (map (operand_at M s) args) in
  (exists rs, st_broadcast veq anc_unwrap (map as_value args) base = Ok (PTuple (map PT rs)) /\
     Forall (fun r => splates r = all_plates (storch_of args) /\ wf r /\ sparents r = map sid (storch_of args)) rs /\
     forall s, in_range s (all_plates (storch_of args)) -> exists us, one s = Ok us /\ Forall2 (fun u r => teq u (at_sample s r)) us rs) \/
  (st_broadcast veq anc_unwrap (map as_value args) base = Err RuntimeError /\ forall s, one s = Err RuntimeError).
Proof.
  intros args base Hne HC M Hr one. set (ts := storch_of args) in *.
  destruct (prepare_args_laid_out veq anc_unwrap (map as_value args) [] default_opts ts) as [args' [kwargs' [E [F1 F2]]]]; auto.
  { symmetry. apply storch_values. } { apply Forall_forall. intros v Hv. apply in_map_iff in Hv. destruct Hv as [[a|w] [<- _]]; exact I. }
  inversion F2; subst kwargs'. destruct (raws_operands _ _ _ F1) as [us [-> F]]. fold M in F. set (ps := wide (all_plates ts)) in *. cbn [o_expand default_opts] in F.
  destruct (call_done veq anc_unwrap broadcast_fn _ _ _ _ ts default_opts base Hne HC eq_refl E) as [K1 [_ [_ K4]]].
  assert (Hps : forall p, In p ps -> 1 < pn p) by (intros p Hp; apply In_wide in Hp; tauto).
  assert (Hed : forall a, In (inl a) args -> s_event_dims a <= M).
  { intros a Ha. apply max_event_ge. left. apply in_flat_map. exists (inl a). split; [exact Ha|simpl; auto]. }
  assert (Sf : map shape us = map (full_shape ps M) args).
  { clear -F. clearbody ps M. clear ts. induction F as [|x u args us H F IH]; simpl; auto. rewrite IH. f_equal. destruct x as [a|w]; cbn [full_shape]; [apply H|now subst]. }
  assert (Se : forall s, map shape (map (operand_at M s) args) = map (event_shape M) args).
  { intros s. rewrite map_map. apply map_ext. intros [a|w]; reflexivity. }
  pose proof (fold_shapes ps M Hps args [] [] Hed Hr ltac:(simpl; lia) ltac:(congruence)) as FS. cbn [front app] in FS. fold ts in FS.
  assert (HQ : front ps ts = map pn ps).
  { destruct ts as [|t0 ts0] eqn:Et; [congruence|]. cbn [front]. unfold Q. apply map_ext_in. intros p Hp. replace (covered (t0 :: ts0) p) with true; auto. symmetry.
    apply In_wide in Hp. destruct Hp as [Hp _]. destruct (all_plates_facts veq anc_unwrap _ HC) as [_ [_ X]].
    destruct (proj1 (X (pname p)) (in_map _ _ _ Hp)) as [t [Ht Hn]]. unfold covered. apply existsb_exists. exists t. split; auto. now apply has_In. }
  unfold st_broadcast.
  destruct (foldM step (map (event_shape M) args) []) as [ec|e] eqn:FE.
  - left. rewrite HQ in FS. rewrite <- Sf in FS.
    assert (Lec : length ec = M).
    { assert (L1 : forall x, exp_to x ec -> length x <= length ec).
      { intros x Hx. unfold exp_to in Hx. rewrite <- (rev_length x), <- (rev_length ec). revert Hx. generalize (rev ec). induction (rev x) as [|y r IH]; intros c Hx; simpl in *; [lia|]. destruct c; [discriminate|]. apply andb_prop in Hx. simpl. specialize (IH c (proj2 Hx)). lia. }
      pose proof (proj2 (fold_exp _ _ _ FE)) as FX.
      assert (L2 : length ec <= M).
      { clear -FE Hed Hr. assert (G : forall l s, length s <= M -> Forall (fun x => length x <= M) l -> forall c, foldM step l s = Ok c -> length c <= M).
        { induction l as [|x l IH]; intros s Hs Hl c H; simpl in H; [injection H as <-; auto|]. unfold step at 1 in H. destruct (bshape s x) as [r|] eqn:B; simpl in H; [|discriminate].
          inversion Hl; subst. apply (IH r); auto. apply (bshape_len_le _ _ _ _ B); auto. }
        eapply G; [| |exact FE]; [simpl; lia|]. apply Forall_forall. intros x Hx. apply in_map_iff in Hx. destruct Hx as [[a|w] [<- Hx]]; cbn [event_shape]; [rewrite pad_length; auto; now apply Hed|apply Hr; auto]. }
      destruct ts as [|t0 ts0] eqn:Et; [congruence|]. assert (Ht : In t0 (storch_of args)) by (fold ts; rewrite Et; simpl; auto).
      apply in_flat_map in Ht. destruct Ht as [[a|w] [Hx Hy]]; [|destruct Hy]. rewrite Forall_forall in FX. specialize (FX _ (in_map (event_shape M) _ _ Hx)).
      apply L1 in FX. cbn [event_shape] in FX. rewrite pad_length in FX by now apply Hed. lia. }
    pose proof (broadcast_ok us _ FS) as B1.
    set (vs := map (fun t => mkten (map pn ps ++ ec) (fun idx => el t (bidx (shape t) idx))) us) in *.
    destruct (K4 vs) with (evcs := map (fun _ => ec) us) as [rs [R1 R2]].
    { unfold broadcast_fn. rewrite raws_map, B1. reflexivity. }
    { unfold vs. clear. induction us; simpl; constructor; auto. }
    exists rs. split; [exact R1|].
    assert (R3 : Forall2 (fun u r => made ts ec (mkten (map pn ps ++ ec) (fun idx => el u (bidx (shape u) idx))) r) us rs).
    { revert R2. unfold vs. clear. revert rs. induction us as [|u us IH]; intros rs R2; simpl in R2; inversion R2; subst; constructor; auto. }
    split.
    { clear -R3. induction R3 as [|u r us rs H R3 IH]; constructor; auto. destruct H as [H1 [H2 [H3 [H4 [H5 _]]]]]. auto. }
    intros s Hs. rewrite <- (Se s) in FE. unfold one. rewrite (broadcast_ok _ _ FE). eexists. split; [reflexivity|].
    pose proof (proj2 (fold_exp _ _ _ FE)) as FX. rewrite Se in FX.
    assert (Hs' : in_range s ps) by now apply in_range_wide_all.
    assert (Eps : wide (all_plates ts) = ps) by reflexivity.
    revert Hed Hr FX. clear - F R3 Hps Hs' Lec Eps. clearbody ps M. clearbody ts. revert rs R3. induction F as [|x u args us H F IH]; intros rs R3 Hed Hr FX; inversion R3 as [|? r ? rs' M1 R3']; subst; [constructor|].
    cbn [map] in FX. inversion FX as [|? ? X1 X2]; subst. cbn [map]. constructor; [|apply IH; auto; [intros; apply Hed; simpl; auto|intros w Hw; apply Hr; simpl; auto]].
    destruct M1 as [M1 [M2 [M3 _]]]. split; [cbn [shape at_sample]; auto|]. intros e He. cbn [shape] in He. pose proof (valid_length _ _ He) as Le.
    cbn [el at_sample]. unfold den. rewrite M2, M1. cbn [el].
    destruct x as [a|w]; cbn [operand_at slice shape el].
    + destruct H as [Su Xu]. rewrite Su.
      assert (Lp : length (pad (length ec) (s_event_shape a)) = length ec) by (apply pad_length; apply (Hed a); simpl; auto).
      rewrite (bidx_same (_ ++ _)) by (rewrite !app_length, !map_length; lia). rewrite zip_clip_app by now rewrite !map_length. rewrite clip_choice2 by auto.
      rewrite <- (bidx_same (pad (length ec) (s_event_shape a))) by lia.
      symmetry. apply Xu; auto. apply (exp_clip _ ec); auto.
    + subst u. rewrite bidx_front; auto. rewrite Le. apply Hr. simpl; auto.
  - right. split.
    + apply K1. unfold broadcast_fn. rewrite raws_map. rewrite <- Sf in FS. rewrite (broadcast_err us e) by exact FS. reflexivity.
    + intros s. unfold one. apply (broadcast_err _ e). now rewrite Se.
Qed.

(** A torch vector next to numbers: it is taken for the samples of the last plate. *)
Theorem broadcast_vector : forall (a : stensor) (w : ten V) base p k, callable veq [a] -> s_event_shape a = [] ->
  last (wide (splates a)) p = p -> wide (splates a) <> [] -> shape w = [k] -> k <> 1 ->
  let call := st_broadcast veq anc_unwrap [PT a; PRaw w] base in
  (k <> pn p -> call = Err RuntimeError) /\
  (k = pn p -> exists r1 r2, call = Ok (PTuple [PT r1; PT r2]) /\ splates r2 = splates a /\ s_event_shape r2 = [] /\
     forall s, in_range s (splates a) -> den r2 s [] = el w [s (pname p)]).
Proof.
  intros a w base p k HC He Hl Hne Hw Hk call. pose proof (proj1 HC) as Hwf. inversion Hwf as [|? ? Hw' _]; subst.
  destruct (prepare_args_laid_out veq anc_unwrap [PT a; PRaw w] [] default_opts [a]) as [args' [kwargs' [E [F1 F2]]]]; auto.
  { repeat constructor. }
  inversion F2; subst kwargs'. inversion F1 as [|? y ? r U F1']; subst. inversion F1' as [|? y2 ? r2 U2 F1'']; subst. inversion F1''; subst. inversion U as [? u L1| | | | | | | |]; subst. inversion U2; subst.
  clear F1 F2 F1' F1'' U U2. rewrite all_plates_single in L1. change (max_event [a]) with (s_event_dims a) in L1. destruct (laid_out_self _ _ _ Hw' L1) as [Su _]. rewrite (wf_shape a Hw'), He, app_nil_r in Su.
  destruct (call_done veq anc_unwrap broadcast_fn _ _ _ _ [a] default_opts base ltac:(discriminate) HC eq_refl E) as [K1 [_ [_ K4]]].
  fold (st_broadcast veq anc_unwrap [PT a; PRaw w] base) in K1, K4. fold call in K1, K4. rewrite all_plates_single in K4. unfold broadcast_fn in K4. change (raws [PRaw u; PRaw w]) with (Some [u; w]) in K4. cbv iota beta in K4.
  pose proof (app_removelast_last p Hne) as EL. rewrite Hl in EL. set (l := removelast (wide (splates a))) in *.
  assert (Hp : 1 < pn p). { assert (In p (wide (splates a))) by (rewrite EL; apply in_or_app; simpl; auto). apply In_wide in H. tauto. }
  assert (Su' : shape u = map pn l ++ [pn p]) by (rewrite <- Su, EL, map_app; reflexivity).
  assert (B0 : forall x, bshape [] x = Some x) by (intros x; apply bshape_nil_l).
  split.
  - intros Hkp. apply K1. unfold broadcast_fn. change (raws [PRaw u; PRaw w]) with (Some [u; w]). cbv iota beta. rewrite (broadcast_err [u; w] RuntimeError); [reflexivity|]. cbn [map foldM]. unfold step at 1. rewrite B0. cbn [bind]. unfold step.
    replace (bshape (shape u) (shape w)) with (@None (list nat)); [reflexivity|]. rewrite Su', Hw, bshape_front by (simpl; lia). unfold bshape. cbn [rev app bshape_rev].
    destruct (Nat.eqb_spec (pn p) k); [congruence|]. destruct (Nat.eqb_spec (pn p) 1); [lia|]. destruct (Nat.eqb_spec k 1); [lia|]. reflexivity.
  - intros Hkp.
    assert (FS : foldM step (map shape [u; w]) [] = Ok (map pn l ++ [pn p])).
    { cbn [map foldM]. unfold step. rewrite B0. cbn [bind]. replace (bshape (shape u) (shape w)) with (Some (map pn l ++ [pn p])); [reflexivity|].
      rewrite Su', Hw, bshape_front by (simpl; lia). unfold bshape. cbn [rev app bshape_rev]. rewrite Hkp, Nat.eqb_refl. reflexivity. }
    pose proof (broadcast_ok _ _ FS) as B. cbn [map] in B. rewrite B in K4. cbn [bind] in K4.
    destruct (K4 [mkten (map pn l ++ [pn p]) (fun idx => el u (bidx (shape u) idx)); mkten (map pn l ++ [pn p]) (fun idx => el w (bidx (shape w) idx))] eq_refl [[]; []]) as [rs [R1 R2]].
    { assert (X : map pn l ++ [pn p] = map pn (wide (splates a)) ++ []) by (rewrite EL, map_app, app_nil_r; reflexivity). constructor; [exact X|]. constructor; [exact X|constructor]. }
    cbn [combine] in R2. inversion R2 as [|? r1 ? rs' M1 R2']; subst. inversion R2' as [|? r2 ? rs'' M2 R2'']; subst. inversion R2''; subst. exists r1, r2. split; [exact R1|].
    destruct M2 as [M2 [M3 [M4 _]]]. cbn [fst snd] in M2, M3, M4. rewrite all_plates_single in M2. split; [exact M2|]. split; [exact M4|]. intros s Hs. unfold den. rewrite M3, M2. cbn [el].
    rewrite app_nil_r, EL, map_app, Hw. cbn [map]. rewrite bidx_front by (simpl; lia). unfold bidx. simpl. destruct (pn p =? 1) eqn:Ek; [apply Nat.eqb_eq in Ek; lia|reflexivity].
Qed.
End BroadcastProofs.
