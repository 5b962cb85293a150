(** Proofs about assigning values with more dimensions than the places assigned to, and values with samples of another variable. *)
From Coq Require Import String List Arith Bool ZArith Lia.
From Verif Require Import Base Torch Plates Wrap TensorFns SpecTensor SpecWrap SpecReduce SpecSample SpecIndex ListLemmas IndexLemmas WrapProofs PlateEqProofs AlignProofs CallProofs CallProofs2 OpProofs CallV SharedProofs GetitemProofs IndexProofs ReduceProofs2 OnePlate Setitem SetitemProofs.
Import ListNotations.
Open Scope nat_scope.
Open Scope list_scope.

(** A value with more dimensions. *)
Lemma assign_excess : forall {A} l (u w : ten A) p k, torch_index l (mkten (shape u) (fun i => i)) = Ok p -> k = ndim w - length (shape p) -> length (shape p) <= ndim w ->
  (firstn k (shape w) = repeat 1 k -> torch_assign l u w = torch_assign l u (mkten (skipn k (shape w)) (fun i => el w (repeat 0 k ++ i)))) /\
  (firstn k (shape w) <> repeat 1 k -> torch_assign l u w = Err RuntimeError).
Proof.
  intros A l u w p k Hp Hk Hl. unfold torch_assign. rewrite Hp. cbn [bind]. unfold fit_value. rewrite <- Hk. unfold ndim in *. cbn [shape el]. rewrite skipn_length.
  replace (length (shape w) - k - length (shape p)) with 0 by lia. cbn [firstn forallb skipn repeat app].
  assert (L : length (firstn k (shape w)) = k) by (rewrite firstn_length; lia).
  assert (B : forallb (Nat.eqb 1) (firstn k (shape w)) = true <-> firstn k (shape w) = repeat 1 k).
  { clear -L. revert L. generalize (firstn k (shape w)). intros l. revert k. induction l as [|x l IH]; intros [|k] L; try discriminate; cbn [forallb repeat]; [tauto|]. injection L as L. rewrite andb_true_iff, (IH k L). rewrite Nat.eqb_eq. split; [intros [<- ->]; reflexivity|intros E; injection E as -> E; auto]. }
  split; intros H; [now rewrite (proj2 B H)|]. destruct (forallb _ _); [|reflexivity]. exfalso. apply H. now apply B.
Qed.

Section SetitemProofs2.
Context {V : Type}.
Variable veq : V -> V -> bool.
Variable anc_unwrap : plate V -> stensor V -> res (stensor V).
Notation plate := (plate V).
Notation stensor := (stensor V).
Notation N l := (map (@pname V) l).

(** Torch tensors with at least as many dimensions as plates and places together. *)
Theorem setitem_excess : forall (a : stensor) (w : ten V) items full evc base, callable veq [a] ->
  leaves_front items full (length (wide (splates a))) (length (s_event_shape a)) -> indexed false items (s_event_shape a) evc ->
  let sizes := map pn (wide (splates a)) ++ evc in let k := ndim w - length sizes in length sizes <= ndim w ->
  (firstn k (shape w) = repeat 1 k -> Forall2 (fun d n => d = n \/ d = 1) (skipn k (shape w)) sizes ->
   exists r, setitem veq anc_unwrap a full (PRaw w) base = Ok r /\ sid r = sid a /\ splates r = splates a /\ s_event_shape r = s_event_shape a /\ sparents r = sparents a /\ wf r /\
    forall s e, in_range s (splates a) -> valid e (s_event_shape a) ->
      (forall j, valid j evc -> picks false items (s_event_shape a) j e -> den r s e = el w (repeat 0 k ++ proj (skipn k (shape w)) (map (fun p => s (pname p)) (wide (splates a)) ++ j))) /\
      ((forall j, valid j evc -> ~ picks false items (s_event_shape a) j e) -> den r s e = den a s e)) /\
  (firstn k (shape w) <> repeat 1 k \/ ~ Forall2 (fun d n => d = n \/ d = 1) (skipn k (shape w)) sizes -> setitem veq anc_unwrap a full (PRaw w) base = Err RuntimeError).
Proof.
  intros a w items full evc base HC HL HI sizes k Hk. pose proof (proj1 HC) as Hw. inversion Hw as [|? ? Wa _]; subst.
  destruct (prepare_own veq anc_unwrap [PT a; PRaw w] [a] eq_refl HC) as [args' [E F]]; [repeat constructor|]. rewrite all_plates_single in *.
  inversion F as [|? ? ? ? U F1]; subst. inversion U as [? u Lu| | | | | | | | ]; subst. inversion F1 as [|? ? ? ? U' F2]; subst. inversion U'; subst. inversion F2; subst.
  unfold setitem. rewrite E. cbn [bind]. destruct (own_view a u Wa Lu) as [Su Xu].
  assert (HL' : leaves_front items full (length (map pn (wide (splates a)))) (length (s_event_shape a))) by now rewrite map_length.
  destruct (places_front items full (map pn (wide (splates a))) (s_event_shape a) evc HL' HI) as [p [P1 [P2 _]]].
  destruct (assign_excess full u w p k) as [X1 X2]; [now rewrite Su|now rewrite P2|now rewrite P2|].
  set (w' := mkten (skipn k (shape w)) (fun i => el w (repeat 0 k ++ i))) in *.
  assert (Lw : length (skipn k (shape w)) = length sizes) by (rewrite skipn_length; unfold k, ndim in *; lia).
  destruct (torch_assign_front items full (map pn (wide (splates a))) (s_event_shape a) evc u w') as [T T']; auto.
  { unfold ndim, w'. cbn [shape]. rewrite Lw. unfold sizes. rewrite app_length. lia. }
  cbn [w' shape] in T, T'. fold sizes in T, T'. split.
  - intros H1 H2. rewrite (X1 H1). destruct T as [t [T1 [T2 T3]]]; [now apply fits_rev|]. fold w' in T1. rewrite T1.
    cbn [bind prepare_outputs]. eexists. split; [reflexivity|]. cbn [sid splates s_event_shape sparents]. do 4 (split; [reflexivity|]). split; [now apply wf_written|].
    intros s e Hs He. unfold den at 1 2. cbn [st splates]. rewrite seen by auto. pose proof (in_range_wide_all s _ Hs) as Hs'. destruct (T3 (map (fun p => s (pname p)) (wide (splates a))) e (valid_choice s _ Hs')) as [K1 K2]. split.
    + intros j J1 J2. rewrite (K1 j J2 J1). cbn [el shape w']. do 2 f_equal. rewrite proj_zip_clip. apply bidx_same. rewrite Lw. unfold sizes. rewrite !app_length, !map_length, (valid_length _ _ J1). reflexivity.
    + intros K. rewrite (K2 K). now apply Xu.
  - intros H. destruct (list_eq_dec Nat.eq_dec (firstn k (shape w)) (repeat 1 k)) as [D|D]; [|now rewrite (X2 D)]. rewrite (X1 D). fold w' in T'. rewrite T'; [reflexivity|].
    destruct H as [H|H]; [contradiction|]. destruct (expandable_rev _ _) eqn:B; [|reflexivity]. exfalso. apply H. apply expandable_length in B; [|rewrite !rev_length; lia].
    rewrite firstn_all2 in B by (rewrite !rev_length; lia). clear -B. rewrite <- (rev_involutive (skipn k (shape w))), <- (rev_involutive sizes). revert B. generalize (rev (skipn k (shape w))), (rev sizes). intros x y B. induction B; simpl; [constructor|]. apply Forall2_app; auto.
Qed.

(** A number per sample of another variable. *)
Theorem setitem_number_new : forall (a v : stensor) p m base, callable veq [a; v] -> wide (splates v) = [p] -> ~ In (pname p) (N (splates a)) -> s_event_shape a = [m] -> s_event_shape v = [] -> m = pn p ->
  exists r, setitem veq anc_unwrap a [IEllipsis] (PT v) base = Ok r /\ splates r = splates a /\ s_event_shape r = [m] /\ sparents r = sparents a /\
    forall s j, in_range s (splates a) -> j < m -> den r s [j] = den v (set_to s (pname p) j) [].
Proof.
  intros a v p m base HC Hp HN Ea Ev Hm. pose proof (proj1 HC) as Hw. inversion Hw as [|? ? Wa Hw1]; subst.
  assert (IP : In p (wide (splates v))) by (rewrite Hp; simpl; auto). assert (IP' := IP). apply In_wide in IP'. destruct IP' as [IPv H1].
  destruct (prepare_own veq anc_unwrap [PT a; PT v] [a; v] eq_refl HC) as [args' [E F]]; [repeat constructor|].
  assert (HA : has (splates a) (pname p) = false) by (destruct (has (splates a) (pname p)) eqn:Eh; auto; apply has_In in Eh; contradiction).
  assert (HV : has (splates v) (pname p) = true) by (apply has_In; now apply in_map).
  assert (AP : wide (all_plates [a; v]) = wide (splates a) ++ [p]).
  { unfold all_plates. cbn [fold_left]. rewrite union_nil_l. unfold union, wide in *. rewrite filter_app. f_equal. clear -Hp HA.
    assert (G : forall l : list plate, filter (fun q => 1 <? pn q) (filter (fun q => negb (has (splates a) (pname q))) l) = filter (fun q => negb (has (splates a) (pname q))) (filter (fun q => 1 <? pn q) l)).
    { induction l as [|q l IH]; [reflexivity|]. cbn [filter]. destruct (negb _) eqn:B1, (1 <? pn q) eqn:B2; cbn [filter]; rewrite ?B1, ?B2, IH; reflexivity. }
    rewrite G, Hp. cbn [filter]. now rewrite HA. }
  inversion F as [|? ? ? ? U F1]; subst. inversion U as [? u Lu| | | | | | | | ]; subst. inversion F1 as [|? ? ? ? U' F2]; subst. inversion U' as [? w Lw| | | | | | | | ]; subst. inversion F2; subst.
  unfold setitem. rewrite E. cbn [bind]. rewrite AP in *. destruct Lu as [Su _]. destruct Lw as [Sw Xw]. unfold s_event_dims in *. rewrite pad_self in *. rewrite Ev in *. rewrite Ea in Su.
  rewrite !map_app in Su, Sw. cbn [map] in Su, Sw. rewrite HA in Su. rewrite HV in Sw. cbn [orb] in Su, Sw.
  assert (Sa : map (fun p => if has (splates a) (pname p) || false then pn p else 1) (wide (splates a)) = map pn (wide (splates a))) by apply has_self_map. rewrite Sa in Su.
  assert (NV : forall q, In q (wide (splates a)) -> has (splates v) (pname q) = false).
  { intros q Hq. destruct (has (splates v) (pname q)) eqn:Eh; auto. exfalso. apply has_In in Eh. apply in_map_iff in Eh. destruct Eh as [q' [E1 E2]]. apply In_wide in Hq. destruct Hq as [Hq1 Hq2].
    assert (In q' (wide (splates v))). { apply In_wide. split; auto. destruct HC as [_ [HA' _]]. destruct (HA' q' q) as [_ S]; auto; [cbn; rewrite !in_app_iff; auto|cbn; rewrite !in_app_iff; auto|lia]. }
    rewrite Hp in H. destruct H as [<-|[]]. apply HN. rewrite E1. now apply in_map. }
  assert (Sv : map (fun p => if has (splates v) (pname p) || false then pn p else 1) (wide (splates a)) = repeat 1 (length (wide (splates a)))).
  { clear -NV. induction (wide (splates a)) as [|q l IH]; [reflexivity|]. cbn [map length repeat]. rewrite (NV q) by (simpl; auto). cbn [orb]. f_equal. apply IH. intros x Hx. apply NV. simpl; auto. }
  rewrite Sv in Sw. cbn [app] in Sw. rewrite app_nil_r in Sw. set (K := length (wide (splates a))) in *.
  assert (HI : indexed false [IEllipsis] [pn p] [pn p]) by exact (ix_dots [pn p] [] [] [] ix_end).
  destruct (torch_assign_front [IEllipsis] [IEllipsis] (map pn (wide (splates a)) ++ [1]) [pn p] [pn p] u w) as [T _]; auto.
  { right. split; auto. exists []. split; auto. unfold consumed. simpl. lia. } { unfold ndim. rewrite Sw, !app_length, repeat_length, map_length. fold K. simpl. lia. }
  destruct T as [t [T1 [T2 T3]]].
  { rewrite Sw. rewrite !rev_app_distr. cbn [rev app]. rewrite <- map_rev. cbn [expandable_rev]. rewrite Nat.eqb_refl. cbn [orb andb].
    assert (G : forall n (l : list nat), n <= length l -> expandable_rev (repeat 1 n) l = true) by (induction n as [|n IH]; intros [|x l] L; simpl in *; try lia; auto; rewrite IH by lia; now rewrite orb_true_r).
    assert (R : rev (repeat 1 K) = repeat 1 K).
    { clear. induction K as [|K IH]; [reflexivity|]. cbn [repeat rev]. rewrite IH. clear. induction K as [|K IH]; [reflexivity|]. cbn [repeat app]. now rewrite IH. }
    rewrite R. apply G. cbn [length]. rewrite map_length, rev_length. fold K. lia. }
  rewrite T1. cbn [bind prepare_outputs]. eexists. split; [reflexivity|]. cbn [splates s_event_shape sparents]. split; [reflexivity|]. split; [exact Ea|]. split; [reflexivity|].
  intros s j Hs Hj. pose proof (in_range_wide_all s _ Hs) as Hs'. unfold den at 1. cbn [st splates]. unfold through_view. cbn [el].
  rewrite (wf_dims a Wa). fold K. set (ix := map (fun q => s (pname q)) (wide (splates a))) in *. assert (Lix : length ix = K) by (unfold ix; apply map_length).
  rewrite firstn_app, Lix, Nat.sub_diag, <- Lix, firstn_all. cbn [firstn]. rewrite app_nil_r. rewrite skipn_app, Nat.sub_diag, skipn_all. cbn [skipn app].
  replace (ndim t - ndim (st a)) with 1 by (unfold ndim; rewrite T2, (wf_shape a Wa), Ea, !app_length, !map_length; simpl; lia). cbn [repeat app].
  destruct (T3 (ix ++ [0]) [j]) as [Q _]. { apply Forall2_app; [now apply valid_choice|repeat constructor]. }
  rewrite <- app_assoc in Q. cbn [app] in Q. rewrite (Q [j]); [|exact (pk_dots [pn p] [] [] [j] [] [] ltac:(repeat constructor; exact Hj) pk_end)|repeat constructor; exact Hj].
  specialize (Xw (set_to s (pname p) j) []). rewrite map_app in Xw. cbn [map app] in Xw. rewrite HV in Xw. cbn [orb] in Xw. unfold set_to in Xw at 3. rewrite String.eqb_refl in Xw.
  assert (Z : map (fun q => if has (splates v) (pname q) || false then set_to s (pname p) j (pname q) else 0) (wide (splates a)) = repeat 0 K).
  { clear -NV. unfold K. clear K. induction (wide (splates a)) as [|q l IH]; [reflexivity|]. cbn [map length repeat]. rewrite (NV q) by (simpl; auto). cbn [orb]. f_equal. apply IH. intros x Hx. apply NV. simpl; auto. }
  rewrite Z, app_nil_r in Xw. cbn [length firstn] in Xw. rewrite <- Xw.
  - f_equal. rewrite Sw. rewrite <- Lix. clear -H1. unfold bidx. rewrite !app_length, repeat_length. cbn [length]. replace (length ix + 1 + 1 - (length ix + 1)) with 1 by lia. rewrite <- app_assoc. cbn [app].
    assert (G : exists y, skipn 1 (ix ++ [0; j]) = y ++ [j] /\ length y = length ix).
    { destruct ix as [|x ix]; [exists []; auto|]. exists (ix ++ [0]). cbn [app skipn]. rewrite <- app_assoc, app_length. cbn [app length]. split; [reflexivity|lia]. }
    destruct G as [y [G Ly]]. rewrite G. rewrite zip_clip_app by now rewrite repeat_length. rewrite zip_clip_ones by exact Ly. f_equal. cbn [zip_clip]. destruct (Nat.eqb_spec (pn p) 1); [lia|reflexivity].
  - intros q Hq. apply in_app_or in Hq. destruct Hq as [Hq|[<-|[]]]; unfold set_to.
    + destruct (String.eqb_spec (pname q) (pname p)) as [Eq|_]; [|now apply Hs']. exfalso. apply HN. rewrite <- Eq. apply in_map. now apply In_wide in Hq.
    + rewrite String.eqb_refl. exact Hj.
  - constructor.
Qed.
End SetitemProofs2.
