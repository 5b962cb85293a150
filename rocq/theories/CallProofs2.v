(** Further proofs about wrapped calls: batchwise functions, conflicting plates, named dimensions, recorded
    dependencies. *)
From Coq Require Import String List Arith Bool Lia Permutation.
From Verif Require Import Base Torch Plates Wrap ListLemmas IndexLemmas SpecTensor SpecWrap WrapProofs PlateEqProofs
  AlignProofs CallProofs.
Import ListNotations.

#[local] Arguments skipn {A} !n !l : simpl nomatch.
#[local] Arguments firstn {A} !n !l : simpl nomatch.

Section CallProofs2.
Context {V : Type}.
Variable veq : V -> V -> bool.
Variable anc_unwrap : plate V -> stensor V -> res (stensor V).
Notation plate := (plate V).
Notation stensor := (stensor V).
Notation pyval := (pyval V).
Notation N l := (map (@pname V) l).

(** ** make_left_broadcastable *)

Lemma raws_unwrapped : forall (R : stensor -> ten V -> Prop) (ts : list stensor) (args' : list pyval),
  Forall2 (unwrapped R) (map PT ts) args' -> exists us, raws args' = Some us /\ Forall2 R ts us.
Proof.
  induction ts as [|t ts IH]; intros args' H; inversion H as [|? x ? r U F]; subst; simpl.
  - exists []; auto.
  - inversion U; subst. destruct (IH r F) as [us [E HF]]. exists (u :: us). simpl. rewrite E. auto.
Qed.

Lemma call_tensors_PT : forall ts : list stensor, call_tensors (map PT ts) [] = ts.
Proof. intros ts. unfold call_tensors. simpl. rewrite app_nil_r. induction ts; simpl; congruence. Qed.

Lemma lprod_pos : forall l, Forall (fun n => 0 < n) l -> 0 < lprod l.
Proof. intros l H; induction H; simpl; nia. Qed.

Lemma left_broadcastable_spec : forall ev g fn ts base,
  ts <> [] -> callable veq ts -> (forall t, In t ts -> 0 < lprod (s_event_shape t)) ->
  let ed := max_event ts in
  batchwise (map (fun a => pad ed (s_event_shape a)) ts) ev g fn ->
  exists r, left_broadcastable veq anc_unwrap top_ctx fn (map PT ts) base = Ok (PT r) /\
    splates r = all_plates ts /\ s_event_shape r = ev /\ wf r /\ sparents r = map sid ts /\
    forall s e, in_range s (all_plates ts) -> valid e ev ->
      den r s e = el (g (map (slice ed s) ts)) e.
Proof.
  intros ev g fn ts base Hne HC Hnz ed [HB Hext].
  assert (Hts : ts = call_tensors (map PT ts) []) by (symmetry; apply call_tensors_PT).
  destruct (prepare_args_laid_out_flat veq anc_unwrap (map PT ts) [] flatten_opts ts) as [args' [kwargs' [E [F1 F2]]]]; auto.
  { apply Forall_forall. intros x Hx. apply in_map_iff in Hx. destruct Hx as [t [<- _]]. exact I. }
  inversion F2; subst kwargs'. clear F2.
  destruct (raws_unwrapped _ _ _ F1) as [us [Er HR]].
  set (ps := wide (all_plates ts)) in *.
  assert (Hpos := all_pos veq anc_unwrap _ HC).
  set (B := lprod (map pn ps)).
  assert (HBpos : 0 < B).
  { apply lprod_pos. apply Forall_forall. intros n Hn. apply in_map_iff in Hn. destruct Hn as [p [<- Hp]].
    apply In_wide in Hp. lia. }
  assert (Etl : map shape us = map (cons B) (map (fun a => pad ed (s_event_shape a)) ts)).
  { fold ed in HR. unfold B. clearbody ps ed. clear -HR. induction HR as [|t u l us' [S _] HR IH]; simpl; auto.
    rewrite IH, S. reflexivity. }
  destruct (HB B us HBpos Etl) as [out [Eo [So Xo]]].
  unfold left_broadcastable, handle_deterministic. cbn [top_ctx c_stochastic]. rewrite E. cbn [bind].
  destruct ts as [|t0 ts0]; [congruence|]. set (tss := t0 :: ts0) in *.
  unfold torch_fnN. rewrite Er. rewrite Eo. cbn [bind c_ignore]. rewrite filter_none.
  cbn [prepare_outputs flatten_opts o_flatten]. rewrite <- wide_mdp. fold ps. rewrite So. cbn [skipn].
  unfold reshape. rewrite So. rewrite lprod_app. cbn [lprod fold_right]. fold (lprod ev). fold B. rewrite Nat.eqb_refl.
  cbn [bind top_ctx c_ignore]. change (skipn 0 ev) with ev.
  set (t := mkten (map pn ps ++ ev) (fun idx => el out (unravel (B :: ev) (ravel (map pn ps ++ ev) idx)))).
  destruct (all_plates_facts veq anc_unwrap tss HC) as [I [D X]].
  assert (Hmk : exists r, mk_tensor (base + 1) t (map sid tss) (all_plates tss) false = Ok r).
  { apply mk_tensor_iff. split; auto. rewrite nonone_wide by auto. exists ev. reflexivity. }
  destruct Hmk as [r Hr]. rewrite Hr. cbn [bind].
  destruct (mk_tensor_fields _ _ _ _ _ _ Hr) as [F3 [F4 [F5 [F6 [F7 [F8 F9]]]]]].
  assert (Hwr : wf r) by (eapply mk_tensor_wf; eauto).
  assert (Eev : s_event_shape r = ev).
  { rewrite nonone_wide in F9 by auto. unfold t in F9. simpl shape in F9. fold ps in F9.
    apply app_inv_head in F9. auto. }
  exists r. refine (conj eq_refl (conj F5 (conj Eev (conj Hwr (conj F6 _))))).
  intros s e Hs He. unfold den. rewrite F4, F5. fold ps. unfold t. cbn [el].
  assert (Hsr : in_range s ps) by (apply in_range_wide; auto).
  assert (Hv : valid (map (fun p : plate => s (pname p)) ps) (map pn ps)) by now apply in_range_valid.
  rewrite ravel_app by now rewrite !map_length.
  set (b := ravel (map pn ps) (map (fun p : plate => s (pname p)) ps)).
  assert (Hb : b < B) by (apply ravel_lt; auto).
  replace (b * lprod ev + ravel ev e) with (ravel (B :: ev) (b :: e)) by reflexivity.
  rewrite unravel_ravel by (constructor; auto).
  rewrite Xo by auto. apply Hext.
  - rewrite map_map. fold ed in HR. clear -Etl. revert Etl. generalize (map (fun a : stensor => pad ed (s_event_shape a)) tss).
    induction us as [|u us IH]; intros [|x l] E; try discriminate; auto.
    simpl in E. injection E as E1 E2. cbn [map]. rewrite (IH _ E2). f_equal. simpl. now rewrite E1.
  - fold ed in HR. clearbody ps ed. clear -HR Hsr. induction HR as [|t u l us' [S X] HR IH]; simpl; constructor; auto.
    split; [simpl; now rewrite S|]. intros i Hi. simpl in *. rewrite S in Hi. simpl in Hi. apply X; auto.
  - exact He.
Qed.

(** ** Conflicts *)

Lemma collected_rep : forall new old (p : plate),
  In p new -> exists q, In q (add_plates veq old new) /\ peq veq q p = true.
Proof.
  assert (Keep : forall new old (q : plate), In q old -> In q (add_plates veq old new)).
  { induction new as [|x new IH]; simpl; intros old q Hq; auto. apply IH. unfold add_plate.
    destruct (pin veq x old); auto. apply in_app_iff; auto. }
  induction new as [|x new IH]; simpl; intros old p Hp; [destruct Hp|].
  destruct Hp as [<-|Hp]; [|apply IH; auto].
  unfold add_plate at 1. destruct (pin veq x old) eqn:E.
  - apply inb_spec in E. destruct E as [y [Hy Ey]]. exists y. split; auto.
  - exists x. split; [apply Keep; apply in_app_iff; simpl; auto|]. apply peq_refl.
Qed.

Lemma add_plates_incl : forall new old, incl (add_plates veq old new) (old ++ new).
Proof.
  induction new as [|x new IH]; simpl; intros old; [rewrite app_nil_r; apply incl_refl|].
  intros q Hq. apply IH in Hq. unfold add_plate in Hq. apply in_app_iff in Hq. apply in_app_iff. simpl.
  destruct (pin veq x old); [tauto|]. destruct Hq as [Hq|Hq]; auto. apply in_app_iff in Hq. simpl in Hq. tauto.
Qed.

Lemma add_plates_keep : forall new old (q : plate), In q old -> In q (add_plates veq old new).
Proof.
  induction new as [|x new IH]; simpl; intros old q Hq; auto. apply IH. unfold add_plate.
  destruct (pin veq x old); auto. apply in_app_iff; auto.
Qed.

(** The plates collected from a call, before filtering. *)
Definition collected (ts : list stensor) : list plate := fold_left (fun pl t => add_plates veq pl (splates t)) ts [].

Lemma fold_collect : forall (ts : list stensor) acc,
  incl (fold_left (fun pl t => add_plates veq pl (splates t)) ts acc) (acc ++ flat_map splates ts) /\
  incl acc (fold_left (fun pl t => add_plates veq pl (splates t)) ts acc) /\
  (forall p, In p (flat_map splates ts) ->
     exists q, In q (fold_left (fun pl t => add_plates veq pl (splates t)) ts acc) /\ peq veq q p = true).
Proof.
  induction ts as [|t ts IH]; simpl; intros acc.
  - rewrite app_nil_r. repeat split; auto using incl_refl. intros p [].
  - destruct (IH (add_plates veq acc (splates t))) as [A [B C]]. repeat split.
    + intros x Hx. apply A in Hx. apply in_app_iff in Hx. rewrite !in_app_iff. destruct Hx as [Hx|Hx]; auto.
      apply add_plates_incl in Hx. apply in_app_iff in Hx. tauto.
    + intros x Hx. apply B. now apply add_plates_keep.
    + intros p Hp. apply in_app_iff in Hp. destruct Hp as [Hp|Hp]; auto.
      destruct (collected_rep (splates t) acc p Hp) as [q [Hq E]]. exists q. auto.
Qed.

Lemma prepare_args_collected : forall args kwargs,
  exists m, collect veq (PDict kwargs) (collect veq (PList args) ([], [], 0)) =
            (call_tensors args kwargs, collected (call_tensors args kwargs), m).
Proof.
  intros. rewrite !collect_spec. rewrite <- col_app. eexists. reflexivity.
Qed.

Lemma plain_conflict_aux : forall (p : plate) l, pcls p = PlainPlate -> plain l ->
  (exists q, In q l /\ pname q = pname p /\ peq veq q p = false) -> on_collecting_args veq p l = Err ValueError.
Proof.
  intros p l Hp. induction l as [|q r IH]; simpl; intros Hl [x [Hx [En Ex]]]; [destruct Hx|].
  assert (Hq : pcls q = PlainPlate) by (apply Hl; simpl; auto).
  destruct (String.eqb (pname q) (pname p) && negb (peq veq q p)) eqn:E.
  - unfold on_duplicate_plate. rewrite Hq. reflexivity.
  - apply IH; [intros y Hy; apply Hl; simpl; auto|]. exists x. repeat split; auto.
    destruct Hx as [<-|Hx]; auto. rewrite En, String.eqb_refl, Ex in E. discriminate.
Qed.

Lemma plain_collect_cases : forall (p : plate) l, pcls p = PlainPlate -> plain l ->
  on_collecting_args veq p l = Ok true \/ on_collecting_args veq p l = Err ValueError.
Proof.
  intros p l Hp. induction l as [|q r IH]; simpl; intros Hl; auto.
  assert (Hq : pcls q = PlainPlate) by (apply Hl; simpl; auto).
  destruct (_ && _); [unfold on_duplicate_plate; rewrite Hq; auto|]. apply IH. intros y Hy; apply Hl; simpl; auto.
Qed.

Lemma filter_conflict : forall all l, plain all -> plain l ->
  (exists p q, In p l /\ In q all /\ pname q = pname p /\ peq veq q p = false) ->
  filter_collected veq all l = Err ValueError.
Proof.
  intros all l Ha. induction l as [|x r IH]; simpl; intros Hl [p [q [Hp [Hq [En Ex]]]]]; [destruct Hp|].
  assert (Hx : pcls x = PlainPlate) by (apply Hl; simpl; auto).
  destruct Hp as [<-|Hp].
  - rewrite (plain_conflict_aux x all); eauto.
  - destruct (plain_collect_cases x all Hx Ha) as [E|E]; rewrite E; simpl; auto.
    rewrite IH; auto; [intros y Hy; apply Hl; simpl; auto|]. exists p, q; auto.
Qed.

Lemma conflict_rejected : forall args kwargs o,
  (forall x y, veq x y = veq y x) -> (forall x y z, veq x y = true -> veq y z = true -> veq x z = true) ->
  let L := flat_map splates (call_tensors args kwargs) in
  plain L -> (forall p q, In p L -> In q L -> obj_ok p q) ->
  (exists p q, In p L /\ In q L /\ pname p = pname q /\ peq veq p q = false) ->
  prepare_args veq anc_unwrap args kwargs o = Err ValueError.
Proof.
  intros args kwargs o Hs Ht L HL HO [p [q [Hp [Hq [En Ex]]]]].
  destruct (prepare_args_collected args kwargs) as [m E]. unfold prepare_args. rewrite E.
  destruct (fold_collect (call_tensors args kwargs) []) as [A [_ C]].
  fold (collected (call_tensors args kwargs)) in A, C. simpl in A. fold L in A, C.
  destruct (C p Hp) as [p' [Hp' Ep]]. destruct (C q Hq) as [q' [Hq' Eq]].
  assert (Hpl : plain (collected (call_tensors args kwargs))) by (intros x Hx; apply HL; auto).
  assert (Sett : forall x, In x L -> settled x) by (intros x Hx; unfold settled; now rewrite HL).
  rewrite filter_conflict; auto. exists p', q'. repeat split; auto.
  - apply peq_name in Ep. apply peq_name in Eq. congruence.
  - destruct (peq veq q' p') eqn:F; auto. exfalso.
    assert (X1 : peq veq p q' = true).
    { rewrite peq_sym by auto. apply peq_trans with (q := p'); auto. }
    assert (X2 : peq veq p q = true) by (apply peq_trans with (q := q'); auto). congruence.
Qed.

Lemma conflict_rejected_call : forall fn args kwargs rp o base,
  (forall x y, veq x y = veq y x) -> (forall x y z, veq x y = true -> veq y z = true -> veq x z = true) ->
  let L := flat_map splates (call_tensors args kwargs) in
  plain L -> (forall p q, In p L -> In q L -> obj_ok p q) ->
  (exists p q, In p L /\ In q L /\ pname p = pname q /\ peq veq p q = false) ->
  handle_deterministic veq anc_unwrap top_ctx fn args kwargs rp o base = Err ValueError.
Proof.
  intros. unfold handle_deterministic. cbn [top_ctx c_stochastic]. rewrite conflict_rejected; auto.
Qed.

Notation vindex := (@variable_index V).

Lemma anc_on_collecting : forall (p : plate) l,
  (forall q, In q l -> pname q = pname p -> peq veq q p = false ->
     (exists vi ov, pcls q = Ancestral vi ov) /\ (exists vi ov, pcls p = Ancestral vi ov)) ->
  on_collecting_args veq p l =
  Ok (forallb (fun q => negb (String.eqb (pname q) (pname p) && negb (peq veq q p)) || (vindex q <? vindex p)) l).
Proof.
  intros p l. induction l as [|q r IH]; simpl; intros H; auto.
  destruct (String.eqb (pname q) (pname p) && negb (peq veq q p)) eqn:E; simpl.
  - apply andb_prop in E. destruct E as [E1 E2]. apply String.eqb_eq in E1. apply negb_true_iff in E2.
    destruct (H q (or_introl eq_refl) E1 E2) as [[vi [ov Hq]] [vi' [ov' Hp]]].
    unfold on_duplicate_plate, variable_index at 1 2. rewrite Hq, Hp. simpl. destruct (vi <? vi'); simpl; auto.
  - rewrite IH; auto.
Qed.

Lemma anc_filter : forall all l,
  (forall p q, In p l -> In q all -> pname q = pname p -> peq veq q p = false ->
     (exists vi ov, pcls q = Ancestral vi ov) /\ (exists vi ov, pcls p = Ancestral vi ov) /\ vindex p <> vindex q) ->
  filter_collected veq all l =
  Ok (filter (fun p => forallb (fun q => negb (String.eqb (pname q) (pname p) && negb (peq veq q p)) || (vindex q <? vindex p)) all) l).
Proof.
  intros all l. induction l as [|p r IH]; simpl; intros H; auto.
  rewrite anc_on_collecting by (intros q Hq En Ex; destruct (H p q) as [A [B _]]; auto). simpl.
  rewrite IH by (intros x y Hx; apply H; auto). reflexivity.
Qed.

(** The plate with the highest variable index survives. *)
Lemma add_plates_pairs : forall new old, ForallOrdPairs (fun a b => peq veq a b = false) old ->
  ForallOrdPairs (fun a b => peq veq a b = false) (add_plates veq old new).
Proof.
  induction new as [|x new IH]; simpl; intros old H; auto. apply IH. unfold add_plate.
  destruct (pin veq x old) eqn:E; auto. clear IH. revert E. induction H as [|a l Ha Hl IH]; simpl; intros E.
  - repeat constructor.
  - apply orb_false_iff in E. destruct E as [E1 E2]. constructor; auto. apply Forall_app. split; auto.
Qed.

Lemma collected_pairs : forall ts acc, ForallOrdPairs (fun a b => peq veq a b = false) acc ->
  ForallOrdPairs (fun a b => peq veq a b = false) (fold_left (fun pl (t : stensor) => add_plates veq pl (splates t)) ts acc).
Proof. induction ts as [|t ts IH]; simpl; intros acc H; auto. apply IH. now apply add_plates_pairs. Qed.

Lemma newest_kept : forall args kwargs o a k ps pl,
  (forall x y, veq x y = veq y x) -> (forall x y z, veq x y = true -> veq y z = true -> veq x z = true) ->
  let L := flat_map splates (call_tensors args kwargs) in
  (forall p, In p L -> settled p) -> (forall p q, In p L -> In q L -> obj_ok p q) ->
  (forall p q, In p L -> In q L -> pname p = pname q -> peq veq p q = false -> duels p q) ->
  prepare_args veq anc_unwrap args kwargs o = Ok (a, k, ps, pl) ->
  incl pl L /\ NoDup (N pl) /\
  (forall p, In p L -> (forall q, In q L -> pname q = pname p -> variable_index q <= variable_index p) ->
     exists q, In q pl /\ peq veq q p = true) /\
  (forall p q, In p pl -> In q L -> pname q = pname p -> variable_index q <= variable_index p).
Proof.
  intros args kwargs o a k ps pl Hsy Htr L Hset Hobj Hduel H. unfold prepare_args in H.
  destruct (prepare_args_collected args kwargs) as [m E]. rewrite E in H.
  set (C := collected (call_tensors args kwargs)) in *.
  destruct (fold_collect (call_tensors args kwargs) []) as [HC1 [_ HC2]].
  fold (collected (call_tensors args kwargs)) in HC1, HC2. simpl in HC1. fold L C in HC1, HC2.
  assert (Hpairs : ForallOrdPairs (fun a b => peq veq a b = false) C) by (apply collected_pairs; constructor).
  rewrite (anc_filter C C) in H.
  2:{ intros p q Hp Hq En Ex. destruct (Hduel q p) as [vi [ov [vi' [ov' [E1 [E2 Hne]]]]]]; auto.
      repeat split; eauto. unfold variable_index. rewrite E1, E2. congruence. }
  cbn [bind] in H.
  set (F := filter _ C) in H.
  assert (Epl : pl = F).
  { clearbody F. match type of H with bind ?x _ = _ => destruct x as [[kw id]|]; [|discriminate] end. cbn [bind] in H.
    match type of H with bind ?x _ = _ => destruct x as [kw'|]; [|discriminate] end. cbn [bind] in H.
    destruct (o_unwrap o).
    - destruct (mapM _ args); [|discriminate]. cbn [bind] in H.
      destruct (mapM _ kw'); [|discriminate]. cbn [bind] in H. congruence.
    - congruence. }
  subst pl. clear H.
  assert (HF : forall p, In p F <-> In p C /\ forall q, In q C -> pname q = pname p -> peq veq q p = false -> vindex q < vindex p).
  { intros p. unfold F. rewrite filter_In, forallb_forall. split; intros [Hp Hq]; split; auto.
    - intros q Hq1 En Ex. specialize (Hq q Hq1). rewrite En, String.eqb_refl, Ex in Hq. simpl in Hq.
      now apply Nat.ltb_lt in Hq.
    - intros q Hq1. destruct (String.eqb_spec (pname q) (pname p)); auto. destruct (peq veq q p) eqn:Ex; auto. simpl.
      apply Nat.ltb_lt; auto. }
  assert (Heqv : forall p q, In p L -> In q L -> peq veq p q = true -> vindex p = vindex q).
  { intros p q Hp Hq Epq. unfold peq, anc_eq in Epq. pose proof (Hset p Hp) as S1. pose proof (Hset q Hq) as S2.
    unfold settled in S1, S2. unfold variable_index.
    destruct (pcls p) as [|vi ov] eqn:E1; destruct (pcls q) as [|vi' ov'] eqn:E2; simpl in Epq; subst; auto; try discriminate;
    simpl in Epq;
    repeat match goal with H : (_ && _)%bool = true |- _ => apply andb_prop in H; destruct H end;
    repeat match goal with H : (_ =? _) = true |- _ => apply Nat.eqb_eq in H end; auto; try discriminate; try congruence. }
  refine (conj _ (conj _ (conj _ _))).
  - intros p Hp. apply HF in Hp. apply HC1. tauto.
  - assert (HN : forall p q, In p F -> In q F -> peq veq p q = false -> pname p <> pname q).
    { intros p q Hp Hq Ex En. apply HF in Hp. apply HF in Hq. destruct Hp as [Hp Hp1]. destruct Hq as [Hq Hq1].
      assert (vindex p < vindex q) by (apply Hq1; auto).
      assert (vindex q < vindex p) by (apply Hp1; auto; rewrite peq_sym; auto). lia. }
    assert (HP : ForallOrdPairs (fun a b => peq veq a b = false) F).
    { unfold F. clear -Hpairs. generalize (fun p => forallb (fun q => negb (String.eqb (pname q) (pname p) && negb (peq veq q p)) || (vindex q <? vindex p)) C).
      intros f. induction Hpairs as [|x l Hx Hl IH]; simpl; [constructor|]. destruct (f x); auto. constructor; auto.
      apply Forall_forall. intros y Hy. apply filter_In in Hy. rewrite Forall_forall in Hx. apply Hx. tauto. }
    clearbody F. clear -HN HP. induction HP as [|x l Hx Hl IH]; simpl; constructor.
    + intros C. apply in_map_iff in C. destruct C as [y [En Hy]]. rewrite Forall_forall in Hx.
      apply (HN x y); simpl; auto.
    + apply IH. intros p q Hp Hq. apply HN; simpl; auto.
  - intros p Hp Hmax. destruct (HC2 p Hp) as [q [Hq Eq]]. exists q. split; auto. apply HF. split; auto.
    intros r Hr En Ex. assert (Hpq : vindex q = vindex p) by (apply Heqv; auto).
    assert (vindex r <= vindex p). { apply Hmax; auto. apply peq_name in Eq. congruence. }
    destruct (Hduel r q) as [vi [ov [vi' [ov' [E1 [E2 Hne]]]]]]; auto.
    assert (vindex r <> vindex q) by (unfold variable_index; now rewrite E1, E2). lia.
  - intros p q Hp Hq En. apply HF in Hp. destruct Hp as [Hp Hp1]. destruct (HC2 q Hq) as [r [Hr Er]].
    assert (Erq : vindex r = vindex q) by (apply Heqv; auto). change (vindex q <= vindex p).
    destruct (peq veq r p) eqn:Ex.
    + apply Heqv in Ex; auto. lia.
    + assert (vindex r < vindex p); [|lia]. apply Hp1; auto. apply peq_name in Er. congruence.
Qed.

(** ** Named dimension *)

Lemma dim_pos_spec : forall name (l : list plate) i k, dim_pos name l i = Some k ->
  exists p, i <= k /\ nth_error l (k - i) = Some p /\ pname p = name.
Proof.
  induction l as [|p r IH]; simpl; intros i k H; [discriminate|].
  destruct (String.eqb_spec name (pname p)).
  - injection H as <-. exists p. rewrite Nat.sub_diag. auto.
  - destruct (IH _ _ H) as [q [Hle [Hn Eq]]]. exists q. split; [lia|]. split; auto.
    replace (k - i) with (S (k - S i)) by lia. exact Hn.
Qed.

Lemma dim_pos_none : forall name (l : list plate) i, dim_pos name l i = None <-> ~ In name (N l).
Proof.
  induction l as [|p r IH]; simpl; intros i; [tauto|].
  destruct (String.eqb_spec name (pname p)).
  - split; [discriminate|]. intros H; exfalso; apply H; auto.
  - rewrite IH. split; [intros H [C|C]; congruence || auto|tauto].
Qed.

Lemma set_kw_fresh : forall k (v : pyval) l, ~ In k (map fst l) -> set_kw k v l = l ++ [(k, v)].
Proof.
  induction l as [|[k' v'] l IH]; simpl; intros H; auto. destruct (String.eqb_spec k k'); [subst; tauto|].
  rewrite IH; tauto.
Qed.

Lemma mapM_app : forall {A B} (f : A -> res B) l m l' m', mapM f l = Ok l' -> mapM f m = Ok m' ->
  mapM f (l ++ m) = Ok (l' ++ m').
Proof.
  induction l as [|x l IH]; simpl; intros m l' m' H1 H2; [injection H1 as <-; auto|].
  destruct (f x); [|discriminate]. simpl in *. destruct (mapM f l) eqn:E; [|discriminate]. simpl in H1. injection H1 as <-.
  now rewrite (IH m _ _ eq_refl H2).
Qed.

Lemma mapM_ext : forall {A B} (f g : A -> res B) l, (forall x, f x = g x) -> mapM f l = mapM g l.
Proof. intros A B f g l H. induction l as [|x l IH]; simpl; auto. now rewrite H, IH. Qed.

Lemma unwrap_val_ext : forall mdps o o' ed,
  (forall t, unwrap_tensor veq anc_unwrap mdps o ed t = unwrap_tensor veq anc_unwrap mdps o' ed t) ->
  forall a, unwrap_val veq anc_unwrap mdps o ed a = unwrap_val veq anc_unwrap mdps o' ed a.
Proof.
  intros mdps o o' ed H. induction a using pyval_ind'; simpl; auto.
  - now rewrite H.
  - f_equal. induction H0 as [|x r Hx Hr IH]; simpl; auto. now rewrite Hx, IH.
  - f_equal. induction H0 as [|x r Hx Hr IH]; simpl; auto. now rewrite Hx, IH.
  - f_equal. induction H0 as [|[k x] r Hx Hr IH]; simpl; auto. simpl in Hx. now rewrite Hx, IH.
  - f_equal. induction H0 as [|[k x] r Hx Hr IH]; simpl; auto. simpl in Hx. now rewrite Hx, IH.
Qed.

Lemma dim_reduces : forall u al lb ex fl d args kwargs a k ps pl i,
  d <> ""%string -> ~ In "dim"%string (map fst kwargs) ->
  prepare_args veq anc_unwrap args kwargs (mkW u al lb ex fl None None) = Ok (a, k, ps, pl) ->
  dim_pos d (mdp pl) 0 = Some i ->
  prepare_args veq anc_unwrap args kwargs (mkW u al lb ex fl (Some d) None) = Ok (a, k ++ [("dim"%string, PInt i)], ps, pl).
Proof.
  intros u al lb ex fl d args kwargs a k ps pl i Hd Hk H Hi. unfold prepare_args in *.
  destruct (collect veq _ _) as [[par pls] med]. destruct (filter_collected veq pls pls) as [f|]; [|discriminate].
  cbn [bind o_dim o_dims o_unwrap] in *. apply String.eqb_neq in Hd. rewrite Hd.
  assert (Epl : pl = f).
  { destruct u; [|congruence]. destruct (mapM _ args); [|discriminate]. cbn [bind] in H.
    destruct (mapM _ kwargs); [|discriminate]. cbn [bind] in H. congruence. }
  subst f. rewrite Hi. cbn [bind]. rewrite set_kw_fresh by auto. destruct u; [|congruence].
  rewrite (mapM_ext (unwrap_val veq anc_unwrap (mdp pl) (mkW true al lb ex fl (Some d) None) med)
    (unwrap_val veq anc_unwrap (mdp pl) (mkW true al lb ex fl None None) med)) by (intros; now apply unwrap_val_ext).
  rewrite (mapM_ext (fun kv : string * pyval => do v <- unwrap_val veq anc_unwrap (mdp pl) (mkW true al lb ex fl (Some d) None) med (snd kv); Ok (fst kv, v))
    (fun kv : string * pyval => do v <- unwrap_val veq anc_unwrap (mdp pl) (mkW true al lb ex fl None None) med (snd kv); Ok (fst kv, v)))
    by (intros; erewrite unwrap_val_ext; [reflexivity|]; reflexivity).
  destruct (mapM _ args) as [a'|]; [|discriminate]. cbn [bind] in *.
  destruct (mapM _ kwargs) as [k'|] eqn:Ek; [|discriminate]. cbn [bind] in *. injection H as -> -> ->.
  erewrite mapM_app; [|exact Ek|reflexivity]. reflexivity.
Qed.

Lemma dim_missing : forall args kwargs o d, callable veq (call_tensors args kwargs) ->
  o_dim o = Some d -> d <> ""%string -> ~ In d (N (wide (all_plates (call_tensors args kwargs)))) ->
  prepare_args veq anc_unwrap args kwargs o = Err UnboundLocalError.
Proof.
  intros args kwargs o d HC Hd Hne Hni.
  assert (E0 : exists a k, prepare_args veq anc_unwrap args kwargs (mkW false true true false false None None)
     = Ok (a, k, call_tensors args kwargs, all_plates (call_tensors args kwargs))).
  { destruct HC as [Hwf [HA Hpl]]. set (ts := call_tensors args kwargs) in *.
    unfold prepare_args. destruct (prepare_args_collected args kwargs) as [m E]. rewrite E. fold ts.
    destruct (folded_spec veq anc_unwrap ts [] (flat_map splates ts)) as [Ef [I [D X]]]; auto.
    { intros x []. } { constructor. } { intros t Ht x Hx. apply in_flat_map. exists t; auto. }
    assert (Ec : collected ts = all_plates ts).
    { exact Ef. }
    rewrite Ec. rewrite (filter_collected_ok veq (flat_map splates ts)) by auto. cbn. eauto. }
  destruct E0 as [a [k E0]]. unfold prepare_args in *.
  destruct (collect veq _ _) as [[par pls] med]. destruct (filter_collected veq pls pls) as [f|]; [|discriminate].
  cbn [bind o_dim o_dims o_unwrap] in E0. injection E0 as -> -> -> ->. cbn [bind]. rewrite Hd.
  apply String.eqb_neq in Hne. rewrite Hne. rewrite <- wide_mdp. apply dim_pos_none with (i := 0) in Hni. rewrite Hni.
  reflexivity.
Qed.

Lemma dim_selects : forall args kwargs ex d ts,
  ts = call_tensors args kwargs -> callable veq ts ->
  Forall no_distr args -> Forall (fun kv => no_distr (snd kv)) kwargs ->
  d <> ""%string -> In d (N (wide (all_plates ts))) -> ~ In "dim"%string (map fst kwargs) ->
  let R := laid_out (wide (all_plates ts)) ex (max_event ts) in
  exists i p args' kwargs',
    prepare_args veq anc_unwrap args kwargs (mkW true true true ex false (Some d) None) =
      Ok (args', kwargs' ++ [("dim"%string, PInt i)], ts, all_plates ts) /\
    nth_error (wide (all_plates ts)) i = Some p /\ pname p = d /\
    Forall2 (unwrapped R) args args' /\
    Forall2 (fun x y => fst x = fst y /\ unwrapped R (snd x) (snd y)) kwargs kwargs'.
Proof.
  intros args kwargs ex d ts Ets HC NDa NDk Hd Hin Hk R.
  destruct (prepare_args_laid_out veq anc_unwrap args kwargs (mkW true true true ex false None None) ts)
    as [args' [kwargs' [E [F1 F2]]]]; auto.
  destruct (dim_pos d (wide (all_plates ts)) 0) as [i|] eqn:Ei; [|apply dim_pos_none in Ei; tauto].
  destruct (dim_pos_spec _ _ _ _ Ei) as [p [_ [Hn En]]]. rewrite Nat.sub_0_r in Hn.
  exists i, p, args', kwargs'. split; [|auto]. apply dim_reduces; auto.
Qed.

(** The keyword dim of the caller is overwritten. *)
Lemma set_kw_there : forall k (v w : pyval) l r, ~ In k (map fst l) -> set_kw k v (l ++ (k, w) :: r) = l ++ (k, v) :: r.
Proof.
  induction l as [|[k' v'] l IH]; simpl; intros r H; [now rewrite String.eqb_refl|]. destruct (String.eqb_spec k k'); [subst; tauto|].
  rewrite IH; tauto.
Qed.
Lemma mapM_app_inv : forall {A B} (f : A -> res B) l m r, mapM f (l ++ m) = Ok r ->
  exists l' m', r = l' ++ m' /\ mapM f l = Ok l' /\ mapM f m = Ok m'.
Proof.
  induction l as [|x l IH]; simpl; intros m r H; [exists [], r; auto|].
  destruct (f x) as [b|]; [|discriminate]. simpl in *. destruct (mapM f (l ++ m)) eqn:E; [|discriminate]. simpl in H. injection H as <-.
  destruct (IH _ _ E) as [l' [m' [-> [E1 E2]]]]. rewrite E1. exists (b :: l'), m'. auto.
Qed.
Lemma dim_reduces_there : forall u al lb ex fl d args k1 w k2 a k ps pl i,
  d <> ""%string -> ~ In "dim"%string (map fst k1) ->
  prepare_args veq anc_unwrap args (k1 ++ ("dim"%string, w) :: k2) (mkW u al lb ex fl None None) = Ok (a, k, ps, pl) ->
  dim_pos d (mdp pl) 0 = Some i ->
  exists k1' w' k2', k = k1' ++ ("dim"%string, w') :: k2' /\ length k1' = length k1 /\
    prepare_args veq anc_unwrap args (k1 ++ ("dim"%string, w) :: k2) (mkW u al lb ex fl (Some d) None) = Ok (a, k1' ++ ("dim"%string, PInt i) :: k2', ps, pl).
Proof.
  intros u al lb ex fl d args k1 w k2 a k ps pl i Hd Hk H Hi. unfold prepare_args in *.
  destruct (collect veq _ _) as [[par pls] med]. destruct (filter_collected veq pls pls) as [f|]; [|discriminate].
  cbn [bind o_dim o_dims o_unwrap] in *. apply String.eqb_neq in Hd. rewrite Hd.
  assert (Epl : pl = f).
  { destruct u; [|congruence]. destruct (mapM _ args); [|discriminate]. cbn [bind] in H.
    destruct (mapM _ (_ ++ _)); [|discriminate]. cbn [bind] in H. congruence. }
  subst f. rewrite Hi. cbn [bind]. rewrite set_kw_there by auto. destruct u; [|injection H as <- <- <-; exists k1, w, k2; auto].
  rewrite (mapM_ext (unwrap_val veq anc_unwrap (mdp pl) (mkW true al lb ex fl (Some d) None) med)
    (unwrap_val veq anc_unwrap (mdp pl) (mkW true al lb ex fl None None) med)) by (intros; now apply unwrap_val_ext).
  rewrite (mapM_ext (fun kv : string * pyval => do v <- unwrap_val veq anc_unwrap (mdp pl) (mkW true al lb ex fl (Some d) None) med (snd kv); Ok (fst kv, v))
    (fun kv : string * pyval => do v <- unwrap_val veq anc_unwrap (mdp pl) (mkW true al lb ex fl None None) med (snd kv); Ok (fst kv, v)))
    by (intros; erewrite unwrap_val_ext; [reflexivity|]; reflexivity).
  destruct (mapM _ args) as [a'|]; [|discriminate]. cbn [bind] in *.
  destruct (mapM _ (k1 ++ _ :: k2)) as [k'|] eqn:Ek; [|discriminate]. cbn [bind] in *. injection H as -> -> ->.
  apply mapM_app_inv in Ek. destruct Ek as [l' [m' [-> [E1 E2]]]]. cbn [mapM] in E2.
  match type of E2 with bind ?x _ = _ => destruct x as [[kk vv]|] eqn:E3 end; [|discriminate]. cbn [fst snd bind] in E3, E2.
  match type of E3 with bind ?x _ = _ => destruct x as [v3|]; [|discriminate] end. injection E3 as <- <-.
  match type of E2 with bind ?x _ = _ => destruct x as [r3|] eqn:E4 end; [|discriminate]. injection E2 as <-.
  exists l', v3, r3. split; [reflexivity|]. split; [clear -E1; revert l' E1; induction k1 as [|y k1 IH]; cbn [mapM]; intros l' E1; [now injection E1 as <-|]|].
  - match type of E1 with bind ?x _ = _ => destruct x; [|discriminate] end. cbn [bind] in E1. destruct (mapM _ k1); [|discriminate]. injection E1 as <-. simpl. f_equal. now apply IH.
  - erewrite mapM_app; [|exact E1|cbn [mapM fst snd unwrap_val bind]; rewrite E4; reflexivity]. reflexivity.
Qed.
Lemma dim_overwrites : forall args k1 w k2 ex d ts,
  ts = call_tensors args (k1 ++ ("dim"%string, w) :: k2) -> callable veq ts ->
  Forall no_distr args -> Forall (fun kv => no_distr (snd kv)) (k1 ++ ("dim"%string, w) :: k2) ->
  d <> ""%string -> In d (N (wide (all_plates ts))) -> ~ In "dim"%string (map fst k1) ->
  let R := laid_out (wide (all_plates ts)) ex (max_event ts) in
  exists i p args' k1' k2',
    prepare_args veq anc_unwrap args (k1 ++ ("dim"%string, w) :: k2) (mkW true true true ex false (Some d) None) =
      Ok (args', k1' ++ ("dim"%string, PInt i) :: k2', ts, all_plates ts) /\
    nth_error (wide (all_plates ts)) i = Some p /\ pname p = d /\
    Forall2 (unwrapped R) args args' /\
    Forall2 (fun x y => fst x = fst y /\ unwrapped R (snd x) (snd y)) k1 k1' /\
    Forall2 (fun x y => fst x = fst y /\ unwrapped R (snd x) (snd y)) k2 k2'.
Proof.
  intros args k1 w k2 ex d ts Ets HC NDa NDk Hd Hin Hk R.
  destruct (prepare_args_laid_out veq anc_unwrap args (k1 ++ ("dim"%string, w) :: k2) (mkW true true true ex false None None) ts)
    as [args' [kwargs' [E [F1 F2]]]]; auto.
  destruct (dim_pos d (wide (all_plates ts)) 0) as [i|] eqn:Ei; [|apply dim_pos_none in Ei; tauto].
  destruct (dim_pos_spec _ _ _ _ Ei) as [p [_ [Hn En]]]. rewrite Nat.sub_0_r in Hn.
  destruct (dim_reduces_there _ _ _ _ _ d _ _ _ _ _ _ _ _ i Hd Hk E Ei) as [k1' [w' [k2' [-> [EL EP]]]]].
  exists i, p, args', k1', k2'. split; [exact EP|]. split; [exact Hn|]. split; [exact En|]. split; [exact F1|].
  clear -F2 EL. revert k1' EL F2. induction k1 as [|x k1 IH]; intros [|y k1'] EL F2; try discriminate; simpl in *.
  - inversion F2; subst. split; [constructor|assumption].
  - inversion F2 as [|? ? ? ? H1 H2]; subst. destruct (IH k1' (eq_add_S _ _ EL) H2) as [A B]. split; [constructor; assumption|exact B].
Qed.

Lemma dims_raise : forall args kwargs o d ds, o_dims o = Some (d :: ds) ->
  exists e, prepare_args veq anc_unwrap args kwargs o = Err e.
Proof.
  intros args kwargs o d ds H. unfold prepare_args. destruct (collect veq _ _) as [[par pls] med].
  destruct (filter_collected veq pls pls) as [f|e]; cbn [bind]; [|eauto].
  match goal with |- exists e, bind ?x _ = _ => destruct x as [[kw id]|e]; cbn [bind]; [|eauto] end.
  rewrite H. unfold dims_loop. destruct (dim_pos d (mdp f) 0); [destruct id|]; cbn [bind]; eauto.
Qed.

(** ** Outputs *)

Lemma prepare_outputs_spec : forall (o : pyval) parents plates base i v j,
  no_storch o ->
  prepare_outputs o parents plates base i false = Ok (v, j) ->
  rewrapped (fun t u => t = u) (map sid parents) plates o v.
Proof.
  induction o using pyval_ind'; intros parents plates base i v j NS; simpl; intros E; try discriminate; try contradiction.
  - injection E as <- <-. constructor.
  - destruct (mk_tensor (base + i) t (map sid parents) plates false) as [s|] eqn:M; [|discriminate].
    simpl in E. injection E as <- <-. destruct (mk_tensor_fields _ _ _ _ _ _ M) as [F3 [F4 [F5 [F6 [F7 _]]]]].
    constructor; auto.
  - match type of E with bind (?f l i) _ = _ => remember (f l i) as R eqn:ER end.
    destruct R as [[l' k]|]; [|discriminate]. simpl in E. injection E as <- <-. constructor.
    revert i l' k NS ER. induction H as [|x r Hx Hr IH]; intros i l' k NS ER.
    + injection ER as -> ->. constructor.
    + destruct NS as [NS1 NS2].
      destruct (prepare_outputs x parents plates base i false) as [[x' i1]|] eqn:Ex; [|discriminate].
      simpl in ER.
      match type of ER with _ = bind (?f r i1) _ => remember (f r i1) as R eqn:ER2 end.
      destruct R as [[r' k2]|]; [|discriminate]. simpl in ER. injection ER as -> ->. constructor; eauto.
  - match type of E with bind (?f l i) _ = _ => remember (f l i) as R eqn:ER end.
    destruct R as [[l' k]|]; [|discriminate]. simpl in E. injection E as <- <-. constructor.
    revert i l' k NS ER. induction H as [|x r Hx Hr IH]; intros i l' k NS ER.
    + injection ER as -> ->. constructor.
    + destruct NS as [NS1 NS2].
      destruct (prepare_outputs x parents plates base i false) as [[x' i1]|] eqn:Ex; [|discriminate].
      simpl in ER.
      match type of ER with _ = bind (?f r i1) _ => remember (f r i1) as R eqn:ER2 end.
      destruct R as [[r' k2]|]; [|discriminate]. simpl in ER. injection ER as -> ->. constructor; eauto.
  - destruct l; [|discriminate]. injection E as <- <-. constructor.
  - destruct c; try discriminate.
    2:{ match type of E with bind ?x _ = _ => destruct x as [?|]; discriminate end. }
    match type of E with bind (?f l i) _ = _ => remember (f l i) as R eqn:ER end.
    destruct R as [[l' k]|]; [|discriminate]. simpl in E. injection E as <- <-. constructor.
    revert i l' k NS ER. induction H as [|[n x] r Hx Hr IH]; intros i l' k NS ER.
    + injection ER as -> ->. constructor.
    + destruct NS as [NS1 NS2].
      destruct (prepare_outputs x parents plates base i false) as [[x' i1]|] eqn:Ex; [|discriminate].
      simpl in ER.
      match type of ER with _ = bind (?f r i1) _ => remember (f r i1) as R eqn:ER2 end.
      destruct R as [[r' k2]|]; [|discriminate]. simpl in ER. injection ER as -> ->. constructor; eauto.
Qed.

Lemma prepare_args_parents : forall args kwargs o a k ps pl,
  prepare_args veq anc_unwrap args kwargs o = Ok (a, k, ps, pl) -> ps = call_tensors args kwargs.
Proof.
  intros args kwargs o a k ps pl H. unfold prepare_args in H.
  destruct (prepare_args_collected args kwargs) as [m E]. rewrite E in H.
  destruct (filter_collected veq _ _) as [l|]; [|discriminate]. cbn [bind] in H.
  match type of H with bind ?x _ = _ => destruct x as [[kw id]|]; [|discriminate] end. cbn [bind] in H.
  match type of H with bind ?x _ = _ => destruct x as [kw'|]; [|discriminate] end. cbn [bind] in H.
  destruct (o_unwrap o).
  - destruct (mapM _ args); [|discriminate]. cbn [bind] in H.
    destruct (mapM _ kw'); [|discriminate]. cbn [bind] in H. congruence.
  - congruence.
Qed.

Lemma dependencies_recorded : forall fn args kwargs o base v,
  call_tensors args kwargs <> [] -> o_flatten o = false ->
  handle_deterministic veq anc_unwrap top_ctx fn args kwargs [] o base = Ok v ->
  (forall a k out, fn a k = Ok out -> no_storch out) ->
  exists args' kwargs' plates out,
    prepare_args veq anc_unwrap args kwargs o = Ok (args', kwargs', call_tensors args kwargs, plates) /\
    fn args' kwargs' = Ok out /\
    rewrapped (fun t u => t = u) (map sid (call_tensors args kwargs)) plates out v.
Proof.
  intros fn args kwargs o base v Hne Hf H Hns. unfold handle_deterministic in H. cbn [top_ctx c_stochastic] in H.
  destruct (prepare_args veq anc_unwrap args kwargs o) as [[[[a k] ps] pl]|] eqn:E; [|discriminate].
  cbn [bind] in H. pose proof (prepare_args_parents _ _ _ _ _ _ _ E) as ->.
  destruct (call_tensors args kwargs) as [|t0 ts0] eqn:Ect; [congruence|].
  destruct (fn a k) as [out|] eqn:Ef; [|discriminate]. cbn [bind c_ignore] in H.
  rewrite filter_none in H. rewrite Hf in H.
  destruct (prepare_outputs out (t0 :: ts0) pl base 1 false) as [[v' j]|] eqn:Eo; [|discriminate].
  cbn [bind] in H. injection H as <-. exists a, k, pl, out. repeat split; auto.
  eapply prepare_outputs_spec; eauto.
Qed.

Lemma no_tensor_call : forall fn args kwargs rp o base,
  call_tensors args kwargs = [] ->
  o_dim o = None -> o_dims o = None -> Forall no_distr args -> Forall (fun kv => no_distr (snd kv)) kwargs ->
  handle_deterministic veq anc_unwrap top_ctx fn args kwargs rp o base = fn args kwargs.
Proof.
  intros fn args kwargs rp o base Hc Hd Hds NDa NDk. unfold handle_deterministic. cbn [top_ctx c_stochastic].
  unfold prepare_args. destruct (prepare_args_collected args kwargs) as [m E]. rewrite E, Hc. cbn [collected fold_left].
  cbn [filter_collected bind]. rewrite Hd. cbn [bind]. rewrite Hds. cbn [bind mdp filter].
  destruct (o_unwrap o); [|reflexivity].
  destruct (mapM_spec (unwrap_val veq anc_unwrap [] o m) (fun _ _ => True) args) as [args' [E1 F1]].
  { intros x Hx. destruct (unwrap_val_spec veq anc_unwrap (fun _ _ => True) [] o m x) as [v [Ev _]]; [rewrite Forall_forall in NDa; auto| |eauto].
    intros t Ht. exfalso. assert (I : In t (call_tensors args kwargs)).
    { unfold call_tensors. apply in_app_iff. left. apply in_flat_map. eauto. } rewrite Hc in I. destruct I. }
  destruct (mapM_spec (fun kv : string * pyval => do v <- unwrap_val veq anc_unwrap [] o m (snd kv); Ok (fst kv, v)) (fun _ _ => True) kwargs) as [kw' [E2 F2]].
  { intros x Hx. destruct (unwrap_val_spec veq anc_unwrap (fun _ _ => True) [] o m (snd x)) as [v [Ev _]]; [rewrite Forall_forall in NDk; auto| |rewrite Ev; simpl; eauto].
    intros t Ht. exfalso. assert (I : In t (call_tensors args kwargs)).
    { unfold call_tensors. apply in_app_iff. right. apply in_flat_map. eauto. } rewrite Hc in I. destruct I. }
  rewrite E1. cbn [bind]. rewrite E2. reflexivity.
Qed.
End CallProofs2.
