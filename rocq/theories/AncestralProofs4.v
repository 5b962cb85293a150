(** Following chains of selections. *)
From Coq Require Import String List Arith Bool Lia.
From Verif Require Import Base Torch Plates Wrap Ancestral ListLemmas IndexLemmas SpecTensor SpecWrap SpecReduce SpecAncestral
  WrapProofs AlignProofs PlateEqProofs OpProofs AncestralProofs AncestralProofs2 AncestralProofs3.
Import ListNotations.

#[local] Arguments skipn {A} !n !l : simpl nomatch.
#[local] Arguments firstn {A} !n !l : simpl nomatch.

Section Chain.
Context {V : Type}.
Variable veq : V -> V -> bool.
Variable toi : V -> nat.
Notation plate := (plate V).
Notation stensor := (stensor V).
Notation N l := (map (@pname V) l).
Variable parent_plate : string -> nat -> option plate.
Variable selected_samples : string -> nat -> option stensor.
Variable G : list plate.
Variable x : string.
Hypothesis G_plain : plain G.
Hypothesis G_agree : agree veq G.
Hypothesis G_name : forall p, In p G -> pname p <> x.
Hypothesis x_name : x <> ""%string.
Notation unwrap_rec := (anc_unwrap_rec veq toi parent_plate selected_samples).

Lemma den_same : forall (a : stensor) (s s' : assignment) e, (forall y, s y = s' y) -> den a s e = den a s' e.
Proof. intros a s s' e H. unfold den. f_equal. f_equal. apply map_ext. auto. Qed.

Lemma set_to_twice : forall s i j y, set_to (set_to s x i) x j y = set_to s x j y.
Proof. intros. unfold set_to. now destruct (String.eqb y x). Qed.

Lemma foldM_app : forall {A B} (f : B -> A -> res B) l1 l2 b, foldM f (l1 ++ l2) b = bind (foldM f l1 b) (foldM f l2).
Proof. induction l1; simpl; intros; auto. destruct (f b a); simpl; auto. Qed.

Lemma named_mid : forall l i (q : plate), In q l -> pname q = x -> (forall r, In r l -> r = q \/ In r G) ->
  exists j, Ancestral.named x l i = Some (j, q).
Proof.
  induction l as [|p l IH]; intros i q Hq Hn Hl; [destruct Hq|]. simpl.
  destruct (String.eqb_spec (pname p) x) as [E|E].
  - destruct (Hl p (or_introl eq_refl)) as [->|Hg]; [eauto|]. exfalso. apply (G_name p Hg E).
  - apply IH; auto.
    + destruct Hq as [->|]; auto. contradiction.
    + intros; apply Hl; simpl; auto.
Qed.

Lemma in_rec_eq : forall rec (p : plate) v, pcls p = Ancestral v false -> pname p = x -> in_recursion ((x, v) :: rec) p = true.
Proof. intros rec p v H1 H2. unfold in_recursion, is_plate. simpl. rewrite H1, H2, String.eqb_refl, Nat.eqb_refl. reflexivity. Qed.

Lemma in_rec_ne : forall rec (p : plate) v w, pcls p = Ancestral v false -> v <> w -> in_recursion ((x, w) :: rec) p = in_recursion rec p.
Proof.
  intros rec p v w H1 H2. unfold in_recursion at 1. simpl. unfold is_plate at 1. rewrite H1. simpl.
  replace (w =? v) with false by (symmetry; apply Nat.eqb_neq; auto). now rewrite andb_false_r.
Qed.

Lemma in_rec_override : forall rec (p : plate) b, in_recursion rec (set_override b p) = in_recursion rec p.
Proof.
  intros. unfold in_recursion. induction rec as [|k r IH]; simpl; auto. rewrite IH. f_equal.
  unfold is_plate. destruct p as [[|v o] y n w l]; reflexivity.
Qed.

(** What following one selection must give, [follow] being the sample of the previous variable it takes. *)
Record followed (q p : plate) (sels : list stensor) (follow : assignment -> nat) (a b : stensor) : Prop := {
  fo_over : over G p b;
  fo_from : forall r, In r (splates b) -> r = p \/ In r (splates a) \/ exists sel, In sel sels /\ In r (splates sel);
  fo_kept : forall r, In r (splates a) -> r <> q -> In (pname r) (N (splates b));
  fo_sel : forall sel r, In sel sels -> In r (splates sel) -> In (pname r) (N (splates b));
  fo_event : s_event_shape b = pad 1 (s_event_shape a);
  fo_value : forall s e, in_range s (splates b) -> valid e (s_event_shape b) ->
    den b s e = den a (set_to s x (follow s)) (firstn (s_event_dims a) e)
}.

Lemma agree_pn : forall p r, In p G -> In r G -> pname p = pname r -> pn p = pn r.
Proof. intros. apply G_agree; auto. Qed.

(** The ranges: a sample of [b] gives one of the tensor the selection is applied to. *)
Lemma range_back : forall p y (sel b T : stensor) s v, pname p = x -> pname y = x ->
  over G p b -> over G y T -> (forall r, In r (splates T) -> r <> y -> In (pname r) (N (splates b))) ->
  in_range s (splates b) -> v < pn y -> in_range (set_to s x v) (splates T).
Proof.
  intros p y sel b T s v Hp Hy Hb HT Hn Hs Hv r Hr. destruct (over_rest _ _ _ HT r Hr) as [->|Hg].
  - rewrite Hy, set_to_same. auto.
  - rewrite set_to_other by now apply G_name. assert (Hry : r <> y) by (intros ->; apply (G_name y Hg Hy)).
    specialize (Hn r Hr Hry). apply in_map_iff in Hn. destruct Hn as [r' [En Hr']]. rewrite <- En.
    destruct (over_rest _ _ _ Hb r' Hr') as [->|Hg'].
    + exfalso. apply (G_name r Hg). congruence.
    + rewrite <- (agree_pn r' r) by auto. apply Hs; auto.
Qed.

Lemma range_sel : forall q p (sel b : stensor) s, pname p = x -> selects toi G q p sel -> over G p b ->
  (forall r, In r (splates sel) -> In (pname r) (N (splates b))) ->
  in_range s (splates b) -> in_range s (wide (splates sel)).
Proof.
  intros q p sel b s Hp Hsel Hb Hn Hs r Hr. apply In_wide in Hr. destruct Hr as [Hr _].
  specialize (Hn r Hr). apply in_map_iff in Hn. destruct Hn as [r' [En Hr']]. rewrite <- En.
  destruct (sel_plates _ _ _ _ _ Hsel r Hr) as [->|Hg]; destruct (over_rest _ _ _ Hb r' Hr') as [->|Hg'].
  - apply Hs; auto.
  - exfalso. apply (G_name r' Hg'). congruence.
  - exfalso. apply (G_name r Hg). congruence.
  - rewrite <- (agree_pn r' r) by auto. apply Hs; auto.
Qed.

Lemma pad_one_max : forall a : stensor, pad (Nat.max 1 (s_event_dims a)) (s_event_shape a) = pad 1 (s_event_shape a).
Proof.
  intros a. unfold s_event_dims, pad. f_equal. destruct (s_event_shape a) as [|n l]; simpl; auto.
  now rewrite Nat.sub_diag.
Qed.

Lemma pad_one_idem : forall l, pad 1 (pad 1 l) = pad 1 l.
Proof. intros. unfold pad. destruct l; simpl; auto. rewrite !app_nil_r. reflexivity. Qed.

(** The loop body for the plate whose method runs. *)
Lemma step_self : forall rec f base p q vp vq sel a,
  variable_plate x vp p -> variable_plate x vq q -> vq < vp -> in_recursion rec q = false ->
  in_recursion rec p = false ->
  selects toi G q p sel -> over G q a ->
  let rec' := (x, vp) :: rec in
  exists b, (do e <- det_dim veq rec' (unwrap_rec (S f) rec' base) base x expand_ignore_fn [sel; a];
             det_dim veq rec' (unwrap_rec (S f) rec' base) base x (gather_fn toi) [a; e]) = Ok b /\
    followed q p [sel] (chosen toi sel) a b.
Proof.
  intros rec f base p q vp vq sel a [Cp Np Wp] [Cq Nq Wq] Hlt Hrq Hrp Hsel Ha rec'.
  assert (Rp : in_recursion rec' p = true) by now apply in_rec_eq.
  assert (Rq : in_recursion rec' q = false) by (unfold rec'; rewrite (in_rec_ne rec q vq); auto; lia).
  assert (Hov : pcls (ov rec' p) = Ancestral vp true).
  { unfold ov. rewrite Rp. apply (override_pp x p vp Cp Np). }
  assert (Hook : forall b, on_unwrap_tensor (unwrap_rec (S f) rec' base) (ov rec' p) b = Ok b).
  { intros b. unfold on_unwrap_tensor. rewrite Hov. cbn [anc_unwrap_rec].
    replace (in_recursion rec' (ov rec' p)) with true; auto. unfold ov. rewrite Rp, in_rec_override. auto. }
  destruct (select_step veq toi G x p q vp vq G_plain G_agree G_name Cp Cq Np Nq Hlt x_name rec' Rq Wp
              (unwrap_rec (S f) rec' base) base sel a a q) as [b [Eb [Ob [Pb [Kb [Sb [Evb Db]]]]]]]; auto.
  - rewrite Cq. discriminate.
  - unfold peq, anc_eq. rewrite Hov, Cq, ov_name, Np, Nq. simpl. apply String.eqb_refl.
  - unfold peq, anc_eq. rewrite Cq, Hov, ov_name, Np, Nq. simpl. rewrite ?orb_true_r. apply String.eqb_refl.
  - lia.
  - apply pad_one_max.
  - intros s Hs. apply (sel_range _ _ _ _ _ Hsel). auto.
  - exists b. split; [exact Eb|]. constructor; auto.
    + intros r Hr. destruct (Pb r Hr) as [|[|]]; auto. right. right. exists sel. simpl. auto.
    + intros r Hr Hn. apply in_map. apply Kb; auto.
    + intros sel' r [<-|[]] Hr. auto.
Qed.

(** on_unwrap_tensor for a tensor of the parent plate. *)
Lemma unwrap_one : forall rec f base p q vp vq sel a,
  variable_plate x vp p -> variable_plate x vq q -> vq < vp -> in_recursion rec q = false -> in_recursion rec p = false ->
  parent_plate x vp = Some q -> selected_samples x vp = Some sel ->
  selects toi G q p sel -> over G q a ->
  exists b, unwrap_rec (S (S f)) rec base p a = Ok b /\ followed q p [sel] (chosen toi sel) a b.
Proof.
  intros rec f base p q vp vq sel a Hp Hq Hlt Hrq Hrp Hpar Hss Hsel Ha.
  assert (Hp0 := Hp). assert (Hq0 := Hq).
  destruct Hp as [Cp Np Wp]. destruct Hq as [Cq Nq Wq].
  assert (Pv : pvi p = vp) by (unfold pvi; now rewrite Cp).
  assert (Qv : pvi q = vq) by (unfold pvi; now rewrite Cq).
  destruct (step_self rec f base p q vp vq sel a Hp0 Hq0 Hlt Hrq Hrp Hsel Ha) as [b [Eb Fb]].
  exists b. split; [|exact Fb].
  remember (S f) as f1 eqn:Ef. cbn [anc_unwrap_rec]. rewrite Hrp.
  destruct (named_mid (splates a) 0 q) as [j Ej]; auto; try apply Ha.
  rewrite Np, Ej, Cq, Pv. replace (vq =? vp) with false by (symmetry; apply Nat.eqb_neq; lia).
  replace (vp <? vq) with false by (symmetry; apply Nat.ltb_ge; lia).
  rewrite Hss. cbn [downstream]. rewrite Pv, Np.
  replace (vp =? vq) with false by (symmetry; apply Nat.eqb_neq; lia). rewrite Hpar.
  assert (Ed : downstream parent_plate vp q vq = Ok ([], q)).
  { destruct vp; simpl; rewrite Qv, Nat.eqb_refl; reflexivity. }
  rewrite Ed. cbn [bind app]. rewrite peq_refl. cbn [negb foldM]. rewrite Np, Pv, Hss. rewrite Eb. reflexivity.
Qed.

(** The loop body for another plate: its selection is applied by the nested on_unwrap_tensor and then once more. *)
Lemma step_other : forall vself f base p q vp vq sel a,
  variable_plate x vp p -> variable_plate x vq q -> vq < vp -> vp < vself ->
  parent_plate x vp = Some q -> selected_samples x vp = Some sel -> pn q <= pn p ->
  selects toi G q p sel -> over G q a ->
  let rec' := [(x, vself)] in
  exists b, (do e <- det_dim veq rec' (unwrap_rec (S (S f)) rec' base) base x expand_ignore_fn [sel; a];
             det_dim veq rec' (unwrap_rec (S (S f)) rec' base) base x (gather_fn toi) [a; e]) = Ok b /\
    followed q p [sel] (fun s => chosen toi sel (set_to s x (chosen toi sel s))) a b.
Proof.
  intros vself f base p q vp vq sel a Hp Hq Hlt Hself Hpar Hss Hle Hsel Ha rec'.
  assert (Hp0 := Hp). assert (Hq0 := Hq).
  destruct Hp as [Cp Np Wp]. destruct Hq as [Cq Nq Wq].
  assert (Pv : pvi p = vp) by (unfold pvi; now rewrite Cp).
  assert (Rp : in_recursion rec' p = false) by (unfold rec'; rewrite (in_rec_ne [] p vp); auto; lia).
  assert (Rq : in_recursion rec' q = false) by (unfold rec'; rewrite (in_rec_ne [] q vq); auto; lia).
  assert (Hov : ov rec' p = p) by (unfold ov; now rewrite Rp).
  destruct (unwrap_one rec' f base p q vp vq sel a) as [T [ET FT]]; auto.
  destruct FT as [OT PT KT ST EvT DT].
  destruct (select_step veq toi G x p q vp vq G_plain G_agree G_name Cp Cq Np Nq Hlt x_name rec' Rq Wp
              (unwrap_rec (S (S f)) rec' base) base sel a T p) as [b [Eb [Ob [Pb [Kb [Sb [Evb Db]]]]]]]; auto.
  - rewrite Cp. discriminate.
  - rewrite Hov. apply peq_refl.
  - rewrite Hov. apply peq_refl.
  - unfold on_unwrap_tensor. rewrite Hov, Cp. exact ET.
  - intros c Hc Hcr. unfold on_unwrap_tensor. rewrite Hov, Cp. cbn [anc_unwrap_rec]. rewrite Rp.
    assert (Erc : splates (refresh rec' c) = splates c).
    { unfold refresh. cbn [splates]. rewrite (map_ext_in _ (fun r => r)); [apply map_id|]. intros r Hr.
      destruct (Hcr r Hr) as [->|Hg]; [now rewrite Rp|]. now rewrite (rec_G G G_plain rec'). }
    rewrite Np, Erc. destruct (named_mid (splates c) 0 p) as [j Ej]; auto. rewrite Ej, Cp, Pv, Nat.eqb_refl. reflexivity.
  - intros r Hr. destruct (PT r Hr) as [|[|[sel' [[<-|[]] Hr']]]]; auto.
  - unfold s_event_dims at 1. rewrite EvT. unfold pad, s_event_dims. rewrite app_length, repeat_length. lia.
  - rewrite EvT. unfold s_event_dims, pad. rewrite <- app_assoc. f_equal. rewrite app_length, repeat_length.
    destruct (s_event_shape a) as [|n l]; simpl; auto. replace (length l - (length l + 0)) with 0 by lia. reflexivity.
  - intros s Hs. pose proof (sel_range _ _ _ _ _ Hsel s Hs). lia.
  - exists b. split; [exact Eb|]. constructor; auto.
    + intros r Hr. destruct (Pb r Hr) as [|[|]]; auto. right. right. exists sel. simpl. auto.
    + intros r Hr Hn. apply in_map. apply Kb; auto.
    + intros sel' r [<-|[]] Hr. auto.
    + intros s e Hs He. rewrite Db by auto.
      assert (Hs1 : in_range s (wide (splates sel))) by (apply (range_sel q p sel b); auto).
      assert (Hv : chosen toi sel s < pn p) by (pose proof (sel_range _ _ _ _ _ Hsel s Hs1); lia).
      assert (HsT : in_range (set_to s x (chosen toi sel s)) (splates T)).
      { apply (range_back p p sel b T); auto. intros r Hr Hn.
        destruct (PT r Hr) as [|[Hra|[sel' [[<-|[]] Hr']]]]; [contradiction| |auto].
        apply in_map. apply Kb; auto. intros ->. destruct (over_rest _ _ _ OT q Hr) as [E|Hg].
        - apply Hn; auto.
        - apply (G_name q Hg Nq). }
      assert (Le : length e = s_event_dims T).
      { apply valid_length in He. rewrite He, Evb. unfold s_event_dims. now rewrite EvT. }
      replace (firstn (s_event_dims T) e) with e by (rewrite <- Le; now rewrite firstn_all).
      rewrite DT.
      * apply den_same. intros y. apply set_to_twice.
      * exact HsT.
      * rewrite EvT. rewrite Evb in He. exact He.
Qed.

Notation lineage := (lineage toi parent_plate selected_samples G x).

Lemma lineage_index : forall q p l v, lineage q p l -> variable_plate x v p -> exists vq, variable_plate x vq q /\ vq <= v /\
  (l <> [] -> vq < v).
Proof.
  intros q p l v H. revert v. induction H as [v0 H0|vm m p vp sel l Hl IH Hm Hp Hlt Hpar Hss Hle Hsel]; intros v Hv.
  - exists v0. split; auto. pose proof (vp_class _ _ _ Hv) as E. rewrite (vp_class _ _ _ H0) in E. injection E as ->.
    split; auto. intros; contradiction.
  - destruct (IH vm Hm) as [vq [Hq [Hle' _]]]. exists vq. split; auto.
    pose proof (vp_class _ _ _ Hv) as E. rewrite (vp_class _ _ _ Hp) in E. injection E as ->. split; [lia|]. intros; lia.
Qed.

Lemma downstream_lineage : forall q p l, lineage q p l -> forall v vq fuel, variable_plate x v p -> variable_plate x vq q -> v < fuel ->
  downstream parent_plate fuel p vq = Ok (map fst (rev l), q).
Proof.
  intros q p l H. induction H as [v0 H0|vm m p vp sel l Hl IH Hm Hp Hlt Hpar Hss Hle Hsel]; intros v vq fuel Hv Hq Hf.
  - destruct fuel; [lia|]. cbn [downstream]. unfold pvi at 1. rewrite (vp_class _ _ _ Hq), Nat.eqb_refl. reflexivity.
  - destruct fuel; [lia|]. cbn [downstream].
    pose proof (vp_class _ _ _ Hv) as E. rewrite (vp_class _ _ _ Hp) in E. injection E as <-.
    unfold pvi at 1 2. rewrite (vp_class _ _ _ Hp).
    destruct (lineage_index q m l vm Hl Hm) as [vq' [Hq' [Hle' _]]].
    pose proof (vp_class _ _ _ Hq) as E. rewrite (vp_class _ _ _ Hq') in E. injection E as ->.
    replace (vp =? vq) with false by (symmetry; apply Nat.eqb_neq; lia).
    rewrite (vp_name _ _ _ Hp), Hpar. rewrite (IH vm vq fuel); auto; [|lia]. cbn [bind rev]. rewrite map_app. reflexivity.
Qed.

(** The loop over the plates before the last one. *)
Lemma loop_before : forall vself f base q m l, lineage q m l -> forall vm a, variable_plate x vm m -> vm < vself -> over G q a ->
  let rec' := [(x, vself)] in
  exists b, foldM (fun a pp =>
      match selected_samples (pname pp) (pvi pp) with
      | None => Err AttributeError
      | Some sel =>
          do e <- det_dim veq rec' (unwrap_rec (S (S f)) rec' base) base x expand_ignore_fn [sel; a];
          det_dim veq rec' (unwrap_rec (S (S f)) rec' base) base (pname pp) (gather_fn toi) [a; e]
      end) (map fst (rev l)) a = Ok b /\
    (l = [] -> b = a) /\ (l <> [] -> followed q m (map snd l) (ancestor_twice toi x (map snd l)) a b).
Proof.
  intros vself f base q m l H. induction H as [v0 H0|vm m p vp sel l Hl IH Hm Hp Hlt Hpar Hss Hle Hsel];
    intros v a Hv Hself Ha rec'; subst rec'.
  - exists a. simpl. split; auto. split; auto. intros; contradiction.
  - destruct (IH vm a) as [c [Ec [Cnil Cf]]]; auto.
    { pose proof (vp_class _ _ _ Hv) as E. rewrite (vp_class _ _ _ Hp) in E. injection E as <-. lia. }
    pose proof (vp_class _ _ _ Hv) as E. rewrite (vp_class _ _ _ Hp) in E. injection E as <-.
    assert (Oc : over G m c).
    { destruct l as [|k l]; [|apply Cf; discriminate]. rewrite Cnil by auto. inversion Hl; subst; auto. }
    destruct (step_other vself f base p m vp vm sel c Hp Hm Hlt Hself Hpar Hss Hle Hsel Oc) as [b [Eb Fb]].
    exists b. cbn [rev]. rewrite map_app, foldM_app, Ec. cbn [bind map foldM fst].
    rewrite (vp_name _ _ _ Hp). replace (pvi p) with vp by (unfold pvi; now rewrite (vp_class _ _ _ Hp)).
    rewrite Hss, Eb. split; [reflexivity|]. split; [discriminate|]. intros _. cbn [map snd].
    destruct Fb as [Ob Pb Kb Sb Evb Db].
    destruct l as [|k l].
    { rewrite Cnil in * by auto. inversion Hl; subst. constructor; auto.
      intros s e Hs He. rewrite Db by auto. apply den_same. intros y. cbn [map ancestor_twice]. now rewrite set_to_same. }
    destruct Cf as [Oc' Pc Kc Sc Evc Dc]; [discriminate|].
    destruct (lineage_index q m (k :: l) vm Hl Hm) as [vq [Hq [_ Hlq]]]. specialize (Hlq ltac:(discriminate)).
    assert (Hqm : forall r, In r (splates c) -> r <> m -> In (pname r) (N (splates b))) by (intros; apply Kb; auto).
    assert (Hcn : forall n, In n (N (splates c)) -> In n (N (splates b))).
    { intros n Hn. apply in_map_iff in Hn. destruct Hn as [r [<- Hr]].
      destruct (over_rest _ _ _ Oc r Hr) as [->|Hg].
      - rewrite (vp_name _ _ _ Hm), <- (vp_name _ _ _ Hp). apply in_map. apply Ob.
      - apply Hqm; auto. intros ->. apply (G_name m Hg). apply (vp_name _ _ _ Hm). }
    constructor; auto.
    + intros r Hr. destruct (Pb r Hr) as [|[Hrc|[sel' [[<-|[]] Hr']]]]; auto.
      * destruct (Pc r Hrc) as [->|[|[sel' [Hs' Hr']]]]; auto.
        -- destruct (over_rest _ _ _ Ob m Hr) as [|Hg]; auto. exfalso. apply (G_name m Hg). apply (vp_name _ _ _ Hm).
        -- right. right. exists sel'. simpl. auto.
      * right. right. exists sel. simpl. auto.
    + intros sel' r [<-|Hs'] Hr; [apply (Sb sel); simpl; auto|]. apply Hcn. apply (Sc sel'); auto.
    + rewrite Evb, Evc. apply pad_one_idem.
    + intros s e Hs He. rewrite Db by auto.
      assert (Hn1 : forall r, In r (splates sel) -> In (pname r) (N (splates b))) by (intros r Hr; apply (Sb sel); simpl; auto).
      assert (Hs1 : in_range s (wide (splates sel))) by (apply (range_sel m p sel b); auto; apply (vp_name _ _ _ Hp)).
      set (i := chosen toi sel s) in *.
      assert (Hi : i < pn m) by (apply (sel_range _ _ _ _ _ Hsel); auto).
      assert (Hs2 : in_range (set_to s x i) (wide (splates sel))).
      { intros r Hr. pose proof Hr as Hr0. apply In_wide in Hr0. destruct Hr0 as [Hr0 _].
        destruct (sel_plates _ _ _ _ _ Hsel r Hr0) as [->|Hg].
        - rewrite (vp_name _ _ _ Hp), set_to_same. lia.
        - rewrite set_to_other by (now apply G_name). apply Hs1; auto. }
      set (i2 := chosen toi sel (set_to s x i)) in *.
      assert (Hi2 : i2 < pn m) by (apply (sel_range _ _ _ _ _ Hsel); auto).
      assert (Le : length e = s_event_dims c).
      { apply valid_length in He. rewrite He, Evb, Evc, pad_one_idem. unfold s_event_dims. now rewrite Evc. }
      replace (firstn (s_event_dims c) e) with e by (rewrite <- Le; now rewrite firstn_all).
      rewrite Dc.
      * apply den_same. intros y. rewrite set_to_twice. reflexivity.
      * apply (range_back p m sel b c); auto; [apply (vp_name _ _ _ Hp)|apply (vp_name _ _ _ Hm)].
      * rewrite Evb, Evc, pad_one_idem in He. now rewrite Evc.
Qed.

(** The whole method, for any chain of selections. *)
Lemma unwrap_chain : forall base q p l a, lineage q p l -> l <> [] -> over G q a ->
  exists b, anc_on_unwrap veq toi parent_plate selected_samples base p a = Ok b /\
    followed q p (map snd l) (reached toi x (map snd l)) a b.
Proof.
  intros base q p l a Hl Hne Ha. inversion Hl as [|vm m p' vp sel l' Hl' Hm Hp Hlt Hpar Hss Hle Hsel]; subst; [contradiction|].
  destruct (lineage_index q p _ vp Hl Hp) as [vq [Hq [_ Hlq]]]. specialize (Hlq ltac:(discriminate)).
  assert (Pv : pvi p = vp) by (unfold pvi; now rewrite (vp_class _ _ _ Hp)).
  assert (Pq : pvi q = vq) by (unfold pvi; now rewrite (vp_class _ _ _ Hq)).
  destruct (lineage_index q m l' vm Hl' Hm) as [vq' [Hq' [Hle' Hlt']]].
  pose proof (vp_class _ _ _ Hq) as E. rewrite (vp_class _ _ _ Hq') in E. injection E as ->.
  unfold anc_on_unwrap. rewrite Pv. cbn [anc_unwrap_rec]. cbn [in_recursion existsb].
  destruct (named_mid (splates a) 0 q) as [j Ej]; try apply Ha; [apply (vp_name _ _ _ Hq)|].
  rewrite (vp_name _ _ _ Hp), Ej, (vp_class _ _ _ Hq), Pv.
  replace (vq =? vp) with false by (symmetry; apply Nat.eqb_neq; lia).
  replace (vp <? vq) with false by (symmetry; apply Nat.ltb_ge; lia). rewrite Hss.
  rewrite (downstream_lineage q p _ Hl vp vq) by (auto; lia). cbn [bind]. rewrite peq_refl. cbn [negb].
  cbn [rev]. rewrite map_app, foldM_app.
  assert (Hb : exists c, foldM (fun a pp =>
      match selected_samples (pname pp) (pvi pp) with
      | None => Err AttributeError
      | Some sel =>
          do e <- det_dim veq [(x, vp)] (unwrap_rec vp [(x, vp)] base) base x expand_ignore_fn [sel; a];
          det_dim veq [(x, vp)] (unwrap_rec vp [(x, vp)] base) base (pname pp) (gather_fn toi) [a; e]
      end) (map fst (rev l')) a = Ok c /\
    (l' = [] -> c = a) /\ (l' <> [] -> followed q m (map snd l') (ancestor_twice toi x (map snd l')) a c)).
  { destruct l' as [|k l'].
    - exists a. simpl. split; auto. split; auto. intros; contradiction.
    - specialize (Hlt' ltac:(discriminate)). destruct vp as [|[|f]]; [lia|lia|].
      apply (loop_before (S (S f)) f base q m (k :: l') Hl' vm a); auto. }
  destruct Hb as [c [Ec [Cnil Cf]]]. rewrite Ec. cbn [bind map foldM fst]. rewrite (vp_name _ _ _ Hp), Pv, Hss.
  assert (Oc : over G m c).
  { destruct l' as [|k l']; [|apply Cf; discriminate]. rewrite Cnil by auto. inversion Hl'; subst; auto. }
  destruct vp as [|f]; [lia|].
  destruct (step_self [] f base p m (S f) vm sel c Hp Hm Hlt eq_refl eq_refl Hsel Oc) as [b [Eb Fb]].
  exists b. rewrite Eb. split; [reflexivity|]. cbn [map snd reached].
  destruct Fb as [Ob Pb Kb Sb Evb Db].
  destruct l' as [|k l'].
  { rewrite Cnil in * by auto. inversion Hl'; subst. constructor; auto.
    intros s e Hs He. rewrite Db by auto. apply den_same. intros y. cbn [map ancestor_twice reached]. now rewrite set_to_same. }
  destruct Cf as [Oc' Pc Kc Sc Evc Dc]; [discriminate|].
  assert (Hqm : forall r, In r (splates c) -> r <> m -> In (pname r) (N (splates b))) by (intros; apply Kb; auto).
  assert (Hcn : forall n, In n (N (splates c)) -> In n (N (splates b))).
  { intros n Hn. apply in_map_iff in Hn. destruct Hn as [r [<- Hr]].
    destruct (over_rest _ _ _ Oc r Hr) as [->|Hg].
    - rewrite (vp_name _ _ _ Hm), <- (vp_name _ _ _ Hp). apply in_map. apply Ob.
    - apply Hqm; auto. intros ->. apply (G_name m Hg). apply (vp_name _ _ _ Hm). }
  constructor; auto.
  - intros r Hr. destruct (Pb r Hr) as [|[Hrc|[sel' [[<-|[]] Hr']]]]; auto.
    + destruct (Pc r Hrc) as [->|[|[sel' [Hs' Hr']]]]; auto.
      * destruct (over_rest _ _ _ Ob m Hr) as [|Hg]; auto. exfalso. apply (G_name m Hg). apply (vp_name _ _ _ Hm).
      * right. right. exists sel'. simpl. auto.
    + right. right. exists sel. simpl. auto.
  - intros sel' r [<-|Hs'] Hr; [apply (Sb sel); simpl; auto|]. apply Hcn. apply (Sc sel'); auto.
  - rewrite Evb, Evc. apply pad_one_idem.
  - intros s e Hs He. rewrite Db by auto.
    assert (Hn1 : forall r, In r (splates sel) -> In (pname r) (N (splates b))) by (intros r Hr; apply (Sb sel); simpl; auto).
    assert (Hs1 : in_range s (wide (splates sel))) by (apply (range_sel m p sel b); auto; apply (vp_name _ _ _ Hp)).
    set (i := chosen toi sel s) in *.
    assert (Hi : i < pn m) by (apply (sel_range _ _ _ _ _ Hsel); auto).
    assert (Le : length e = s_event_dims c).
    { apply valid_length in He. rewrite He, Evb, Evc, pad_one_idem. unfold s_event_dims. now rewrite Evc. }
    replace (firstn (s_event_dims c) e) with e by (rewrite <- Le; now rewrite firstn_all).
    rewrite Dc.
    + apply den_same. intros y. apply set_to_twice.
    + apply (range_back p m sel b c); auto; [apply (vp_name _ _ _ Hp)|apply (vp_name _ _ _ Hm)].
    + rewrite Evb, Evc, pad_one_idem in He. now rewrite Evc.
Qed.

End Chain.
