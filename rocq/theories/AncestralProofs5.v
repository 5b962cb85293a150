(** An operation on an earlier and a later variable. *)
From Coq Require Import String List Arith Bool Lia.
From Verif Require Import Base Torch Plates Wrap Ancestral ListLemmas IndexLemmas SpecTensor SpecWrap SpecReduce SpecAncestral
  WrapProofs AlignProofs PlateEqProofs CallProofs OpProofs AncestralProofs AncestralProofs2 AncestralProofs3 AncestralProofs4.
Import ListNotations.

#[local] Arguments skipn {A} !n !l : simpl nomatch.
#[local] Arguments firstn {A} !n !l : simpl nomatch.

Section Operator.
Context {V : Type}.
Variable veq : V -> V -> bool.
Notation plate := (plate V).
Notation stensor := (stensor V).
Notation N l := (map (@pname V) l).
Variable G : list plate.
Variable x : string.
Variables pp q : plate.
Variables vp vq : nat.
Hypothesis G_plain : plain G.
Hypothesis G_agree : agree veq G.
Hypothesis G_name : forall p, In p G -> pname p <> x.
Hypothesis pp_cls : pcls pp = Ancestral vp false.
Hypothesis q_cls : pcls q = Ancestral vq false.
Hypothesis pp_name : pname pp = x.
Hypothesis q_name : pname q = x.
Hypothesis v_lt : vq < vp.
Hypothesis x_name : x <> ""%string.
Hypothesis pp_wide : 1 < pn pp.
Notation world := (world G pp q).
Notation both := (both veq).
Notation notq := (notq x vq).

Lemma filter_collected_map : forall (g : plate -> bool) all l, (forall p, In p l -> on_collecting_args veq p all = Ok (g p)) ->
  filter_collected veq all l = Ok (filter g l).
Proof.
  induction l as [|p l IH]; intros H; [reflexivity|]. cbn [filter_collected filter]. rewrite (H p) by (simpl; auto).
  cbn [bind]. rewrite IH by (intros; apply H; simpl; auto). cbn [bind]. destruct (g p); reflexivity.
Qed.

Lemma collected : forall M, (forall p, In p M -> world p) -> In pp M -> filter_collected veq M M = Ok (filter notq M).
Proof.
  intros M HM Hpp. apply filter_collected_map. intros p Hp. unfold AncestralProofs3.notq.
  destruct (HM p Hp) as [->|[->|Hg]].
  - rewrite (isq_pp x pp vp vq pp_cls v_lt). cbn [negb]. apply oca_true. intros r Hr En.
    destruct (HM r Hr) as [->|[->|Hg]].
    + left. apply peq_refl.
    + right. unfold on_duplicate_plate. rewrite q_cls, pp_cls. f_equal. now apply Nat.ltb_lt.
    + exfalso. apply (G_name r Hg). congruence.
  - rewrite (isq_q x q vq q_cls q_name). cbn [negb].
    apply (oca_q veq G x pp q vp vq); auto.
  - rewrite (isq_G G x vq G_plain) by auto. cbn [negb]. apply oca_true. intros r Hr En. left.
    destruct (HM r Hr) as [->|[->|Hg']]; try (exfalso; apply (G_name p Hg); congruence). apply G_agree; auto.
Qed.

Lemma agree_pp : agree veq (pp :: G).
Proof.
  intros p r [<-|Hp] [<-|Hr] En.
  - split; auto. apply peq_refl.
  - exfalso. apply (G_name r Hr). congruence.
  - exfalso. apply (G_name p Hp). congruence.
  - apply G_agree; auto.
Qed.

(** One argument. *)
Lemma arg_plain : forall hook K med a b,
  NoDup (N K) -> In pp K -> (forall p, In p K -> p = pp \/ In p G) ->
  hook pp a = Ok b -> hook pp b = Ok b -> over G pp b ->
  (forall p, In p (splates b) -> In (pname p) (N K)) -> s_event_dims b <= med ->
  exists u, unwrap_tensor veq hook (wide K) default_opts med a = Ok u /\ laid_out (wide K) false med b u.
Proof.
  intros hook K med a b ND Hpp HK Ha Hb Ob Hcov Hed.
  destruct (unwrap_tensor_spec veq hook (wide K) default_opts med b (pp :: G)) as [u [Eu Lu]]; auto.
  - apply agree_pp.
  - intros p Hp. apply In_wide in Hp. destruct (HK p) as [->|]; simpl; tauto.
  - intros p Hp. destruct (over_rest _ _ _ Ob p Hp) as [->|]; simpl; auto.
  - apply (over_wf _ _ _ Ob).
  - now apply NoDup_map_filter.
  - intros p Hp. apply In_wide in Hp. tauto.
  - intros p Hp. apply In_wide in Hp. destruct Hp as [Hp Wp]. specialize (Hcov p Hp). apply in_map_iff in Hcov.
    destruct Hcov as [r [En Hr]]. rewrite <- En. apply in_map. apply In_wide. split; auto.
    destruct (HK r Hr) as [->|Hg]; auto. destruct (over_rest _ _ _ Ob p Hp) as [->|Hg'].
    + exfalso. apply (G_name r Hg). congruence.
    + destruct (G_agree r p) as [_ ->]; auto.
  - intros p Hp. apply In_wide in Hp. unfold on_unwrap_tensor. destruct (HK p) as [->|Hg]; try tauto.
    + now rewrite pp_cls.
    + now rewrite (G_plain p Hg).
  - exists u. split; [|exact Lu]. rewrite <- Eu. unfold unwrap_tensor. cbn [default_opts o_align negb].
    assert (HF : forall c, hook pp c = Ok b -> foldM (fun a p => on_unwrap_tensor hook p a) (wide K) c = Ok b).
    { intros c Hc. assert (E : ov [] pp = pp) by reflexivity.
      apply (hook_fold G x pp) with (rec := []); auto.
      - intros p Hp. apply In_wide in Hp. rewrite E. apply HK; tauto.
      - now apply NoDup_map_filter.
      - rewrite E. apply In_wide. auto.
      - rewrite E. unfold on_unwrap_tensor. now rewrite pp_cls. }
    rewrite !HF by auto. reflexivity.
Qed.

Lemma in_wide_range : forall (s : assignment) (l : list plate), in_range s l -> in_range s (wide l).
Proof. intros s l H p Hp. apply In_wide in Hp. apply H; tauto. Qed.

(** The whole operation, with the tensors [b1] and [b2] the arguments become. *)
Lemma op2_gen : forall hook f a1 a2 b1 b2 base evc,
  wf a1 -> wf a2 ->
  (forall p, In p (splates a1) -> world p) -> (forall p, In p (splates a2) -> world p) ->
  In pp (splates a1 ++ splates a2) ->
  hook pp a1 = Ok b1 -> hook pp b1 = Ok b1 -> hook pp a2 = Ok b2 -> hook pp b2 = Ok b2 ->
  over G pp b1 -> over G pp b2 ->
  (forall p, In p (splates b1 ++ splates b2) -> In (pname p) (N (splates a1 ++ splates a2))) ->
  let m := Nat.max (s_event_dims a1) (s_event_dims a2) in
  s_event_dims b1 <= m -> s_event_dims b2 <= m ->
  broadcasts (pad m (s_event_shape b1)) (pad m (s_event_shape b2)) evc ->
  (forall p, In p (splates a1) -> p <> q -> In (pname p) (N (splates b1 ++ splates b2))) ->
  (forall p, In p (splates a2) -> p <> q -> In (pname p) (N (splates b1 ++ splates b2))) ->
  exists r, torch_op2 veq hook top_ctx f (PT a1) (PT a2) base = Ok (PT r) /\
    over G pp r /\
    (forall n, In n (N (splates r)) <-> In n (N (splates a1 ++ splates a2))) /\
    s_event_shape r = evc /\ sparents r = [sid a1; sid a2] /\ s_stochastic r = false /\
    forall s e, in_range s (splates r) -> valid e evc ->
      den r s e = f (den b1 s (firstn (s_event_dims b1) (zip_clip (pad m (s_event_shape b1)) e)))
                    (den b2 s (firstn (s_event_dims b2) (zip_clip (pad m (s_event_shape b2)) e))).
Proof.
  intros hook f a1 a2 b1 b2 base evc W1 W2 Wo1 Wo2 Hpp H1 H1' H2 H2' O1 O2 Hcov m Hd1 Hd2 Hev Hk1 Hk2.
  destruct (kept_props veq G x pp q vp vq G_plain G_agree G_name pp_cls q_cls pp_name q_name v_lt [] eq_refl
              (splates a1) (splates a2)) as [_ [NK [Kpp [KG [Kpos [Kfrom [Ka1 Ka2]]]]]]]; auto.
  { apply (wf_names a1 W1). } { apply (wf_names a2 W2). }
  { intros p Hp. apply in_app_iff in Hp. destruct Hp as [Hp|Hp]; [apply (wf_pos a1 W1)|apply (wf_pos a2 W2)]; auto. }
  set (M := both (splates a1) (splates a2)) in *. set (K := filter notq M) in *.
  assert (HM : forall p, In p M -> world p) by (intros p Hp; apply both_in in Hp; destruct Hp; auto).
  assert (HppM : In pp M) by (apply filter_In in Kpp; tauto).
  assert (Hx : In x (N K)) by (rewrite <- pp_name; now apply in_map).
  assert (KN : forall n, In n (N K) <-> In n (N (splates a1 ++ splates a2))).
  { intros n. split; intros Hn.
    - apply in_map_iff in Hn. destruct Hn as [p [<- Hp]]. apply in_map. apply in_or_app. apply Kfrom; auto.
    - apply in_map_iff in Hn. destruct Hn as [p [<- Hp]]. apply in_app_iff in Hp.
      assert (Hd : p = q \/ p <> q).
      { destruct Hp as [Hp|Hp]; [destruct (Wo1 p Hp) as [->|[->|Hg]]|destruct (Wo2 p Hp) as [->|[->|Hg]]]; auto; right;
          try (intros E; pose proof pp_cls as X; rewrite E, q_cls in X; injection X; lia);
          intros ->; apply (G_name q Hg q_name). }
      destruct Hd as [->|Hd]; [now rewrite q_name|]. destruct Hp as [Hp|Hp]; [apply in_map; apply Ka1; auto|apply Ka2; auto]. }
  assert (Hc1 : forall p, In p (splates b1) -> In (pname p) (N K)) by (intros; apply KN, Hcov, in_or_app; auto).
  assert (Hc2 : forall p, In p (splates b2) -> In (pname p) (N K)) by (intros; apply KN, Hcov, in_or_app; auto).
  destruct (arg_plain hook K m a1 b1) as [u1 [E1 [S1 X1]]]; auto.
  destruct (arg_plain hook K m a2 b2) as [u2 [E2 [S2 X2]]]; auto.
  assert (Ec : collect veq (PDict []) (collect veq (PList [PT a1; PT a2]) ([], [], 0)) = ([a1; a2], M, m)).
  { simpl. unfold M, m.
    rewrite (add_nil veq G x pp q vp vq) by (auto; apply (wf_names a1 W1)).
    rewrite (add_plates_new veq G x pp q vp vq) by (auto; apply (wf_names a2 W2)). reflexivity. }
  assert (E : prepare_args veq hook [PT a1; PT a2] [] default_opts = Ok ([PRaw u1; PRaw u2], [], [a1; a2], K)).
  { unfold prepare_args. rewrite Ec. rewrite (collected M HM HppM). fold K. cbn [bind].
    cbn [default_opts o_dim o_dims o_unwrap mapM unwrap_val bind].
    change (mdp K) with (wide K). fold default_opts. rewrite E1. cbn [bind]. rewrite E2. reflexivity. }
  unfold torch_op2, handle_deterministic. cbn [top_ctx c_stochastic]. rewrite E. cbn [bind torch_fn2].
  unfold elementwise2. set (ps := wide K) in *.
  assert (HB : broadcasts (shape u1) (shape u2) (map pn ps ++ evc)).
  { rewrite S1, S2. apply broadcasts_app; auto. apply wide_choice_broadcasts.
    intros p Hp. apply In_wide in Hp. destruct Hp as [Hp _]. rewrite !has_In.
    assert (Hn : In (pname p) (N (splates b1 ++ splates b2))).
    { destruct (KG p Hp) as [->|Hg]; [apply in_map, in_or_app; left; apply O1|].
      assert (Hpq : p <> q) by (intros ->; apply (G_name q Hg q_name)).
      destruct (Kfrom p Hp); auto. }
    rewrite map_app in Hn. apply in_app_iff in Hn. exact Hn. }
  rewrite (broadcasts_bshape _ _ _ HB). cbn [bind c_ignore].
  rewrite filter_none. cbn [prepare_outputs default_opts o_flatten bind].
  set (t := mkten (map pn ps ++ evc) (fun idx => f (el u1 (bidx (shape u1) idx)) (el u2 (bidx (shape u2) idx)))).
  destruct (mk_tensor_good (base + 1) t (map sid [a1; a2]) K false evc) as [r [Er [_ [Str [Plr [Par [Sto [Evr Wr]]]]]]]]; auto.
  rewrite Er. cbn [bind]. exists r. split; [reflexivity|]. split; [|split; [|split; [|split; [|split]]]]; auto.
  - constructor; auto; rewrite Plr; auto.
  - intros n. rewrite Plr. apply KN.
  - rewrite Plr. intros s e Hs He. unfold den at 1. rewrite Str, Plr. fold ps. unfold t. cbn [el].
    assert (Hsr : in_range s ps) by (apply in_wide_range; auto).
    assert (Hw : forall p, In p ps -> 1 < pn p) by (intros p Hp; apply In_wide in Hp; tauto).
    pose proof (broadcasts_length _ _ _ HB) as [LB1 LB2].
    pose proof (broadcasts_length _ _ _ Hev) as [LE1 LE2].
    assert (Le : length e = length evc) by now apply valid_length.
    rewrite !bidx_same by (rewrite LB1 || rewrite LB2; rewrite !app_length, !map_length; lia).
    rewrite S1, S2.
    rewrite !zip_clip_app by now rewrite !map_length.
    rewrite !clip_choice2 by auto.
    assert (V1 : valid (zip_clip (pad m (s_event_shape b1)) e) (pad m (s_event_shape b1)))
      by (eapply broadcasts_valid_l; eauto).
    assert (V2 : valid (zip_clip (pad m (s_event_shape b2)) e) (pad m (s_event_shape b2)))
      by (eapply broadcasts_valid_r; eauto).
    rewrite X1, X2 by auto. reflexivity.
Qed.
End Operator.

Section OperatorChain.
Context {V : Type}.
Variable veq : V -> V -> bool.
Variable toi : V -> nat.
Notation plate := (plate V).
Notation stensor := (stensor V).
Notation N l := (map (@pname V) l).
Variable parent_plate : string -> nat -> option plate.
Variable selected_samples : string -> nat -> option stensor.
Variable G : list plate.
Variable x : string.
Hypothesis G_plain : plain G.
Hypothesis G_agree : agree veq G.
Hypothesis G_name : forall p, In p G -> pname p <> x.
Hypothesis x_name : x <> ""%string.
Notation hook := (anc_on_unwrap veq toi parent_plate selected_samples).

Lemma unwrap_same : forall base p v (b : stensor), variable_plate x v p -> over G p b -> hook base p b = Ok b.
Proof.
  intros base p v b Hp Hb. unfold anc_on_unwrap. cbn [anc_unwrap_rec in_recursion existsb].
  destruct (named_mid G x G_name (splates b) 0 p) as [j Ej]; try apply Hb; [apply (vp_name _ _ _ Hp)|].
  rewrite (vp_name _ _ _ Hp), Ej, (vp_class _ _ _ Hp). unfold pvi. rewrite (vp_class _ _ _ Hp), Nat.eqb_refl. reflexivity.
Qed.

Lemma pad_pad : forall m l, 1 <= m -> pad m (pad 1 l) = pad m l.
Proof.
  intros m l Hm. unfold pad. rewrite <- app_assoc. f_equal. rewrite app_length, repeat_length, <- repeat_app. f_equal.
  destruct l; simpl; lia.
Qed.

Lemma value_event : forall q p sels follow a b m (evc : list nat) s e,
  followed G x q p sels follow a b -> 1 <= m -> s_event_dims a <= m ->
  in_range s (splates b) -> length e = length evc -> length evc = m ->
  valid (zip_clip (pad m (s_event_shape b)) e) (pad m (s_event_shape b)) ->
  den b s (firstn (s_event_dims b) (zip_clip (pad m (s_event_shape b)) e)) =
  den a (set_to s x (follow s)) (proj (s_event_shape a) e).
Proof.
  intros q p sels follow a b m evc s e F Hm Ha Hs Le Lm HV.
  assert (Hb : s_event_dims b = Nat.max 1 (s_event_dims a)).
  { unfold s_event_dims. rewrite (fo_event _ _ _ _ _ _ _ _ F). unfold pad. rewrite app_length, repeat_length. lia. }
  rewrite (fo_value _ _ _ _ _ _ _ _ F) by
    (auto; unfold pad in HV; apply valid_app_inv in HV; destruct HV as [i1 [i2 [E [V1 V2]]]];
     unfold pad at 1; rewrite E; unfold s_event_dims; rewrite <- (valid_length _ _ V1), firstn_app_exact; exact V1).
  f_equal. rewrite firstn_firstn. rewrite Nat.min_l by (rewrite Hb; lia).
  rewrite (fo_event _ _ _ _ _ _ _ _ F), pad_pad by auto. unfold pad, s_event_dims.
  rewrite zip_clip_prefix; [reflexivity|]. fold (pad m (s_event_shape a)). rewrite CallProofs.pad_length; [lia|exact Ha].
Qed.

Lemma names_range : forall p (r b : stensor) s, pname p = x -> over G p r -> over G p b ->
  (forall n, In n (N (splates b)) -> In n (N (splates r))) -> in_range s (splates r) -> in_range s (splates b).
Proof.
  intros p r b s Hp Hr Hb Hn Hs y Hy. assert (Hin : In (pname y) (N (splates r))) by (apply Hn, in_map; auto).
  apply in_map_iff in Hin. destruct Hin as [z [Ez Hz]]. specialize (Hs z Hz). rewrite <- Ez.
  destruct (over_rest _ _ _ Hb y Hy) as [->|Gy]; destruct (over_rest _ _ _ Hr z Hz) as [->|Gz]; auto.
  - exfalso. apply (G_name z Gz). congruence.
  - exfalso. apply (G_name y Gy). congruence.
  - destruct (G_agree z y) as [_ <-]; auto.
Qed.

Lemma op2_chain : forall f (first : bool) hbase base q p l a c evc,
  lineage toi parent_plate selected_samples G x q p l -> l <> [] -> over G q a -> over G p c ->
  (forall sel r, In sel (map snd l) -> In r (splates sel) -> r <> p -> In (pname r) (N (splates a ++ splates c))) ->
  let m := Nat.max (s_event_dims a) (s_event_dims c) in
  1 <= m ->
  let (a1, a2) := if first then (a, c) else (c, a) in
  broadcasts (pad m (s_event_shape a1)) (pad m (s_event_shape a2)) evc ->
  exists r, torch_op2 veq (hook hbase) top_ctx f (PT a1) (PT a2) base = Ok (PT r) /\
    over G p r /\ (forall n, In n (N (splates r)) <-> In n (N (splates a ++ splates c))) /\ s_event_shape r = evc /\
    sparents r = [sid a1; sid a2] /\
    forall s e, in_range s (splates r) -> valid e evc ->
      let va := den a (set_to s x (reached toi x (map snd l) s)) (proj (s_event_shape a) e) in
      let vc := den c s (proj (s_event_shape c) e) in
      den r s e = if first then f va vc else f vc va.
Proof.
  intros f first hbase base q p l a c evc Hl Hne Ha Hc Hsel m Hm.
  destruct (unwrap_chain veq toi parent_plate selected_samples G x G_plain G_agree G_name x_name hbase q p l a Hl Hne Ha)
    as [b [Eb F]].
  assert (Hv : exists vp vq, variable_plate x vp p /\ variable_plate x vq q /\ vq < vp).
  { inversion Hl as [|vm m0 p' vp sel l' Hl' Hm' Hp Hlt Hpar Hss Hle Hs]; subst; [contradiction|].
    destruct (lineage_index toi parent_plate selected_samples G x q p _ vp Hl Hp) as [vq [Hq [_ Hlq]]].
    exists vp, vq. split; auto. }
  destruct Hv as [vp [vq [Hp [Hq Hlt]]]].
  assert (Hc' : hook hbase p c = Ok c) by (apply (unwrap_same hbase p vp); auto).
  assert (Hb' : hook hbase p b = Ok b) by (apply (unwrap_same hbase p vp); auto; apply F).
  pose proof (fo_over _ _ _ _ _ _ _ _ F) as Ob.
  assert (Wa : forall r, In r (splates a) -> world G p q r).
  { intros r Hr. destruct (over_rest _ _ _ Ha r Hr) as [->|]; unfold world; auto. }
  assert (Wc : forall r, In r (splates c) -> world G p q r).
  { intros r Hr. destruct (over_rest _ _ _ Hc r Hr) as [->|]; unfold world; auto. }
  assert (Hbn : forall r, In r (splates b) -> In (pname r) (N (splates a ++ splates c))).
  { intros r Hr. assert (Hx : In (pname p) (N (splates a ++ splates c))) by (apply in_map, in_or_app; right; apply Hc).
    destruct (over_rest _ _ _ Ob r Hr) as [->|Hg]; auto.
    destruct (fo_from _ _ _ _ _ _ _ _ F r Hr) as [->|[Hra|[sel [Hs Hrs]]]]; auto.
    - apply in_map, in_or_app; auto.
    - apply (Hsel sel r Hs Hrs). intros ->. apply (G_name p Hg). apply (vp_name _ _ _ Hp). }
  assert (Hbe : s_event_dims b = Nat.max 1 (s_event_dims a)).
  { unfold s_event_dims. rewrite (fo_event _ _ _ _ _ _ _ _ F). unfold pad. rewrite app_length, repeat_length. lia. }
  assert (Hpad : pad m (s_event_shape b) = pad m (s_event_shape a)).
  { rewrite (fo_event _ _ _ _ _ _ _ _ F). now apply pad_pad. }
  assert (Val : forall r s e, over G p r -> (forall n, In n (N (splates r)) <-> In n (N (splates a ++ splates c))) ->
     in_range s (splates r) -> valid e evc -> length evc = m ->
     valid (zip_clip (pad m (s_event_shape b)) e) (pad m (s_event_shape b)) ->
     den b s (firstn (s_event_dims b) (zip_clip (pad m (s_event_shape b)) e)) =
     den a (set_to s x (reached toi x (map snd l) s)) (proj (s_event_shape a) e)).
  { intros r s e Or Nr Hs He Lm HV. apply (value_event q p (map snd l) _ a b m evc s e); auto; try (unfold m; lia).
    - apply (names_range p r b); auto; [apply (vp_name _ _ _ Hp)|]. intros n Hn. apply Nr.
      apply in_map_iff in Hn. destruct Hn as [y [<- Hy]]. auto.
    - now apply valid_length. }
  assert (Valc : forall e, length e = m ->
     firstn (s_event_dims c) (zip_clip (pad m (s_event_shape c)) e) = proj (s_event_shape c) e).
  { intros e Le. unfold pad, s_event_dims. rewrite zip_clip_prefix; [reflexivity|].
    fold (pad m (s_event_shape c)). rewrite CallProofs.pad_length; [exact Le|]. unfold m, s_event_dims. lia. }
  destruct first; intros Hev.
  - destruct (op2_gen veq G x p q vp vq G_plain G_agree G_name (vp_class _ _ _ Hp) (vp_class _ _ _ Hq) (vp_name _ _ _ Hp)
                (vp_name _ _ _ Hq) Hlt (vp_wide _ _ _ Hp) (hook hbase) f a c b c base evc)
      as [r [Er [Or [Nr [Evr [Par [Sto Dr]]]]]]]; auto.
    + apply Ha.
    + apply Hc.
    + apply in_or_app. right. apply Hc.
    + intros r Hr. apply in_app_iff in Hr. destruct Hr as [Hr|Hr]; auto. apply in_map, in_or_app; auto.
    + rewrite Hbe. fold m. unfold m in *. lia.
    + fold m. lia.
    + fold m. rewrite Hpad. exact Hev.
    + intros r Hr Hn. rewrite map_app. apply in_or_app. left. apply (fo_kept _ _ _ _ _ _ _ _ F); auto.
    + intros r Hr Hn. apply in_map, in_or_app; auto.
    + exists r. split; [exact Er|]. split; auto. split; auto. split; auto. split; auto.
      intros s e Hs He. cbv zeta. rewrite Dr by auto. fold m.
      pose proof (broadcasts_length _ _ _ Hev) as [LE1 LE2].
      assert (Lm : length evc = m) by (rewrite <- LE1; apply CallProofs.pad_length; unfold m, s_event_dims; lia).
      f_equal.
      * apply (Val r); auto. rewrite Hpad. eapply broadcasts_valid_l; eauto.
      * f_equal. apply Valc; auto. rewrite <- Lm. now apply valid_length.
  - destruct (op2_gen veq G x p q vp vq G_plain G_agree G_name (vp_class _ _ _ Hp) (vp_class _ _ _ Hq) (vp_name _ _ _ Hp)
                (vp_name _ _ _ Hq) Hlt (vp_wide _ _ _ Hp) (hook hbase) f c a c b base evc)
      as [r [Er [Or [Nr [Evr [Par [Sto Dr]]]]]]]; auto.
    + apply Hc.
    + apply Ha.
    + apply in_or_app. left. apply Hc.
    + intros r Hr. rewrite map_app, in_app_iff, or_comm, <- in_app_iff, <- map_app.
      apply in_app_iff in Hr. destruct Hr as [Hr|Hr]; auto. apply in_map, in_or_app; auto.
    + rewrite Nat.max_comm. fold m. unfold m. lia.
    + rewrite Nat.max_comm. fold m. rewrite Hbe. unfold m in *. lia.
    + rewrite Nat.max_comm. fold m. rewrite Hpad. exact Hev.
    + intros r Hr Hn. apply in_map, in_or_app; auto.
    + intros r Hr Hn. rewrite map_app. apply in_or_app. right. apply (fo_kept _ _ _ _ _ _ _ _ F); auto.
    + rewrite (Nat.max_comm (s_event_dims c)) in Dr. fold m in Dr.
      assert (Nr' : forall n, In n (N (splates r)) <-> In n (N (splates a ++ splates c))).
      { intros n. rewrite Nr, !map_app, !in_app_iff. tauto. }
      exists r. split; [exact Er|]. split; auto. split; auto. split; auto. split; auto.
      intros s e Hs He. cbv zeta. rewrite Dr by auto.
      pose proof (broadcasts_length _ _ _ Hev) as [LE1 LE2].
      assert (Lm : length evc = m) by (rewrite <- LE1; apply CallProofs.pad_length; unfold m, s_event_dims; lia).
      f_equal.
      * f_equal. apply Valc; auto. rewrite <- Lm. now apply valid_length.
      * apply (Val r); auto. rewrite Hpad. eapply broadcasts_valid_r; eauto.
Qed.

(** When the selections before the last one do nothing more the second time, the code follows the ancestors. *)
Lemma twice_once : forall q p l, lineage toi parent_plate selected_samples G x q p l -> forall s,
  (forall k, In k l -> settles toi x (snd k)) ->
  (forall sel r, In sel (map snd l) -> In r (splates sel) -> In r G -> s (pname r) < pn r) -> s x < pn p ->
  ancestor_twice toi x (map snd l) s = ancestor toi x (map snd l) s.
Proof.
  intros q p l H. induction H as [v0 H0|vm m p vp sel l Hl IH Hm Hp Hlt Hpar Hss Hle Hsel]; intros s Hi Hs Hx; [reflexivity|].
  cbn [map snd ancestor_twice ancestor].
  assert (Hr : in_range s (wide (splates sel))).
  { intros r Hr. apply In_wide in Hr. destruct Hr as [Hr _]. destruct (sel_plates _ _ _ _ _ Hsel r Hr) as [->|Hg].
    - now rewrite (vp_name _ _ _ Hp).
    - apply (Hs sel); simpl; auto. }
  pose proof (Hi (p, sel) (or_introl eq_refl) s Hr) as Hset. cbn [snd] in Hset. rewrite Hset. apply IH.
  - intros k Hk. apply Hi. simpl; auto.
  - intros sel' r Hs' Hr' Hg. rewrite set_to_other by now apply G_name. apply (Hs sel'); simpl; auto.
  - rewrite set_to_same. apply (sel_range _ _ _ _ _ Hsel). auto.
Qed.

Lemma reached_ancestor : forall q p l, lineage toi parent_plate selected_samples G x q p l -> forall s,
  (forall k, In k (tl l) -> settles toi x (snd k)) ->
  (forall sel r, In sel (map snd l) -> In r (splates sel) -> In r G -> s (pname r) < pn r) -> s x < pn p ->
  reached toi x (map snd l) s = ancestor toi x (map snd l) s.
Proof.
  intros q p l H. destruct H as [v0 H0|vm m p vp sel l Hl Hm Hp Hlt Hpar Hss Hle Hsel]; intros s Hi Hs Hx; [reflexivity|].
  cbn [map snd reached ancestor]. apply (twice_once q m l Hl); auto.
  - intros sel' r Hs' Hr' Hg. rewrite set_to_other by now apply G_name. apply (Hs sel'); simpl; auto.
  - rewrite set_to_same. apply (sel_range _ _ _ _ _ Hsel). intros r Hr. apply In_wide in Hr. destruct Hr as [Hr _].
    destruct (sel_plates _ _ _ _ _ Hsel r Hr) as [->|Hg].
    + now rewrite (vp_name _ _ _ Hp).
    + apply (Hs sel); simpl; auto.
Qed.

Lemma followed_ancestor : forall base q p l a, lineage toi parent_plate selected_samples G x q p l -> l <> [] ->
  (forall k, In k (tl l) -> settles toi x (snd k)) -> over G q a ->
  exists b, hook base p a = Ok b /\ over G p b /\
    (forall r, In r (splates a) -> r <> q -> In (pname r) (N (splates b))) /\
    s_event_shape b = pad 1 (s_event_shape a) /\
    forall s e, in_range s (splates b) -> valid e (s_event_shape b) ->
      den b s e = den a (set_to s x (ancestor toi x (map snd l) s)) (firstn (s_event_dims a) e).
Proof.
  intros base q p l a Hl Hne Hi Ha.
  destruct (unwrap_chain veq toi parent_plate selected_samples G x G_plain G_agree G_name x_name base q p l a Hl Hne Ha)
    as [b [Eb F]].
  assert (Hp : exists v, variable_plate x v p) by (inversion Hl; subst; eauto). destruct Hp as [v Hp].
  pose proof (fo_over _ _ _ _ _ _ _ _ F) as Ob.
  exists b. split; [exact Eb|]. split; [exact Ob|]. split; [apply (fo_kept _ _ _ _ _ _ _ _ F)|]. split; [apply (fo_event _ _ _ _ _ _ _ _ F)|].
  intros s e Hs He. rewrite (fo_value _ _ _ _ _ _ _ _ F) by auto. f_equal. f_equal.
  apply (reached_ancestor q p l Hl); auto.
  - intros sel r Hsel Hr Hg. pose proof (fo_sel _ _ _ _ _ _ _ _ F sel r Hsel Hr) as Hn. apply in_map_iff in Hn.
    destruct Hn as [z [Ez Hz]]. specialize (Hs z Hz). rewrite <- Ez.
    destruct (over_rest _ _ _ Ob z Hz) as [->|Gz].
    + exfalso. apply (G_name r Hg). rewrite <- Ez. apply (vp_name _ _ _ Hp).
    + destruct (G_agree z r) as [_ <-]; auto.
  - rewrite <- (vp_name _ _ _ Hp). apply Hs. apply Ob.
Qed.

(** Without selections the samples are the same sequences: only the plate changes. *)
Lemma relabel : forall base p q vp vq a, variable_plate x vp p -> variable_plate x vq q -> vq < vp -> pn q = pn p ->
  selected_samples x vp = None -> over G q a ->
  exists b, hook base p a = Ok b /\ over G p b /\ sparents b = [sid a] /\ s_event_shape b = s_event_shape a /\
    forall s e, den b s e = den a s e.
Proof.
  intros base p q vp vq a Hp Hq Hlt Hn Hss Ha.
  unfold anc_on_unwrap. cbn [anc_unwrap_rec in_recursion existsb].
  assert (Hsplit : exists l1 l2, splates a = l1 ++ q :: l2 /\ (forall r, In r (l1 ++ l2) -> In r G)).
  { pose proof (over_in _ _ _ Ha) as Hi. apply in_split in Hi. destruct Hi as [l1 [l2 E]]. exists l1, l2. split; auto.
    intros r Hr. assert (Hr' : In r (splates a)) by (rewrite E; apply in_app_iff in Hr; apply in_or_app; simpl; tauto).
    destruct (over_rest _ _ _ Ha r Hr') as [->|]; auto. exfalso.
    pose proof (wf_names a (over_wf _ _ _ Ha)) as ND. rewrite E, map_app in ND. cbn [map] in ND. apply NoDup_remove_2 in ND.
    apply ND. rewrite <- map_app. now apply in_map. }
  destruct Hsplit as [l1 [l2 [E HG]]].
  assert (En : Ancestral.named x (splates a) 0 = Some (length l1, q)).
  { rewrite E. assert (Hl1 : forall r, In r l1 -> pname r <> x) by (intros r Hr; apply G_name, HG, in_or_app; auto).
    clear E HG. replace (length l1) with (0 + length l1) by lia. generalize 0. induction l1 as [|r l1 IH]; intros i; simpl.
    - rewrite (vp_name _ _ _ Hq), String.eqb_refl. f_equal. f_equal. lia.
    - destruct (String.eqb_spec (pname r) x) as [Ex|Ex]; [exfalso; apply (Hl1 r); simpl; auto|].
      rewrite IH by (intros; apply Hl1; simpl; auto). f_equal. f_equal. lia. }
  rewrite (vp_name _ _ _ Hp), En, (vp_class _ _ _ Hq). unfold pvi. rewrite (vp_class _ _ _ Hp).
  replace (vq =? vp) with false by (symmetry; apply Nat.eqb_neq; lia).
  replace (vp <? vq) with false by (symmetry; apply Nat.ltb_ge; lia). rewrite Hss.
  rewrite E. rewrite firstn_app_exact, skipn_mid.
  assert (Enames : N (l1 ++ p :: l2) = N (l1 ++ q :: l2)).
  { rewrite !map_app. cbn [map]. now rewrite (vp_name _ _ _ Hp), (vp_name _ _ _ Hq). }
  assert (Ewide : wide (l1 ++ p :: l2) = wide l1 ++ p :: wide l2).
  { unfold wide. rewrite filter_app. cbn [filter]. rewrite (proj2 (Nat.ltb_lt 1 (pn p)) (vp_wide _ _ _ Hp)). reflexivity. }
  assert (Ewide' : wide (l1 ++ q :: l2) = wide l1 ++ q :: wide l2).
  { unfold wide. rewrite filter_app. cbn [filter]. rewrite (proj2 (Nat.ltb_lt 1 (pn q)) (vp_wide _ _ _ Hq)). reflexivity. }
  destruct (mk_tensor_good base (st a) [sid a] (l1 ++ p :: l2) false (s_event_shape a)) as [b [Eb [_ [Stb [Plb [Par [_ [Evb Wb]]]]]]]].
  - rewrite Enames, <- E. apply (wf_names a), Ha.
  - intros r Hr. apply in_app_iff in Hr. destruct Hr as [Hr|[<-|Hr]].
    + apply (wf_pos a (over_wf _ _ _ Ha)). rewrite E. apply in_or_app; auto.
    + pose proof (vp_wide _ _ _ Hp). lia.
    + apply (wf_pos a (over_wf _ _ _ Ha)). rewrite E. apply in_or_app; simpl; auto.
  - rewrite (wf_shape a (over_wf _ _ _ Ha)). f_equal. rewrite E, Ewide, Ewide', !map_app. cbn [map]. now rewrite Hn.
  - exists b. split; [exact Eb|]. split; [|split; [exact Par|split; [exact Evb|]]].
    + constructor; auto; rewrite Plb.
      * apply in_or_app. simpl; auto.
      * intros r Hr. apply in_app_iff in Hr. destruct Hr as [Hr|[<-|Hr]]; auto; right; apply HG, in_or_app; auto.
    + intros s e. unfold den. rewrite Stb, Plb, E, Ewide, Ewide', !map_app. cbn [map].
      now rewrite (vp_name _ _ _ Hp), (vp_name _ _ _ Hq).
Qed.
End OperatorChain.

(** ** Tensors that are left alone or rejected *)
Section Cases.
Context {V : Type}.
Variable veq : V -> V -> bool.
Variable toi : V -> nat.
Variable parent_plate : string -> nat -> option (plate V).
Variable selected_samples : string -> nat -> option (stensor V).
Lemma named_none : forall name (l : list (plate V)) i, ~ In name (map pname l) -> Ancestral.named name l i = None.
Proof.
  induction l as [|p l IH]; intros i H; simpl; auto. destruct (String.eqb_spec (pname p) name) as [E|E]; [exfalso; apply H; now left|]. apply IH. intros C. apply H. now right.
Qed.
Lemma named_some : forall (l : list (plate V)) q i, NoDup (map pname l) -> In q l -> exists j, Ancestral.named (pname q) l i = Some (j, q).
Proof.
  induction l as [|p l IH]; intros q i ND Hq; [destruct Hq|]. simpl. inversion ND as [|? ? N1 N2]; subst.
  destruct Hq as [->|Hq]; [rewrite String.eqb_refl; eauto|]. destruct (String.eqb_spec (pname p) (pname q)) as [E|E]; [|now apply IH].
  exfalso. apply N1. rewrite E. now apply in_map.
Qed.
Lemma unwrap_cases : forall base (p : plate V) (a : stensor V), NoDup (map pname (splates a)) ->
  let u := anc_on_unwrap veq toi parent_plate selected_samples base p a in
  (~ In (pname p) (map pname (splates a)) -> u = Ok a) /\
  forall q, In q (splates a) -> pname q = pname p ->
    (pcls q = PlainPlate -> u = Err AssertionError) /\
    forall vp op vq oq, pcls p = Ancestral vp op -> pcls q = Ancestral vq oq -> (vq = vp -> u = Ok a) /\ (vp < vq -> u = Err AssertionError).
Proof.
  intros base p a ND. cbv zeta. unfold anc_on_unwrap. cbn [anc_unwrap_rec in_recursion existsb]. split.
  - intros H. now rewrite named_none.
  - intros q Hq E. destruct (named_some (splates a) q 0 ND Hq) as [j Ej]. rewrite E in Ej. rewrite Ej. split.
    + now intros ->.
    + intros vp op vq oq Hp ->. unfold pvi. rewrite Hp. split.
      * intros ->. now rewrite Nat.eqb_refl.
      * intros H. replace (vq =? vp) with false by (symmetry; apply Nat.eqb_neq; lia). now rewrite (proj2 (Nat.ltb_lt _ _) H).
Qed.
End Cases.

(** The parent_indexing of the decoder is a selection. *)
Section ParentIndexing.
Context {V : Type}.
Variable toi : V -> nat.
Lemma wide_all : forall l : list (plate V), (forall r, In r l -> 1 < pn r) -> wide l = l.
Proof.
  induction l as [|r l IH]; intros H; [reflexivity|]. unfold wide. simpl. destruct (Nat.ltb_spec 1 (pn r)) as [L|L]; [f_equal; apply IH; intros q Hq; apply H; now right|].
  pose proof (H r (or_introl eq_refl)). lia.
Qed.
Lemma parent_indexing_selects : forall (G : list (plate V)) (q p : plate V) (a : stensor V),
  wf a -> (forall r, In r (splates a) -> In r G /\ 1 < pn r) -> ~ In (pname p) (map pname (splates a)) -> 1 < pn p -> s_event_shape a = [pn p] ->
  (forall i, valid i (shape (st a)) -> toi (el (st a) i) < pn q) ->
  let sel := insert_plate (length (splates a)) p a in
  selects toi G q p sel /\ splates sel = splates a ++ [p] /\ forall s, chosen toi sel s = toi (den a s [s (pname p)]).
Proof.
  intros G q p a Hw HG Hn Hp Hev Hr sel.
  assert (E : splates sel = splates a ++ [p]) by (unfold sel, insert_plate; cbn [splates]; now rewrite firstn_all, skipn_all).
  assert (Wa : wide (splates a) = splates a) by (apply wide_all; intros r Hr'; now destruct (HG r Hr')).
  assert (Wp : wide (splates sel) = splates a ++ [p]) by (rewrite E; apply wide_all; intros r Hr'; apply in_app_or in Hr'; destruct Hr' as [Hr'|[<-|[]]]; [now destruct (HG r Hr')|exact Hp]).
  assert (C : forall s, chosen toi sel s = toi (den a s [s (pname p)])).
  { intros s. unfold chosen, den. rewrite Wp, Wa, map_app. unfold sel, insert_plate. cbn [st map]. now rewrite app_nil_r. }
  split; [|split; [exact E|exact C]]. constructor.
  - rewrite E, map_app. apply NoDup_app_intro; [apply (wf_names a Hw)|repeat constructor; intros []|]. intros x Hx [<-|[]]. contradiction.
  - intros r Hr'. rewrite E in Hr'. apply in_app_or in Hr'. destruct Hr' as [Hr'|[<-|[]]]; [right; now apply HG|now left].
  - rewrite E. apply in_or_app. right. now left.
  - intros r Hr'. rewrite E in Hr'. apply in_app_or in Hr'. destruct Hr' as [Hr'|[<-|[]]]; [destruct (HG r Hr')|]; lia.
  - rewrite Wp. unfold sel, insert_plate. cbn [st]. rewrite (wf_shape a Hw), Wa, Hev, map_app. reflexivity.
  - unfold sel, insert_plate. cbn [s_event_shape]. exact Hev.
  - intros s Hs. rewrite C. unfold den. apply Hr. rewrite (wf_shape a Hw), Hev, Wa. rewrite Wp in Hs.
    apply Forall2_app; [|constructor; [apply Hs, in_or_app; right; now left|constructor]].
    assert (A : forall r, In r (splates a) -> s (pname r) < pn r) by (intros r Hr'; apply Hs, in_or_app; now left). clear - A.
    induction (splates a) as [|r l IH]; simpl; constructor; [apply A; now left|apply IH; intros; apply A; now right].
Qed.
End ParentIndexing.
