(** Proofs about the plates of variables sampled in a sequence. *)
From Coq Require Import String List Arith Bool Lia.
From Verif Require Import Base Torch Plates Wrap Inference Sampling SeqPlates ListLemmas IndexLemmas SpecTensor SpecWrap SpecReduce SpecSampling SpecSeqPlates
  WrapProofs CallProofs CallProofs2 OpProofs AlignProofs InferenceProofs SamplingProofs.
Import ListNotations.

Section SeqPlatesProofs.
Context {V : Type}.
Variable veq : V -> V -> bool.
Variable recip : nat -> V.
Notation plate := (plate V).
Notation stensor := (stensor V).
Notation N l := (map (@pname V) l).

Lemma collected : forall params, Forall wf (param_tensors params) -> agree veq (flat_map splates (param_tensors params)) ->
  exists parents rg, collect_params veq params [] [] false = (parents, all_plates (param_tensors params), rg) /\
    NoDup parents /\ (forall i, In i parents <-> In i (map sid (param_tensors params))) /\
    NoDup (N (all_plates (param_tensors params))) /\ incl (all_plates (param_tensors params)) (flat_map splates (param_tensors params)) /\
    (forall x, In x (N (all_plates (param_tensors params))) <-> exists t, In t (param_tensors params) /\ In x (N (splates t))) /\
    (forall p, In p (all_plates (param_tensors params)) -> 1 <= pn p).
Proof.
  intros params Hwf HA. pose proof (collect_params_plates veq params [] [] false) as P.
  destruct (collect_params_parents veq recip params [] [] false (NoDup_nil nat)) as [PD PX].
  destruct (collect_params veq params [] [] false) as [[parents plates] rg]. simpl in P, PD, PX.
  destruct (folded_spec veq (fun _ a => Ok a) (param_tensors params) [] (flat_map splates (param_tensors params))) as [E [I [D X]]]; auto.
  { intros x []. } { constructor. } { intros t Ht x Hx. apply in_flat_map. eauto. }
  exists parents, rg. rewrite P, E. split; [reflexivity|]. split; [exact PD|]. split; [intros i; rewrite PX; simpl; intuition|]. split; [exact D|]. split; [exact I|]. split.
  - intros x. change (all_plates (param_tensors params)) with (folded (param_tensors params) []). rewrite X. simpl. intuition.
  - intros p Hp. apply I in Hp. apply in_flat_map in Hp as [u [Hu Hp]]. rewrite Forall_forall in Hwf. now apply (wf_pos u (Hwf u Hu)).
Qed.

Lemma index_none : forall name (l : list plate), ~ In name (N l) -> name_index name l = None /\ remove_named name l = l.
Proof.
  induction l as [|p l IH]; intros H; simpl; auto. destruct (String.eqb_spec (pname p) name) as [E|E]; [exfalso; apply H; simpl; auto|].
  destruct IH as [A B]; [intros C; apply H; simpl; auto|]. rewrite A, B. auto.
Qed.
Lemma present_none : forall d k vi name (l : list plate), ~ In name (N l) -> check_present d k vi name l = Ok tt.
Proof.
  induction l as [|p l IH]; intros H; simpl; auto. destruct (String.eqb_spec (pname p) name) as [E|E]; [exfalso; apply H; simpl; auto|]. simpl. apply IH. intros C. apply H. simpl. auto.
Qed.
Lemma present_ancestral : forall k vi name (l : list plate), In name (N l) -> check_present DAncestral k vi name l = Err ValueError.
Proof.
  induction l as [|p l IH]; intros H; simpl in *; [destruct H|]. destruct (String.eqb_spec (pname p) name) as [E|E]; simpl; auto. apply IH. destruct H; [contradiction|assumption].
Qed.
Lemma present_ok : forall k vi name (l : list plate),
  (forall p, In p l -> pname p = name -> pn p <= k /\ exists v o, pcls p = Ancestral v o /\ v <= vi) -> check_present DWithoutReplacement k vi name l = Ok tt.
Proof.
  induction l as [|p l IH]; intros H; simpl in *; auto. destruct (String.eqb_spec (pname p) name) as [E|E]; simpl.
  - destruct (H p) as [H1 [v [o [H2 H3]]]]; auto. rewrite H2. destruct (Nat.ltb_spec vi v); [lia|]. destruct (Nat.ltb_spec k (pn p)); [lia|]. simpl. apply IH; auto.
  - apply IH; auto.
Qed.

Lemma new_ok : forall name n parents vi prev, follows vi n prev ->
  new_ancestral recip name n parents vi prev = Ok (mkPlate (Ancestral vi false) name n (WTorch (tscalar (recip n))) parents).
Proof.
  intros name n parents vi [q|] H; unfold new_ancestral; simpl in H.
  - destruct H as [H1 [v [o [H2 H3]]]]. rewrite H2. destruct (Nat.leb_spec (pn q) n); [|lia]. destruct (Nat.ltb_spec v vi); [reflexivity|lia].
  - subst. reflexivity.
Qed.
Lemma wide_cons : forall (p : plate) l, 1 < pn p -> wide (p :: l) = p :: wide l.
Proof. intros p l H. unfold wide. simpl. destruct (Nat.ltb_spec 1 (pn p)); [reflexivity|lia]. Qed.
Lemma wide_app : forall (l m : list plate), wide (l ++ m) = wide l ++ wide m.
Proof. intros. unfold wide. apply filter_app. Qed.

(** Independent samples. *)
Theorem independent_spec : forall name k vi prev mc params id t ev,
  Forall wf (param_tensors params) -> agree veq (flat_map splates (param_tensors params)) ->
  (forall u, In u (param_tensors params) -> ~ In name (N (splates u))) ->
  1 < k -> follows vi k prev -> mc k = Ok t -> shape t = k :: map pn (wide (all_plates (param_tensors params))) ++ ev ->
  exists x p, seq_sample veq recip DAncestral name k vi prev (mc_decode name k mc) params [] [] id = Ok (x, p) /\
    pname p = name /\ pn p = k /\ pcls p = Ancestral vi false /\ pparents p = all_plates (param_tensors params) /\
    wf x /\ splates x = p :: all_plates (param_tensors params) /\ s_event_shape x = ev /\ s_stochastic x = true /\
    NoDup (sparents x) /\ (forall i, In i (sparents x) <-> In i (map sid (param_tensors params))) /\
    forall s e, den x s e = el t (s name :: map (fun q => s (pname q)) (wide (all_plates (param_tensors params))) ++ e).
Proof.
  intros name k vi prev mc params id t ev Hwf HA Hf Hk Hprev Hmc Hs. destruct (collected params Hwf HA) as [parents [rg [E [P1 [P2 [D [I [X Pos]]]]]]]].
  set (ps := all_plates (param_tensors params)) in *.
  assert (Hno : ~ In name (N ps)) by (intros C; apply X in C as [u [Hu C]]; now apply (Hf u)).
  unfold seq_sample. rewrite E. rewrite present_none by auto. cbn [bind]. unfold mc_decode. rewrite (not_named name ps) by auto. rewrite Hmc. cbn [bind].
  destruct (index_none name ps Hno) as [E1 E2]. unfold place. rewrite E1, Hs. cbn [nth_error]. rewrite E2, new_ok by auto. cbn [bind].
  set (p := mkPlate (Ancestral vi false) name k (WTorch (tscalar (recip k))) ps).
  change (insert_at 0 p ps) with (p :: ps).
  destruct (mk_tensor_good id t parents (p :: ps) true ev) as [x [M [A1 [A2 [A3 [A4 [A5 [A6 A7]]]]]]]].
  { simpl. constructor; auto. } { intros q [<-|Hq]; [simpl; lia|auto]. } { rewrite wide_cons by (simpl; lia). simpl. exact Hs. }
  rewrite M. cbn [bind]. exists x, p. split; [reflexivity|]. repeat (split; [solve [auto]|]). split; [now rewrite A4|]. split; [now rewrite A4|].
  intros s e. unfold den. rewrite A2, A3, wide_cons by (simpl; lia). reflexivity.
Qed.

(** A distribution that depends on an earlier variable of the sequence. *)
Theorem dependent_raises : forall name k vi prev decode params parents0 plates0 id,
  (exists u, In u (param_tensors params) /\ In name (N (splates u))) ->
  seq_sample veq recip DAncestral name k vi prev decode params parents0 plates0 id = Err ValueError.
Proof.
  intros name k vi prev decode params parents0 plates0 id H. unfold seq_sample. pose proof (collect_params_plates veq params parents0 plates0 false) as P.
  destruct (collect_params veq params parents0 plates0 false) as [[parents plates] rg]. simpl in P. rewrite present_ancestral; [reflexivity|]. rewrite P. apply fold_plates_names. now right.
Qed.

(** Plates with the name of the sequence that are not those of earlier variables with at most k samples. *)
Lemma present_bad : forall k vi name (l : list plate), In name (N l) ->
  (forall p, In p l -> pname p = name -> pcls p = PlainPlate \/ k < pn p \/ exists v o, pcls p = Ancestral v o /\ vi < v) ->
  check_present DWithoutReplacement k vi name l = Err ValueError.
Proof.
  induction l as [|p l IH]; intros H B; simpl in *; [destruct H|]. destruct (String.eqb_spec (pname p) name) as [E|E]; simpl.
  - destruct (B p) as [C|[C|[v [o [C1 C2]]]]]; auto.
    + now rewrite C.
    + destruct (pcls p) as [|v o]; [reflexivity|]. apply Nat.ltb_lt in C. rewrite C, orb_true_r. reflexivity.
    + rewrite C1. apply Nat.ltb_lt in C2. now rewrite C2.
  - apply IH; [destruct H; [contradiction|assumption]|auto].
Qed.
Theorem foreign_raises : forall name k vi prev decode params id,
  Forall wf (param_tensors params) -> agree veq (flat_map splates (param_tensors params)) ->
  (exists u, In u (param_tensors params) /\ In name (N (splates u))) ->
  (forall u p, In u (param_tensors params) -> In p (splates u) -> pname p = name -> pcls p = PlainPlate \/ k < pn p \/ exists v o, pcls p = Ancestral v o /\ vi < v) ->
  seq_sample veq recip DWithoutReplacement name k vi prev decode params [] [] id = Err ValueError.
Proof.
  intros name k vi prev decode params id Hwf HA H B. unfold seq_sample.
  destruct (collected params Hwf HA) as [parents [rg [E [P1 [P2 [D [I [X Pos]]]]]]]]. rewrite E.
  rewrite present_bad; [reflexivity|now apply X|]. intros p Hp En. apply I in Hp. apply in_flat_map in Hp as [u [Hu Hp]]. eauto.
Qed.

(** The plates of the samples of IterDecoding. *)
Lemma iter_spec : forall name plates prev, agree veq (plates ++ prev) -> NoDup (N plates) -> NoDup (N prev) ->
  iter_plates veq name plates prev = union (wide (other_plates name plates)) (wide prev).
Proof.
  intros name plates prev HA N1 N2. unfold iter_plates, union, wide, mdp, other_plates.
  assert (E : filter (fun p : plate => (1 <? pn p) && negb (pname p =? name)%string) plates = filter (fun p => 1 <? pn p) (filter (fun p => negb (pname p =? name)%string) plates)).
  { clear. induction plates as [|p l IH]; simpl; auto. destruct (1 <? pn p) eqn:A, (pname p =? name)%string eqn:B; simpl; rewrite ?A, ?IH; reflexivity. }
  rewrite E. f_equal. apply filter_ext_in. intros p Hp. f_equal. apply filter_In in Hp. destruct Hp as [Hp Hw].
  set (l := filter (fun p0 : plate => 1 <? pn p0) (filter (fun p0 : plate => negb (pname p0 =? name)%string) plates)).
  assert (Il : forall q, In q l -> In q plates) by (intros q Hq; unfold l in Hq; apply filter_In in Hq; destruct Hq as [Hq _]; apply filter_In in Hq; tauto).
  destruct (has l (pname p)) eqn:H.
  - apply has_In in H. apply in_map_iff in H as [q [Q1 Q2]]. unfold pin, inb. apply existsb_exists. exists q. split; [exact Q2|].
    apply (HA q p); [apply in_or_app; left; now apply Il|apply in_or_app; now right|exact Q1].
  - destruct (pin veq p l) eqn:C; auto. unfold pin, inb in C. apply existsb_exists in C as [q [Q1 Q2]]. apply peq_name in Q2.
    assert (has l (pname p) = true); [|congruence]. apply has_In. rewrite Q2 || rewrite <- Q2. now apply in_map.
Qed.
Theorem iter_sample_gen : forall name k vi prev prev_plates params id base t amt ev,
  Forall wf (param_tensors params) -> agree veq (flat_map splates (param_tensors params) ++ prev_plates) ->
  (forall u p, In u (param_tensors params) -> In p (splates u) -> pname p = name -> pn p <= k /\ exists v o, pcls p = Ancestral v o /\ v <= vi) ->
  NoDup (N prev_plates) -> ~ In name (N prev_plates) -> 1 <= amt -> follows vi amt prev ->
  let ps := union (wide (other_plates name (all_plates (param_tensors params)))) (wide prev_plates) in
  shape t = map pn ps ++ amt :: ev ->
  exists x p, seq_sample veq recip DWithoutReplacement name k vi prev (fun plates => iter_decode veq name t prev_plates plates base) params [] [] id = Ok (x, p) /\
    pname p = name /\ pn p = amt /\ pcls p = Ancestral vi false /\ pparents p = ps /\
    wf x /\ splates x = ps ++ [p] /\ st x = t /\ wide ps = ps /\ s_event_shape x = (if 1 <? amt then ev else 1 :: ev) /\ s_stochastic x = true /\
    NoDup (sparents x) /\ (forall i, In i (sparents x) <-> In i (map sid (param_tensors params))).
Proof.
  intros name k vi prev pp params id base t amt ev Hwf HA Hpl N2 Hn Hamt Hprev ps Hs.
  assert (HA1 : agree veq (flat_map splates (param_tensors params))) by (intros p q Hp Hq; apply HA; apply in_or_app; now left).
  destruct (collected params Hwf HA1) as [parents [rg [E [P1 [P2 [D [I [X Pos]]]]]]]].
  set (pl := all_plates (param_tensors params)) in *.
  unfold seq_sample. rewrite E. rewrite present_ok.
  2: { intros p Hp Hname. apply I in Hp. apply in_flat_map in Hp as [u [Hu Hp]]. exact (Hpl u p Hu Hp Hname). }
  cbn [bind]. unfold iter_decode. rewrite iter_spec; auto.
  2: { intros p q Hp Hq. apply HA; [apply in_app_or in Hp|apply in_app_or in Hq]; apply in_or_app; [destruct Hp; auto|destruct Hq; auto]. }
  fold ps.
  assert (Np : NoDup (N ps)).
  { unfold ps. apply union_NoDup.
    - unfold wide, other_plates. clear - D. induction pl as [|p l IH]; simpl; [constructor|]. simpl in D. inversion D as [|? ? D1 D2]; subst.
      assert (B : ~ In (pname p) (N (filter (fun p0 : plate => 1 <? pn p0) (filter (fun p0 : plate => negb (pname p0 =? name)%string) l)))).
      { intros C. apply in_map_iff in C as [q [Q1 Q2]]. apply filter_In in Q2 as [Q2 _]. apply filter_In in Q2 as [Q2 _]. apply D1. rewrite <- Q1. now apply in_map. }
      destruct (negb (pname p =? name)%string); simpl; auto. destruct (1 <? pn p); simpl; auto. constructor; auto.
    - unfold wide. clear - N2. induction pp as [|p l IH]; simpl; [constructor|]. simpl in N2. inversion N2 as [|? ? D1 D2]; subst. destruct (1 <? pn p); simpl; auto. constructor; auto.
      intros C. apply in_map_iff in C as [q [Q1 Q2]]. apply filter_In in Q2 as [Q2 _]. apply D1. rewrite <- Q1. now apply in_map. }
  assert (Wp : forall p, In p ps -> 1 < pn p /\ pname p <> name).
  { intros p Hp. unfold ps, union in Hp. apply in_app_or in Hp. destruct Hp as [Hp|Hp].
    - unfold wide, other_plates in Hp. apply filter_In in Hp as [Hp W]. apply filter_In in Hp as [Hp W2]. apply Nat.ltb_lt in W. split; [exact W|]. intros C. rewrite C, String.eqb_refl in W2. discriminate.
    - apply filter_In in Hp as [Hp _]. unfold wide in Hp. apply filter_In in Hp as [Hp W]. apply Nat.ltb_lt in W. split; [exact W|]. intros C. apply Hn. rewrite <- C. now apply in_map. }
  assert (Ww : wide ps = ps) by (clear - Wp; unfold wide; induction ps as [|p l IH]; simpl; auto; destruct (Nat.ltb_spec 1 (pn p)) as [L|L]; [f_equal; apply IH; intros; apply Wp; now right|destruct (Wp p (or_introl eq_refl)); lia]).
  destruct (mk_tensor_good base t [] ps false (amt :: ev)) as [a [M [A1 [A2 [A3 [A4 [A5 [A6 A7]]]]]]]]; auto.
  { intros p Hp. destruct (Wp p Hp). lia. } { rewrite Ww. exact Hs. }
  rewrite M. cbn [bind]. unfold place. rewrite A2, A3, (wf_dims a A7), A3, Ww. rewrite Hs, nth_error_app2 by (rewrite map_length; lia). rewrite map_length, Nat.sub_diag. cbn [nth_error].
  assert (Hno : ~ In name (N ps)) by (intros C; apply in_map_iff in C as [q [Q1 Q2]]; now destruct (Wp q Q2)).
  destruct (index_none name ps Hno) as [_ E2]. rewrite E2, new_ok by auto. cbn [bind].
  set (p := mkPlate (Ancestral vi false) name amt (WTorch (tscalar (recip amt))) ps).
  replace (insert_at (length ps) p ps) with (ps ++ [p]) by (unfold insert_at; now rewrite firstn_all, skipn_all).
  assert (W2 : map pn (wide (ps ++ [p])) ++ (if 1 <? amt then ev else 1 :: ev) = map pn ps ++ amt :: ev).
  { rewrite wide_app, Ww, map_app, <- app_assoc. f_equal. unfold wide. cbn [filter pn p]. destruct (Nat.ltb_spec 1 amt); [reflexivity|]. simpl. f_equal. lia. }
  destruct (mk_tensor_good id t parents (ps ++ [p]) true (if 1 <? amt then ev else 1 :: ev)) as [x [M2 [B1 [B2 [B3 [B4 [B5 [B6 B7]]]]]]]].
  { rewrite map_app. apply NoDup_app_intro; auto; [repeat constructor; intros []|]. intros y Hy [<-|[]]. contradiction. }
  { intros q Hq. apply in_app_or in Hq. destruct Hq as [Hq|[<-|[]]]; [destruct (Wp q Hq)|simpl]; lia. } { rewrite W2. exact Hs. }
  rewrite M2. cbn [bind]. exists x, p. split; [reflexivity|]. repeat (split; [solve [auto]|]). split; now rewrite B4.
Qed.
Theorem iter_sample_spec : forall name k vi prev prev_plates params id base t amt ev,
  Forall wf (param_tensors params) -> agree veq (flat_map splates (param_tensors params) ++ prev_plates) ->
  (forall u p, In u (param_tensors params) -> In p (splates u) -> pname p = name -> pn p <= k /\ exists v o, pcls p = Ancestral v o /\ v <= vi) ->
  NoDup (N prev_plates) -> ~ In name (N prev_plates) -> 1 < amt -> follows vi amt prev ->
  let ps := union (wide (other_plates name (all_plates (param_tensors params)))) (wide prev_plates) in
  shape t = map pn ps ++ amt :: ev ->
  exists x p, seq_sample veq recip DWithoutReplacement name k vi prev (fun plates => iter_decode veq name t prev_plates plates base) params [] [] id = Ok (x, p) /\
    pname p = name /\ pn p = amt /\ pcls p = Ancestral vi false /\ pparents p = ps /\
    wf x /\ splates x = ps ++ [p] /\ s_event_shape x = ev /\ s_stochastic x = true /\
    NoDup (sparents x) /\ (forall i, In i (sparents x) <-> In i (map sid (param_tensors params))) /\
    forall s e, den x s e = el t (map (fun q => s (pname q)) ps ++ s name :: e).
Proof.
  intros name k vi prev pp params id base t amt ev H1 H2 H3 H4 H5 H6 H7 ps Hs.
  destruct (iter_sample_gen name k vi prev pp params id base t amt ev H1 H2 H3 H4 H5 ltac:(lia) H7 Hs) as [x [p [E [P1 [P2 [P3 [P4 [Hw [Hp [Ht [Hps [Hev [Hst [Q1 Q2]]]]]]]]]]]]]].
  fold ps in E, P4, Hp, Hps. exists x, p. split; [exact E|]. repeat (split; [assumption|]). split; [rewrite Hev; destruct (Nat.ltb_spec 1 amt); [reflexivity|lia]|]. repeat (split; [assumption|]).
  intros s e. unfold den. rewrite Ht, Hp, wide_app, Hps, wide_cons by lia. rewrite map_app, <- app_assoc. cbn [map app]. now rewrite P1.
Qed.
(** With one sample the sample has an event dimension too many. *)
Theorem iter_single_spec : forall name k vi prev prev_plates params id base t ev,
  Forall wf (param_tensors params) -> agree veq (flat_map splates (param_tensors params) ++ prev_plates) ->
  (forall u p, In u (param_tensors params) -> In p (splates u) -> pname p = name -> pn p <= k /\ exists v o, pcls p = Ancestral v o /\ v <= vi) ->
  NoDup (N prev_plates) -> ~ In name (N prev_plates) -> follows vi 1 prev ->
  shape t = map pn (union (wide (other_plates name (all_plates (param_tensors params)))) (wide prev_plates)) ++ 1 :: ev ->
  exists x p, seq_sample veq recip DWithoutReplacement name k vi prev (fun plates => iter_decode veq name t prev_plates plates base) params [] [] id = Ok (x, p) /\
    s_event_shape x = 1 :: ev.
Proof.
  intros name k vi prev pp params id base t ev H1 H2 H3 H4 H5 H7 Hs.
  destruct (iter_sample_gen name k vi prev pp params id base t 1 ev H1 H2 H3 H4 H5 ltac:(lia) H7 Hs) as [x [p [E [_ [_ [_ [_ [_ [_ [_ [_ [Hev _]]]]]]]]]]]]. exists x, p. auto.
Qed.

(** Plates with one sample are lost. *)
Theorem narrow_lost : forall name k vi prev prev_plates params id base t x p,
  seq_sample veq recip DWithoutReplacement name k vi prev (fun plates => iter_decode veq name t prev_plates plates base) params [] [] id = Ok (x, p) ->
  forall q, In q (splates x) -> q = p \/ 1 < pn q.
Proof.
  intros name k vi prev pp params id base t x p H q Hq. unfold seq_sample in H. destruct (collect_params veq params [] [] false) as [[parents plates] rg].
  destruct (check_present DWithoutReplacement k vi name plates); [|discriminate]. cbn [bind] in H. unfold iter_decode in H.
  unfold mk_tensor at 1 in H. destruct (check_plates (shape t) (iter_plates veq name plates pp) [] 0) as [bd|]; [|discriminate]. cbn [bind] in H. unfold place in H. cbn [st s_plate_dims splates] in H.
  destruct (nth_error (shape t) bd) as [size|]; [|discriminate]. destruct (new_ancestral recip name size _ vi prev) as [p'|]; [|discriminate]. cbn [bind] in H.
  unfold mk_tensor in H. destruct (check_plates (shape t) (insert_at bd p' _) [] 0) as [bd'|]; [|discriminate]. cbn [bind] in H. injection H as <- <-. cbn [splates] in Hq.
  assert (R : forall l : list plate, incl (remove_named name l) l).
  { clear. induction l as [|r l IH]; simpl; [intros z Hz; exact Hz|]. destruct (pname r =? name)%string; intros z Hz; [now right|]. destruct Hz as [<-|Hz]; [now left|right; auto]. }
  unfold insert_at in Hq. apply in_app_or in Hq. cbn [In] in Hq.
  assert (C : q = p' \/ In q (remove_named name (iter_plates veq name plates pp))).
  { destruct Hq as [Hq|[Hq|Hq]]; [right|left; auto|right].
    - rewrite <- (firstn_skipn bd (remove_named name (iter_plates veq name plates pp))). apply in_or_app. now left.
    - rewrite <- (firstn_skipn bd (remove_named name (iter_plates veq name plates pp))). apply in_or_app. now right. }
  destruct C as [C|C]; [now left|right]. apply R in C. unfold iter_plates in C. apply in_app_or in C. destruct C as [C|C].
  - apply filter_In in C as [_ C]. apply andb_prop in C as [C _]. now apply Nat.ltb_lt.
  - apply filter_In in C as [C _]. unfold mdp in C. apply filter_In in C as [_ C]. now apply Nat.ltb_lt.
Qed.

(** One sample. *)
Lemma wide_narrow : forall (p : plate) l, pn p = 1 -> wide (p :: l) = wide l.
Proof. intros p l H. unfold wide. simpl. rewrite H. reflexivity. Qed.
Lemma check_narrow : forall shp (plates : list plate) names bd p l, wide plates = p :: l -> nth_error shp bd = Some 1 -> (forall q, In q plates -> 1 <= pn q) -> NoDup (N plates) -> (forall x, In x (N plates) -> ~ In x names) ->
  check_plates shp plates names bd = Err ValueError.
Proof.
  induction plates as [|q plates IH]; intros names bd p l HW Hsh Pos ND Hn; [discriminate|]. cbn [check_plates]. inversion ND as [|? ? N1 N2]; subst.
  assert (E : existsb (String.eqb (pname q)) names = false).
  { destruct (existsb (String.eqb (pname q)) names) eqn:E; auto. apply existsb_exists in E as [y [Y1 Y2]]. apply String.eqb_eq in Y2. subst y. exfalso. apply (Hn (pname q)); simpl; auto. }
  rewrite E. destruct (Nat.eqb_spec (pn q) 1) as [Q|Q].
  - rewrite wide_narrow in HW by exact Q. apply (IH _ _ p l); auto; [intros; apply Pos; now right|]. intros x Hx [<-|C]; [contradiction|]. apply (Hn x); simpl; auto.
  - rewrite Hsh. destruct (Nat.eqb_spec 1 (pn q)); [congruence|reflexivity].
Qed.
Theorem single_spec : forall name vi prev mc params id t ev,
  Forall wf (param_tensors params) -> agree veq (flat_map splates (param_tensors params)) ->
  (forall u, In u (param_tensors params) -> ~ In name (N (splates u))) ->
  follows vi 1 prev -> mc 1 = Ok t -> shape t = 1 :: map pn (wide (all_plates (param_tensors params))) ++ ev ->
  let r := seq_sample veq recip DAncestral name 1 vi prev (mc_decode name 1 mc) params [] [] id in
  (wide (all_plates (param_tensors params)) <> [] -> r = Err ValueError) /\
  (wide (all_plates (param_tensors params)) = [] -> exists x p, r = Ok (x, p) /\ s_event_shape x = 1 :: ev).
Proof.
  intros name vi prev mc params id t ev Hwf HA Hf Hprev Hmc Hs r. destruct (collected params Hwf HA) as [parents [rg [E [P1 [P2 [D [I [X Pos]]]]]]]].
  set (ps := all_plates (param_tensors params)) in *.
  assert (Hno : ~ In name (N ps)) by (intros C; apply X in C as [u [Hu C]]; now apply (Hf u)).
  unfold r, seq_sample. rewrite E. rewrite present_none by auto. cbn [bind]. unfold mc_decode. rewrite (not_named name ps) by auto. rewrite Hmc. cbn [bind].
  destruct (index_none name ps Hno) as [E1 E2]. unfold place. rewrite E1, Hs. cbn [nth_error]. rewrite E2, new_ok by auto. cbn [bind].
  set (p := mkPlate (Ancestral vi false) name 1 (WTorch (tscalar (recip 1))) ps).
  change (insert_at 0 p ps) with (p :: ps). split; intros W.
  - unfold mk_tensor. destruct (wide ps) as [|q l] eqn:EW; [congruence|]. rewrite (check_narrow (shape t) (p :: ps) [] 0 q l); auto.
    + now rewrite Hs. + intros z [<-|Hz]; [simpl; lia|auto]. + simpl. constructor; auto.
  - destruct (mk_tensor_good id t parents (p :: ps) true (1 :: ev)) as [x [M [A1 [A2 [A3 [A4 [A5 [A6 A7]]]]]]]].
    { simpl. constructor; auto. } { intros q [<-|Hq]; [simpl; lia|auto]. } { rewrite wide_narrow by reflexivity. rewrite W in *. exact Hs. }
    rewrite M. cbn [bind]. exists x, p. auto.
Qed.

(** The joint log-probability after some variables. *)
Lemma joint_last : forall (add : V -> V -> V) ss s0 j, fold_left (fun j s => joint_step j None add s) (ss ++ [s0]) j = Some s0.
Proof. intros. rewrite fold_left_app. reflexivity. Qed.
End SeqPlatesProofs.
