(** One selection applied to a tensor. *)
From Coq Require Import String List Arith Bool Lia Permutation.
From Verif Require Import Base Torch Plates Wrap Ancestral ListLemmas IndexLemmas SpecTensor SpecWrap SpecReduce SpecAncestral
  WrapProofs AlignProofs PlateEqProofs OpProofs AncestralProofs AncestralProofs2.
Import ListNotations.

#[local] Arguments skipn {A} !n !l : simpl nomatch.
#[local] Arguments firstn {A} !n !l : simpl nomatch.

Section Step.
Context {V : Type}.
Variable veq : V -> V -> bool.
Variable toi : V -> nat.
Notation plate := (plate V).
Notation stensor := (stensor V).
Notation N l := (map (@pname V) l).

Variable G : list plate.
Variable x : string.
Variables pp q : plate.
Variables vp vq : nat.
Hypothesis G_plain : plain G.
Hypothesis G_agree : agree veq G.
Hypothesis G_name : forall p, In p G -> pname p <> x.
Hypothesis pp_cls : pcls pp = Ancestral vp false.
Hypothesis q_cls : pcls q = Ancestral vq false.
Hypothesis pp_name : pname pp = x.
Hypothesis q_name : pname q = x.
Hypothesis v_lt : vq < vp.
Hypothesis x_name : x <> ""%string.
Variable rec : recs.
Hypothesis rec_q : in_recursion rec q = false.
Hypothesis pp_wide : 1 < pn pp.

Notation world := (world G pp q).
Notation isq := (isq x vq).
Notation ov := (ov rec).
Notation both := (both veq).
Definition notq (p : plate) : bool := negb (isq p).

Lemma dim_pos_mid : forall (l1 l2 : list plate) p i, pname p = x -> (forall r, In r l1 -> pname r <> x) ->
  dim_pos x (l1 ++ p :: l2) i = Some (i + length l1).
Proof.
  induction l1 as [|r l1 IH]; intros l2 p i Hp Hl; simpl.
  - rewrite Hp, String.eqb_refl. f_equal. lia.
  - destruct (String.eqb_spec x (pname r)) as [E|E].
    + exfalso. apply (Hl r); simpl; auto.
    + rewrite IH; auto; [f_equal; lia|]. intros; apply Hl; simpl; auto.
Qed.

Lemma sz_ov : forall (b : stensor) (p : plate), sz b (ov p) = sz b p.
Proof. intros. unfold sz. rewrite ov_name, ov_pn. reflexivity. Qed.

Lemma settled_override : forall p, world p -> set_override false (ov p) = p.
Proof.
  intros p H. unfold AncestralProofs2.ov. destruct (in_recursion rec p) eqn:E.
  - destruct H as [->|[->|H]].
    + destruct pp as [[|v o] y n w l]; simpl in *; [discriminate|]. now injection pp_cls as -> ->.
    + congruence.
    + rewrite (rec_G G G_plain rec) in E by auto. discriminate.
  - destruct H as [->|[->|H]].
    + destruct pp as [[|v o] y n w l]; simpl in *; [discriminate|]. now injection pp_cls as -> ->.
    + destruct q as [[|v o] y n w l]; simpl in *; [discriminate|]. now injection q_cls as -> ->.
    + pose proof (G_plain p H) as Hc. destruct p as [[|v o] y n w l]; simpl in *; [auto|discriminate].
Qed.

(** What unwrapping does to an argument: the plates that are not ancestral leave it alone. *)
Lemma hook_fold : forall hook ps b c,
  (forall p, In p ps -> p = ov pp \/ In p G) -> NoDup (N ps) -> In (ov pp) ps ->
  on_unwrap_tensor hook (ov pp) b = Ok c ->
  foldM (fun a p => on_unwrap_tensor hook p a) ps b = Ok c.
Proof.
  intros hook ps b c Hps ND Hin Hh.
  assert (Hid : forall l d, (forall p, In p l -> In p G) -> foldM (fun a p => on_unwrap_tensor hook p a) l d = Ok d).
  { induction l as [|p l IH]; simpl; intros d Hl; auto. unfold on_unwrap_tensor at 1. rewrite (G_plain p) by auto. simpl. auto. }
  revert b Hh. induction ps as [|p ps IH]; intros b Hh; [destruct Hin|].
  cbn [map] in ND. apply NoDup_cons_iff in ND. destruct ND as [Hni ND]. simpl.
  destruct (Hps p (or_introl eq_refl)) as [->|Hg].
  - rewrite Hh. simpl. apply Hid. intros r Hr. destruct (Hps r (or_intror Hr)) as [->|]; auto.
    exfalso. apply Hni. now apply in_map.
  - unfold on_unwrap_tensor at 1. rewrite (G_plain p Hg). simpl. apply IH; auto.
    + intros; apply Hps; simpl; auto.
    + destruct Hin as [->|]; auto. exfalso. apply (G_name (ov pp) Hg). now rewrite ov_name.
Qed.

(** The kept plates of a call. *)
Lemma kept_props : forall A B, (forall p, In p A -> world p) -> (forall p, In p B -> world p) ->
  NoDup (N A) -> NoDup (N B) -> (forall p, In p (A ++ B) -> 1 <= pn p) -> In pp (A ++ B) ->
  let K := filter notq (both A B) in
  collecting veq rec (both A B) = Ok (map ov K) /\
  NoDup (N K) /\ In pp K /\ (forall p, In p K -> p = pp \/ In p G) /\ (forall p, In p K -> 1 <= pn p) /\
  (forall p, In p K -> In p A \/ In p B) /\
  (forall p, In p A -> p <> q -> In p K) /\
  (forall p, In p B -> p <> q -> In (pname p) (N K)).
Proof.
  intros A B HA HB NA NB Hpos Hpp K.
  assert (HM : forall p, In p (both A B) -> world p) by (intros p Hp; apply both_in in Hp; destruct Hp; auto).
  assert (Hq : forall p, world p -> isq p = true -> p = q).
  { intros p [->|[->|Hg]] E; auto.
    - rewrite (isq_pp x pp vp vq pp_cls) in E by auto. discriminate.
    - rewrite (isq_G G x vq G_plain) in E by auto. discriminate. }
  assert (Hnq : forall p, world p -> p <> q -> isq p = false).
  { intros p Hw Hn. destruct (isq p) eqn:E; auto. exfalso. auto. }
  assert (Hppn : pp <> q).
  { intros E. pose proof (isq_pp x pp vp vq pp_cls v_lt) as X. rewrite E in X.
    rewrite (isq_q x q vq q_cls q_name) in X. discriminate. }
  assert (Hpp' : In pp (both A B)).
  { apply in_app_iff in Hpp. destruct Hpp as [H|H]; [unfold AncestralProofs2.both; apply in_or_app; auto|].
    destruct (both_has veq G x pp q vp vq G_plain G_agree G_name pp_cls q_cls pp_name q_name v_lt A B pp) as [p [Hp En]]; auto.
    apply filter_In in Hp. destruct Hp as [Hp Np]. destruct (HM p Hp) as [->|[->|Hg]]; auto.
    - rewrite (isq_q x q vq q_cls q_name) in Np. discriminate.
    - exfalso. apply (G_name p Hg). congruence. }
  split; [|split; [|split; [|split; [|split; [|split; [|split]]]]]].
  - apply (collecting_spec veq G x pp q vp vq); auto.
  - apply (both_names veq G x pp q vp vq); auto.
  - apply filter_In. split; auto. unfold notq. now rewrite Hnq by (auto; left; reflexivity).
  - intros p Hp. apply filter_In in Hp. destruct Hp as [Hp Np]. destruct (HM p Hp) as [->|[->|Hg]]; auto.
    unfold notq in Np. rewrite (isq_q x q vq q_cls q_name) in Np. discriminate.
  - intros p Hp. apply filter_In in Hp. destruct Hp as [Hp _]. apply both_in in Hp. apply Hpos. apply in_or_app. auto.
  - intros p Hp. apply filter_In in Hp. destruct Hp as [Hp _]. now apply both_in in Hp.
  - intros p Hp Hn. apply filter_In. split; [unfold AncestralProofs2.both; apply in_or_app; auto|]. unfold notq. now rewrite Hnq by auto.
  - intros p Hp Hn.
    destruct (both_has veq G x pp q vp vq G_plain G_agree G_name pp_cls q_cls pp_name q_name v_lt A B p) as [r [Hr En]]; auto.
    rewrite <- En. now apply in_map.
Qed.

Lemma mdp_ov : forall K : list plate, mdp (map ov K) = map ov (wide K).
Proof. intros. unfold mdp. rewrite filter_map_comm. unfold wide. f_equal. apply filter_ext. intros p. now rewrite ov_pn. Qed.

Lemma ov_G : forall p, In p G -> ov p = p.
Proof. intros p H. unfold AncestralProofs2.ov. now rewrite (rec_G G G_plain rec) by auto. Qed.

Lemma N_ov : forall l : list plate, N (map ov l) = N l.
Proof. intros. rewrite map_map. apply map_ext. intros. apply ov_name. Qed.

(** Splitting the kept wide plates at the plate [pp]. *)
Lemma split_pp : forall K, NoDup (N K) -> In pp K -> (forall p, In p K -> p = pp \/ In p G) ->
  exists l1 l2, wide K = l1 ++ pp :: l2 /\ (forall p, In p (l1 ++ l2) -> In p G).
Proof.
  intros K ND Hin HK. assert (Hw : In pp (wide K)) by (apply In_wide; auto).
  apply in_split in Hw. destruct Hw as [l1 [l2 E]]. exists l1, l2. split; auto.
  intros p Hp. assert (HpW : In p (wide K)) by (rewrite E; apply in_app_iff in Hp; apply in_or_app; simpl; tauto).
  apply In_wide in HpW. destruct (HK p) as [->|]; try tauto. exfalso.
  assert (NW : NoDup (N (wide K))) by now apply NoDup_map_filter.
  rewrite E in NW. rewrite map_app in NW. cbn [map] in NW. apply NoDup_remove_2 in NW. apply NW.
  rewrite <- map_app. now apply in_map.
Qed.

(** Sizes of a tensor over [y] and plates of [G] at the plates of [G]. *)
Lemma sz_G : forall b y p, NoDup (N (splates b)) -> (forall r, In r (splates b) -> r = y \/ In r G) -> pname y = x ->
  In p G -> sz b p = pn p.
Proof.
  intros b y p ND Hb Hy Hp. unfold sz. destruct (find _ (splates b)) as [r|] eqn:E; auto.
  apply find_some in E. destruct E as [Hr En]. apply String.eqb_eq in En. destruct (Hb r Hr) as [->|Hg].
  - exfalso. apply (G_name p Hp). congruence.
  - apply G_agree; auto.
Qed.

(** One argument of a call, unwrapped. *)
Lemma arg_spec : forall hook K l1 l2 med b c y name,
  NoDup (N K) -> In pp K -> (forall p, In p K -> p = pp \/ In p G) ->
  wide K = l1 ++ pp :: l2 -> (forall p, In p (l1 ++ l2) -> In p G) ->
  on_unwrap_tensor hook (ov pp) b = Ok c ->
  wf c -> In y (splates c) -> (forall r, In r (splates c) -> r = y \/ In r G) -> pname y = x -> 1 < pn y ->
  (forall p, In p (splates c) -> In (pname p) (N K)) ->
  peq veq (ov pp) y = true -> peq veq y (ov pp) = true -> pcls y <> PlainPlate ->
  s_event_dims c <= med ->
  exists u, unwrap_tensor veq hook (map ov (wide K)) (expand_opts name) med b = Ok u /\
    shape u = map pn l1 ++ pn y :: map pn l2 ++ pad med (s_event_shape c) /\
    forall (s : assignment) e, (forall p, In p (l1 ++ l2) -> s (pname p) < pn p) -> s x < pn y ->
      valid e (pad med (s_event_shape c)) ->
      el u (map (fun p => s (pname p)) (wide K) ++ e) = den c s (firstn (s_event_dims c) e).
Proof.
  intros hook K l1 l2 med b c y name ND Hpp HK EW HG Hh Hwf Hy Hc Ny Wy Hcov P1 P2 Cy Hed.
  assert (NDc := wf_names c Hwf).
  assert (NW : NoDup (N (map ov (wide K)))) by (rewrite N_ov; now apply NoDup_map_filter).
  assert (Hps : forall p, In p (map ov (wide K)) -> p = ov pp \/ In p G).
  { intros p Hp. apply in_map_iff in Hp. destruct Hp as [r [<- Hr]]. apply In_wide in Hr.
    destruct (HK r) as [->|Hg]; try tauto. right. now rewrite ov_G. }
  assert (Hov : In (ov pp) (map ov (wide K))) by (apply in_map; apply In_wide; auto).
  destruct (unwrap_gen veq hook (map ov (wide K)) (expand_opts name) med b c) as [u [Eu [Su Xu]]]; auto.
  - apply hook_fold; auto.
  - intros p Hp. apply in_map_iff in Hp. destruct Hp as [r [<- Hr]]. rewrite ov_pn. apply In_wide in Hr. tauto.
  - intros r Hr. rewrite N_ov. apply In_wide in Hr. destruct Hr as [Hr Wr]. specialize (Hcov r Hr).
    apply in_map_iff in Hcov. destruct Hcov as [p [En Hp]]. apply in_map_iff. exists p. split; auto. apply In_wide. split; auto.
    destruct (HK p Hp) as [->|Hg]; auto. destruct (Hc r Hr) as [->|Hg'].
    + exfalso. apply (G_name p Hg). congruence.
    + destruct (G_agree p r) as [_ ->]; auto.
  - intros p r Hp Hr. destruct (Hps p Hp) as [->|Hg]; destruct (Hc r Hr) as [->|Hg'].
    + rewrite P1, P2, ov_name. rewrite Ny, pp_name, String.eqb_refl. auto.
    + rewrite !ov_name. assert (E1 : pname r <> pname pp) by (rewrite pp_name; auto).
      split; [destruct (peq veq (ov pp) r) eqn:Q|destruct (peq veq r (ov pp)) eqn:Q]; try (apply peq_name in Q; rewrite ov_name in Q; congruence).
      * symmetry. apply String.eqb_neq. congruence.
      * symmetry. now apply String.eqb_neq.
    + assert (E1 : pname p <> pname y) by (rewrite Ny; auto).
      split; [destruct (peq veq p y) eqn:Q|destruct (peq veq y p) eqn:Q]; try (apply peq_name in Q; congruence).
      * symmetry. now apply String.eqb_neq.
      * symmetry. apply String.eqb_neq. congruence.
    + rewrite !(peq_GG veq G G_agree) by auto. auto.
  - intros p r Hp Hr En. destruct (Hc r Hr) as [->|Hg']; auto. destruct (Hps p Hp) as [->|Hg].
    + exfalso. apply (G_name r Hg'). rewrite ov_name in En. congruence.
    + apply in_map_iff in Hp. destruct Hp as [r0 [E0 Hr0]]. apply In_wide in Hr0. destruct Hr0 as [_ W0].
      destruct (G_agree p r) as [_ <-]; auto. rewrite <- E0, ov_pn. auto.
  - assert (Esz : map (sz c) (map ov (wide K)) = map pn l1 ++ pn y :: map pn l2).
    { rewrite map_map. rewrite (map_ext _ (sz c)) by (intros; apply sz_ov). rewrite EW, map_app. cbn [map]. f_equal; [|f_equal].
      - apply map_ext_in. intros p Hp. apply (sz_G c y); auto. apply HG, in_or_app; auto.
      - apply sz_has; auto. congruence.
      - apply map_ext_in. intros p Hp. apply (sz_G c y); auto. apply HG, in_or_app; auto. }
    exists u. split; [exact Eu|]. split.
    + rewrite Su, Esz. rewrite <- app_assoc. reflexivity.
    + intros s e H1 H2 He. rewrite <- Xu; auto.
      * f_equal. f_equal. rewrite map_map. apply map_ext. intros p. now rewrite ov_name.
      * intros p Hp. apply in_map_iff in Hp. destruct Hp as [r [<- Hr]]. rewrite ov_name, sz_ov.
        rewrite EW in Hr. apply in_app_iff in Hr. simpl in Hr. destruct Hr as [Hr|[<-|Hr]].
        -- rewrite (sz_G c y) by (auto; apply HG, in_or_app; auto). apply H1, in_or_app; auto.
        -- rewrite (sz_has c pp y) by (auto; congruence). rewrite pp_name. auto.
        -- rewrite (sz_G c y) by (auto; apply HG, in_or_app; auto). apply H1, in_or_app; auto.
Qed.


Lemma add_nil : forall l, (forall p, In p l -> world p) -> NoDup (N l) -> add_plates veq [] l = l.
Proof.
  intros l H ND. rewrite (add_plates_new veq G x pp q vp vq) by auto. simpl.
  rewrite (filter_ext_in _ (fun _ => true)); [|intros; reflexivity]. clear. induction l; simpl; auto. now rewrite IHl.
Qed.

Lemma collect_two : forall b c, (forall p, In p (splates b) -> world p) -> (forall p, In p (splates c) -> world p) ->
  NoDup (N (splates b)) -> NoDup (N (splates c)) ->
  collect veq (PList (map PT [b; c])) ([], [], 0) =
  ([b; c], both (splates b) (splates c), Nat.max (s_event_dims b) (s_event_dims c)).
Proof.
  intros b c Hb Hc Nb Nc. simpl. rewrite add_nil by auto. rewrite (add_plates_new veq G x pp q vp vq) by auto. reflexivity.
Qed.

Lemma map_settled : forall K, (forall p, In p K -> world p) -> map (set_override false) (map ov K) = K.
Proof.
  intros K H. rewrite map_map. rewrite (map_ext_in _ (fun p => p)); [apply map_id|]. intros p Hp. apply settled_override; auto.
Qed.

Lemma refresh_old : forall a, over G q a -> refresh rec a = a.
Proof.
  intros a Ha. unfold refresh. destruct a as [i t pl d ev par stc]. simpl. f_equal.
  rewrite (map_ext_in _ (fun p => p)); [apply map_id|]. intros p Hp. destruct (over_rest _ _ _ Ha p Hp) as [->|Hg].
  - now rewrite rec_q.
  - fold (ov p). now apply ov_G.
Qed.

Lemma ov_pp_ne : pcls (ov pp) <> PlainPlate.
Proof.
  unfold AncestralProofs2.ov. destruct (in_recursion rec pp); [rewrite (override_pp x pp vp pp_cls pp_name)|rewrite pp_cls]; discriminate.
Qed.

Lemma wide_ov : forall K : list plate, wide (map ov K) = map ov (wide K).
Proof. intros. rewrite wide_mdp. apply mdp_ov. Qed.

Lemma den_ov : forall i d ev par stc j d' ev' par' stc' (t : ten V) (K : list plate) s e,
  den (mkS i t (map ov K) d ev par stc) s e = den (mkS j t K d' ev' par' stc') s e.
Proof.
  intros. unfold den. simpl. rewrite wide_ov, map_map. f_equal. f_equal. apply map_ext. intros p. now rewrite ov_name.
Qed.

Lemma pad_length : forall m ev, length ev <= m -> length (pad m ev) = m.
Proof. intros. unfold pad. rewrite app_length, repeat_length. lia. Qed.

Lemma set_to_other : forall s n i y, y <> n -> set_to s n i y = s y.
Proof. intros. unfold set_to. destruct (String.eqb_spec y n); congruence. Qed.
Lemma set_to_same : forall s n i, set_to s n i n = i.
Proof. intros. unfold set_to. now rewrite String.eqb_refl. Qed.

Lemma select_step : forall hook base sel a T y,
  selects toi G q pp sel -> over G q a -> over G y T -> pname y = x -> 1 < pn y -> pcls y <> PlainPlate ->
  peq veq (ov pp) y = true -> peq veq y (ov pp) = true ->
  on_unwrap_tensor hook (ov pp) a = Ok T ->
  (forall b, In pp (splates b) -> (forall r, In r (splates b) -> r = pp \/ In r G) ->
     on_unwrap_tensor hook (ov pp) (refresh rec b) = Ok (refresh rec b)) ->
  (forall r, In r (splates T) -> r = y \/ In r (splates a) \/ In r (splates sel)) ->
  s_event_dims T <= Nat.max 1 (s_event_dims a) ->
  pad (Nat.max 1 (s_event_dims a)) (s_event_shape T) = pad 1 (s_event_shape a) ->
  (forall s, in_range s (wide (splates sel)) -> chosen toi sel s < pn y) ->
  exists b,
    (do e <- det_dim veq rec hook base x expand_ignore_fn [sel; a];
     det_dim veq rec hook base x (gather_fn toi) [a; e]) = Ok b /\
    over G pp b /\
    (forall p, In p (splates b) -> p = pp \/ In p (splates a) \/ In p (splates sel)) /\
    (forall p, In p (splates a) -> p <> q -> In p (splates b)) /\
    (forall p, In p (splates sel) -> In (pname p) (N (splates b))) /\
    s_event_shape b = pad 1 (s_event_shape a) /\
    forall s e, in_range s (splates b) -> valid e (s_event_shape b) ->
      den b s e = den T (set_to s x (chosen toi sel s)) (firstn (s_event_dims T) e).
Proof.
  intros hook base sel a T y Hsel Ha HT Ny Wy Cy P1 P2 Hha Hhp HTp HTe HTpad Hrange.
  set (med := Nat.max 1 (s_event_dims a)).
  set (EV := pad med (s_event_shape T)).
  assert (LEV : length EV = med) by (apply pad_length; exact HTe).
  assert (Hmed : 1 <= med) by (unfold med; lia).
  destruct Ha as [Wa Ina Ra]. destruct HT as [WT InT RT].
  assert (Wsel : forall p, In p (splates sel) -> world p).
  { intros p Hp. destruct (sel_plates _ _ _ _ _ Hsel p Hp) as [->|]; unfold AncestralProofs2.world; auto. }
  assert (Wwa : forall p, In p (splates a) -> world p).
  { intros p Hp. destruct (Ra p Hp) as [->|]; unfold AncestralProofs2.world; auto. }
  assert (Hra : refresh rec a = a) by (apply refresh_old; constructor; auto).
  assert (P3 : peq veq (ov pp) (ov pp) = true) by apply peq_refl.
  (* the first call *)
  destruct (kept_props (splates sel) (splates a)) as [C1 [NK [Kpp [KG [Kpos [Kfrom [Ksel Ka]]]]]]]; auto.
  { apply (sel_names _ _ _ _ _ Hsel). }
  { apply (wf_names a Wa). }
  { intros p Hp. apply in_app_iff in Hp. destruct Hp as [Hp|Hp]; [apply (sel_pos _ _ _ _ _ Hsel); auto|apply (wf_pos a Wa); auto]. }
  { apply in_or_app. left. apply (sel_has _ _ _ _ _ Hsel). }
  set (K := filter notq (both (splates sel) (splates a))) in *.
  assert (KW : forall p, In p K -> world p).
  { intros p Hp. destruct (KG p Hp) as [->|]; unfold AncestralProofs2.world; auto. }
  assert (Hxx : forall K0, In pp K0 -> In x (N K0)) by (intros K0 H0; rewrite <- pp_name; now apply in_map).
  assert (Hppq : pp <> q).
  { intros E. pose proof pp_cls as X. rewrite E, q_cls in X. injection X as X. lia. }
  destruct (split_pp K NK Kpp KG) as [l1 [l2 [EK HG]]].
  set (selw := mkS (sid sel) (st sel) (map ov (splates sel)) (length (wide (splates sel))) [] (sparents sel) (s_stochastic sel)).
  assert (Wselw : wf selw).
  { constructor; simpl.
    - rewrite N_ov. apply (sel_names _ _ _ _ _ Hsel).
    - intros p Hp. apply in_map_iff in Hp. destruct Hp as [r [<- Hr]]. rewrite ov_pn. apply (sel_pos _ _ _ _ _ Hsel); auto.
    - rewrite wide_ov, map_map, app_nil_r. rewrite (sel_shape _ _ _ _ _ Hsel). apply map_ext. intros p. now rewrite ov_pn.
    - rewrite wide_ov, map_length. reflexivity. }
  destruct (arg_spec (fun _ b => Ok b) K l1 l2 (med - 1) selw selw (ov pp) x) as [us [Eus [Sus Xus]]]; auto.
  { unfold on_unwrap_tensor. destruct (pcls (ov pp)); reflexivity. }
  { simpl. apply in_map. apply (sel_has _ _ _ _ _ Hsel). }
  { simpl. intros r Hr. apply in_map_iff in Hr. destruct Hr as [p [<- Hp]].
    destruct (sel_plates _ _ _ _ _ Hsel p Hp) as [->|Hg]; auto. right. now rewrite ov_G. }
  { now rewrite ov_name. }
  { now rewrite ov_pn. }
  { simpl. intros p Hp. apply in_map_iff in Hp. destruct Hp as [r [<- Hr]]. rewrite ov_name.
    destruct (sel_plates _ _ _ _ _ Hsel r Hr) as [->|Hg]; [now apply in_map|]. apply in_map. apply Ksel; auto.
    intros ->. apply (G_name q Hg); auto. }
  { apply ov_pp_ne. }
  { unfold s_event_dims. simpl. lia. }
  assert (Eus' : unwrap_tensor veq hook (map ov (wide K)) (expand_opts x) med (refresh rec sel) = Ok us).
  { rewrite <- Eus. unfold unwrap_tensor. cbn [o_align expand_opts negb o_lbroadcast o_expand o_flatten orb andb].
    assert (Hov : In (ov pp) (map ov (wide K))) by (apply in_map; apply In_wide; auto).
    assert (NW : NoDup (N (map ov (wide K)))) by (rewrite N_ov; now apply NoDup_map_filter).
    assert (Hps : forall p, In p (map ov (wide K)) -> p = ov pp \/ In p G).
    { intros p Hp. apply in_map_iff in Hp. destruct Hp as [r [<- Hr]]. apply In_wide in Hr.
      destruct (KG r) as [->|Hg]; try tauto. right. now rewrite ov_G. }
    rewrite (hook_fold hook _ (refresh rec sel) (refresh rec sel)); auto.
    2:{ apply Hhp; [apply (sel_has _ _ _ _ _ Hsel)|apply (sel_plates _ _ _ _ _ Hsel)]. }
    rewrite (hook_fold (fun _ b => Ok b) _ selw selw); auto.
    2:{ unfold on_unwrap_tensor. destruct (pcls (ov pp)); reflexivity. }
    cbn [bind].
    replace (s_event_dims (refresh rec sel)) with 1.
    2:{ unfold s_event_dims, refresh. simpl. now rewrite (sel_event _ _ _ _ _ Hsel). }
    change (s_event_dims selw) with 0. rewrite Nat.sub_0_r.
    replace (1 <? med) with (0 <? med - 1) by (destruct (Nat.ltb_spec 0 (med - 1)); destruct (Nat.ltb_spec 1 med); auto; lia).
    reflexivity. }
  destruct (arg_spec hook K l1 l2 med a T y x) as [ua [Eua [Sua Xua]]]; auto.
  { intros p Hp. destruct (HTp p Hp) as [->|[Hpa|Hps]].
    - rewrite Ny. auto.
    - destruct (Ra p Hpa) as [->|Hg]; [rewrite q_name; auto|]. apply Ka; auto. intros ->. apply (G_name q Hg); auto.
    - destruct (sel_plates _ _ _ _ _ Hsel p Hps) as [->|Hg]; [now apply in_map|]. apply in_map. apply Ksel; auto.
      intros ->. apply (G_name q Hg); auto. }
  destruct (expand_ignore_spec us ua (map pn l1) (map pn l2) (pn pp) (pn y) EV) as [r [Er [Sr Xr]]].
  { lia. }
  { rewrite Sus, ov_pn. unfold pad. simpl. rewrite LEV, Nat.sub_0_r. reflexivity. }
  { exact Sua. }
  assert (SK : map pn (wide K) = map pn l1 ++ pn pp :: map pn l2) by (rewrite EK, map_app; reflexivity).
  destruct (mk_tensor_good base r (map sid [sel; a]) K false EV) as [e [Ee [_ [Ste [Ple [_ [_ [Eve We]]]]]]]]; auto.
  { rewrite Sr, SK. now rewrite <- app_assoc. }
  assert (D1 : det_dim veq rec hook base x expand_ignore_fn [sel; a] = Ok e).
  { unfold det_dim. rewrite collect_two; auto.
    2:{ apply (sel_names _ _ _ _ _ Hsel). }
    2:{ apply (wf_names a Wa). }
    rewrite C1. cbn [bind]. destruct (String.eqb_spec x ""); [contradiction|].
    rewrite mdp_ov. rewrite EK at 1. rewrite map_app. cbn [map].
    rewrite dim_pos_mid.
    2:{ now rewrite ov_name. }
    2:{ intros p Hp. apply in_map_iff in Hp. destruct Hp as [p0 [<- Hp0]]. rewrite ov_name. apply G_name. apply HG, in_or_app; auto. }
    cbn [mapM].
    replace (Nat.max (s_event_dims sel) (s_event_dims a)) with med
      by (unfold med, s_event_dims; now rewrite (sel_event _ _ _ _ _ Hsel)).
    rewrite Eus', Hra, Eua. cbn [bind expand_ignore_fn]. rewrite Nat.add_0_l, map_length.
    replace (length l1) with (length (map (@pn V) l1)) by apply map_length. rewrite Er. cbn [bind].
    rewrite map_settled by auto. exact Ee. }
  rewrite D1. cbn [bind].
  assert (De : forall s j, in_range s (wide K) -> valid j EV -> den e s j = den sel s []).
  { intros s j Hs Hj. unfold den at 1. rewrite Ste, Ple. rewrite Xr; auto.
    - rewrite LEV. rewrite Xus.
      + simpl. unfold selw. destruct sel. apply den_ov.
      + intros p Hp. apply Hs. rewrite EK. apply in_app_iff in Hp. apply in_or_app. simpl. tauto.
      + rewrite ov_pn. rewrite <- pp_name. apply Hs. rewrite EK. apply in_or_app. simpl. auto.
      + unfold pad. simpl. rewrite Nat.sub_0_r. clear. induction (med - 1); simpl; constructor; auto.
    - rewrite <- SK. apply in_range_valid. exact Hs. }
  (* the second call *)
  assert (We2 : forall p, In p (splates e) -> world p) by (rewrite Ple; auto).
  destruct (kept_props (splates a) (splates e)) as [C2 [NK2 [Kpp2 [KG2 [Kpos2 [Kfrom2 [Ka2 Ke2]]]]]]]; auto.
  { apply (wf_names a Wa). }
  { apply (wf_names e We). }
  { intros p Hp. apply in_app_iff in Hp. destruct Hp as [Hp|Hp]; [apply (wf_pos a Wa); auto|apply (wf_pos e We); auto]. }
  { apply in_or_app. right. now rewrite Ple. }
  set (K2 := filter notq (both (splates a) (splates e))) in *.
  assert (KW2 : forall p, In p K2 -> world p).
  { intros p Hp. destruct (KG2 p Hp) as [->|]; unfold AncestralProofs2.world; auto. }
  assert (HKK2 : forall p, In p K -> In (pname p) (N K2)).
  { intros p Hp. apply Ke2; [now rewrite Ple|]. intros ->. destruct (KG q Hp) as [E|Hg]; [congruence|]. apply (G_name q Hg); auto. }
  destruct (split_pp K2 NK2 Kpp2 KG2) as [m1 [m2 [EK2 HG2]]].
  assert (SK2 : map pn (wide K2) = map pn m1 ++ pn pp :: map pn m2) by (rewrite EK2, map_app; reflexivity).
  destruct (arg_spec hook K2 m1 m2 med a T y x) as [ua2 [Eua2 [Sua2 Xua2]]]; auto.
  { intros p Hp. destruct (HTp p Hp) as [->|[Hpa|Hps]].
    - rewrite Ny. auto.
    - destruct (Ra p Hpa) as [->|Hg]; [rewrite q_name; auto|]. apply in_map. apply Ka2; auto. intros ->. apply (G_name q Hg); auto.
    - apply HKK2. destruct (sel_plates _ _ _ _ _ Hsel p Hps) as [->|Hg]; [auto|]. apply Ksel; auto.
      intros ->. apply (G_name q Hg); auto. }
  assert (Wre : wf (refresh rec e)).
  { constructor; unfold refresh; simpl.
    - change (map (fun p : plate => if in_recursion rec p then set_override true p else p) (splates e)) with (map ov (splates e)).
      rewrite N_ov. apply (wf_names e We).
    - intros p Hp. apply in_map_iff in Hp. destruct Hp as [r0 [<- Hr]]. change (1 <= pn (ov r0)). rewrite ov_pn. apply (wf_pos e We); auto.
    - change (map (fun p : plate => if in_recursion rec p then set_override true p else p) (splates e)) with (map ov (splates e)).
      rewrite wide_ov, map_map. rewrite (map_ext _ pn) by (intros; apply ov_pn). apply (wf_shape e We).
    - change (map (fun p : plate => if in_recursion rec p then set_override true p else p) (splates e)) with (map ov (splates e)).
      rewrite wide_ov, map_length. apply (wf_dims e We). }
  assert (Pre : splates (refresh rec e) = map ov K) by (unfold refresh; simpl; rewrite Ple; reflexivity).
  destruct (arg_spec hook K2 m1 m2 med (refresh rec e) (refresh rec e) (ov pp) x) as [ue [Eue [Sue Xue]]]; auto.
  { apply Hhp; rewrite Ple; auto. }
  { rewrite Pre. now apply in_map. }
  { rewrite Pre. intros r0 Hr. apply in_map_iff in Hr. destruct Hr as [p [<- Hp]].
    destruct (KG p Hp) as [->|Hg]; auto. right. now rewrite ov_G. }
  { now rewrite ov_name. }
  { now rewrite ov_pn. }
  { rewrite Pre. intros p Hp. apply in_map_iff in Hp. destruct Hp as [r0 [<- Hr]]. rewrite ov_name. auto. }
  { apply ov_pp_ne. }
  { unfold s_event_dims, refresh. simpl. rewrite Eve. lia. }
  assert (Eve2 : pad med (s_event_shape (refresh rec e)) = EV).
  { unfold refresh. simpl. rewrite Eve. rewrite <- LEV at 1. apply pad_self. }
  rewrite Eve2 in Sue, Xue. rewrite ov_pn in Sue, Xue.
  assert (Due : forall s j, in_range s (wide K2) -> valid j EV -> toi (el ue (map (fun p => s (pname p)) (wide K2) ++ j)) = chosen toi sel s).
  { intros s j Hs Hj. rewrite Xue; auto.
    - unfold chosen. f_equal. rewrite <- (De s (firstn (s_event_dims (refresh rec e)) j)).
      + unfold refresh. destruct e. apply den_ov.
      + intros p Hp. apply In_wide in Hp. destruct Hp as [Hp Wp]. specialize (HKK2 p Hp). apply in_map_iff in HKK2.
        destruct HKK2 as [p2 [En Hp2]].
        assert (Ep : pn p2 = pn p).
        { destruct (KG p Hp) as [->|Hg]; destruct (KG2 p2 Hp2) as [->|Hg2]; auto.
          - exfalso. apply (G_name p2 Hg2). congruence.
          - exfalso. apply (G_name p Hg). congruence.
          - apply G_agree; auto. }
        rewrite <- En, <- Ep. apply Hs. apply In_wide. split; auto. lia.
      + replace (s_event_dims (refresh rec e)) with (length j).
        * now rewrite firstn_all.
        * unfold s_event_dims, refresh. simpl. rewrite Eve. now apply valid_length.
    - intros p Hp. apply Hs. rewrite EK2. apply in_app_iff in Hp. apply in_or_app. simpl. tauto.
    - rewrite <- pp_name. apply Hs. rewrite EK2. apply in_or_app. simpl. auto. }
  assert (Hrng : forall s, in_range s (wide K2) -> chosen toi sel s < pn y).
  { intros s Hs. apply Hrange. intros p Hp. apply In_wide in Hp. destruct Hp as [Hp Wp].
    assert (HpK : In p K). { apply Ksel; auto. intros ->. destruct (sel_plates _ _ _ _ _ Hsel q Hp) as [E|Hg]; [congruence|]. apply (G_name q Hg); auto. }
    specialize (HKK2 p HpK). apply in_map_iff in HKK2. destruct HKK2 as [p2 [En Hp2]].
    assert (Ep : pn p2 = pn p).
    { destruct (KG p HpK) as [->|Hg]; destruct (KG2 p2 Hp2) as [->|Hg2]; auto.
      - exfalso. apply (G_name p2 Hg2). congruence.
      - exfalso. apply (G_name p Hg). congruence.
      - apply G_agree; auto. }
    rewrite <- En, <- Ep. apply Hs. apply In_wide. split; auto. lia. }
  destruct (gather_spec toi ua2 ue (map pn m1) (map pn m2) (pn pp) (pn y) EV) as [g [Eg [Sg Xg]]]; auto.
  { rewrite Sue. intros i Hi. change (map pn m1 ++ pn pp :: map pn m2 ++ EV) with (map pn m1 ++ (pn pp :: map pn m2) ++ EV) in Hi.
    rewrite app_assoc in Hi. rewrite <- SK2 in Hi. apply valid_app_inv in Hi. destruct Hi as [i1 [i2 [-> [H1 H2]]]].
    destruct (assign_for (wide K2) i1) as [s Es].
    - now apply NoDup_map_filter.
    - apply valid_length in H1. now rewrite map_length in H1.
    - assert (Hs : in_range s (wide K2)).
      { rewrite <- Es in H1. clear -H1. intros p Hp. induction (wide K2) as [|r l IH]; [destruct Hp|]. simpl in H1.
        inversion H1; subst. destruct Hp as [<-|Hp]; auto. }
      rewrite <- Es. rewrite Due by auto. apply Hrng; auto. }
  destruct (mk_tensor_good base g (map sid [a; e]) K2 false EV) as [b [Eb [_ [Stb [Plb [_ [_ [Evb Wb]]]]]]]]; auto.
  { rewrite Sg, Sue, SK2. now rewrite <- app_assoc. }
  exists b. split; [|split; [|split; [|split; [|split; [|split]]]]].
  - unfold det_dim. rewrite collect_two; auto.
    2:{ apply (wf_names a Wa). }
    2:{ apply (wf_names e We). }
    rewrite C2. cbn [bind]. destruct (String.eqb_spec x ""); [contradiction|].
    rewrite mdp_ov. rewrite EK2 at 1. rewrite map_app. cbn [map].
    rewrite dim_pos_mid.
    2:{ now rewrite ov_name. }
    2:{ intros p Hp. apply in_map_iff in Hp. destruct Hp as [p0 [<- Hp0]]. rewrite ov_name. apply G_name. apply HG2, in_or_app; auto. }
    cbn [mapM].
    replace (Nat.max (s_event_dims a) (s_event_dims e)) with med.
    2:{ unfold s_event_dims at 2. rewrite Eve, LEV. unfold med. lia. }
    rewrite Hra, Eua2, Eue. cbn [bind gather_fn]. rewrite Nat.add_0_l, map_length.
    replace (length m1) with (length (map (@pn V) m1)) by apply map_length. rewrite Eg. cbn [bind].
    rewrite map_settled by auto. exact Eb.
  - constructor; auto; rewrite Plb; auto.
  - rewrite Plb. intros p Hp. destruct (Kfrom2 p Hp) as [Hp'|Hp']; auto. rewrite Ple in Hp'.
    destruct (Kfrom p Hp'); auto.
  - rewrite Plb. auto.
  - rewrite Plb. intros p Hp. apply HKK2. apply Ksel; auto. intros ->.
    destruct (sel_plates _ _ _ _ _ Hsel q Hp) as [E|Hg]; [congruence|]. apply (G_name q Hg); auto.
  - rewrite Evb. exact HTpad.
  - rewrite Plb, Evb. intros s j Hs Hj. unfold den at 1. rewrite Stb, Plb.
    assert (Hs2 : in_range s (wide K2)) by (intros p Hp; apply In_wide in Hp; apply Hs; tauto).
    rewrite Xg. rewrite Due by auto. rewrite EK2, map_app. cbn [map]. rewrite <- app_assoc. cbn [app].
    rewrite set_at_app by now rewrite !map_length. cbn [tl].
    rewrite <- Xua2.
    + f_equal. rewrite EK2, map_app. cbn [map]. rewrite <- app_assoc. cbn [app]. rewrite pp_name, set_to_same. f_equal; [|f_equal; f_equal].
      * apply map_ext_in. intros p Hp. rewrite set_to_other; auto. apply G_name, HG2, in_or_app; auto.
      * apply map_ext_in. intros p Hp. rewrite set_to_other; auto. apply G_name, HG2, in_or_app; auto.
    + intros p Hp. rewrite set_to_other by (apply G_name, HG2; auto). apply Hs2. rewrite EK2.
      apply in_app_iff in Hp. apply in_or_app. simpl. tauto.
    + rewrite set_to_same. auto.
    + exact Hj.
Qed.

End Step.
