(** unique and undo_unique. *)
From Coq Require Import String List Arith Bool Lia.
From Verif Require Import Base Torch Plates ListLemmas IndexLemmas SpecTensor Unique SpecUnique WrapProofs.
Import ListNotations.
Open Scope nat_scope.

Section UQ.
Context {V : Type}.
Variable veq : V -> V -> bool.
Variable tu : option nat -> ten V -> res (ten V * ten nat).
Notation plate := (plate V).
Notation stensor := (stensor V).
Notation utensor := (@utensor V).
Notation uplate := (@uplate V).

Lemma plate_undo_plates : forall id p (a b : utensor), plate_undo veq id p a = Ok b ->
  exists s n sh inv ip, p = UUniq s n sh inv ip /\ u_plates b = sh ++ u_plates a /\ NoDup (map uname (sh ++ u_plates a)).
Proof.
  intros id p a b H. destruct p as [p|s n sh inv ip]; [discriminate|]. exists s, n, sh, inv, ip. split; [reflexivity|]. unfold plate_undo in H.
  destruct (get_plate_dim_index (us a) s); [|discriminate]. cbn [bind] in H.
  destruct (u_collect veq (u_plates a)); [|discriminate]. cbn [bind] in H.
  destruct (transpose _ _ _) as [sw|]; [|discriminate]. cbn [bind] in H.
  destruct (u_collect veq ip); [|discriminate]. cbn [bind] in H.
  destruct (index_select0 sw inv) as [fl|]; [|discriminate]. cbn [bind] in H.
  destruct (reshape _ fl) as [sel|]; [|discriminate]. cbn [bind] in H. unfold u_tensor in H.
  destruct (mk_tensor _ _ _ _ _) as [t|] eqn:E; [|discriminate]. cbn [bind] in H. injection H as <-. split; [reflexivity|].
  destruct (proj1 (mk_tensor_iff _ _ _ _ _) (ex_intro _ t E)) as [ND _]. rewrite map_map in ND.
  replace (map uname (sh ++ u_plates a)) with (map (fun x => pname (as_plate sel x)) (sh ++ u_plates a)); auto.
  apply map_ext. intros [q|s' n' sh' inv' ip']; reflexivity.
Qed.

Lemma round_plates : forall l (a b : utensor), foldM (fun b p => if is_uq p then plate_undo veq 0 p b else Ok b) l a = Ok b ->
  exists pre, u_plates b = pre ++ u_plates a.
Proof.
  induction l as [|p l IH]; intros a b H; simpl in H; [injection H as <-; now exists []|].
  destruct (is_uq p) eqn:Ep.
  - destruct (plate_undo veq 0 p a) as [c|] eqn:E; [|discriminate]. cbn [bind] in H. apply IH in H. destruct H as [pre H].
    apply plate_undo_plates in E. destruct E as [s [n [sh [inv [ip [_ [E _]]]]]]]. exists (pre ++ sh). now rewrite H, E, app_assoc.
  - cbn [bind] in H. now apply IH.
Qed.

Theorem undo_never : forall fuel (a : utensor) r, is_unique a = true -> undo_unique veq fuel a <> Some (Ok r).
Proof.
  induction fuel as [|fuel IH]; intros a r H; simpl; rewrite H; [discriminate|].
  destruct (undo_round veq a) as [b|] eqn:E; [|discriminate]. apply IH. unfold undo_round in E. apply round_plates in E. destruct E as [pre E].
  unfold is_unique in *. rewrite E, existsb_app, H. apply orb_true_r.
Qed.

(** A plate that shrank other plates cannot be undone twice. *)
Lemma second_round : forall l1 l2 s n x sh inv ip (a : utensor) pre, u_plates a = pre ++ x :: sh ++ [UUniq s n (x :: sh) inv ip] ->
  l2 = l1 ++ [UUniq s n (x :: sh) inv ip] -> exists e, foldM (fun b p => if is_uq p then plate_undo veq 0 p b else Ok b) l2 a = Err e.
Proof.
  induction l1 as [|p l1 IH]; intros l2 s n x sh inv ip a pre H ->; cbn [app foldM is_uq].
  - destruct (plate_undo veq 0 (UUniq s n (x :: sh) inv ip) a) as [b|e] eqn:E; [|now exists e]. exfalso. apply plate_undo_plates in E.
    destruct E as [s' [n' [sh' [inv' [ip' [E [_ ND]]]]]]]. injection E as <- <- <- <- <-. rewrite H in ND. simpl in ND. inversion ND as [|y m N1 N2]; subst.
    apply N1. rewrite !map_app. apply in_or_app. right. apply in_or_app. right. now left.
  - destruct (is_uq p).
    + destruct (plate_undo veq 0 p a) as [b|e] eqn:E; [|now exists e]. cbn [bind]. apply plate_undo_plates in E.
      destruct E as [s' [n' [sh' [inv' [ip' [_ [E _]]]]]]]. eapply (IH _ s n x sh inv ip b (sh' ++ pre)); [|reflexivity]. now rewrite E, H, <- app_assoc.
    + cbn [bind]. eapply (IH _ s n x sh inv ip a pre); auto.
Qed.

Lemma undo_ndim : forall id s n inv ip (a b : utensor), plate_undo veq id (UUniq s n [] inv ip) a = Ok b ->
  u_plates b = u_plates a /\ ndim (st (us a)) = 1 + ndim (st (us b)).
Proof.
  intros id s n inv ip a b H. destruct (plate_undo_plates _ _ _ _ H) as [s' [n' [sh' [inv' [ip' [E [E2 _]]]]]]]. injection E as <- <- <- <- <-.
  split; [exact E2|]. unfold plate_undo in H.
  destruct (get_plate_dim_index (us a) s); [|discriminate]. cbn [bind] in H.
  destruct (u_collect veq (u_plates a)); [|discriminate]. cbn [bind] in H.
  destruct (transpose _ _ _) as [sw|] eqn:ET; [|discriminate]. cbn [bind] in H.
  destruct (u_collect veq ip); [|discriminate]. cbn [bind] in H.
  destruct (index_select0 sw inv) as [fl|] eqn:EI; [|discriminate]. cbn [bind] in H.
  destruct (reshape _ fl) as [sel|] eqn:ER; [|discriminate]. cbn [bind] in H. unfold u_tensor in H.
  destruct (mk_tensor _ _ _ _ _) as [t|] eqn:E; [|discriminate]. cbn [bind] in H. injection H as <-. simpl us.
  destruct (mk_tensor_fields _ _ _ _ _ _ E) as [_ [-> _]].
  unfold reshape in ER. destruct (_ =? _) in ER; [|discriminate]. injection ER as <-. simpl.
  assert (L1 : length (shape fl) = length (shape sw) /\ shape fl <> []).
  { unfold index_select0 in EI. destruct (shape sw) as [|k r]; [discriminate|]. destruct (shape inv) as [|m [|m' ri]]; [| |discriminate].
    - destruct (el inv [] <? k); [|discriminate]. injection EI as <-. simpl. split; [lia|discriminate].
    - destruct (forallb _ _); [|discriminate]. injection EI as <-. simpl. split; [lia|discriminate]. }
  assert (L2 : length (shape sw) = ndim (st (us a))).
  { unfold transpose in ET. destruct (_ && _); [|discriminate]. injection ET as <-. simpl. apply swapl_length. }
  destruct L1 as [L1 L3]. unfold ndim at 2. cbn [shape]. destruct (shape fl) as [|k r]; [congruence|]. simpl in L1. unfold ndim in *. simpl. lia.
Qed.

Lemma single_raises : forall k (a : utensor) s n inv ip, u_plates a = [UUniq s n [] inv ip] -> ndim (st (us a)) <= k ->
  exists e, undo_unique veq (S k) a = Some (Err e).
Proof.
  induction k as [|k IH]; intros a s n inv ip H Hk; cbn [undo_unique]; unfold is_unique; rewrite H; cbn [existsb is_uq orb]; unfold undo_round; rewrite H; cbn [foldM is_uq];
    destruct (plate_undo veq 0 (UUniq s n [] inv ip) a) as [b|e] eqn:E; cbn [bind]; try (now exists e); apply undo_ndim in E; destruct E as [E1 E2].
  - lia.
  - apply (IH b s n inv ip); [now rewrite E1|lia].
Qed.

Theorem unique_undo_raises : forall id name d (a u : utensor), unique veq tu id name d a = Ok u -> exists fuel e, undo_unique veq fuel u = Some (Err e).
Proof.
  intros id name d a u H. unfold unique in H. remember ("uq_plate_" ++ name)%string as s eqn:Es. clear Es.
  destruct (u_collect veq (u_plates a)); [|discriminate]. cbn [bind] in H.
  destruct (flatten_from _ _) as [fl|]; [|discriminate]. cbn [bind] in H.
  destruct (tu d fl) as [[uq inv]|]; [|discriminate]. cbn [bind] in H.
  destruct (check_plates _ _ _ _); [|discriminate]. cbn [bind] in H. destruct (shape uq) as [|n r]; [discriminate|].
  unfold u_tensor in H. destruct (mk_tensor _ _ _ _ _) as [t|] eqn:E; [|discriminate]. cbn [bind] in H. injection H as <-.
  destruct (u_multi (u_plates a)) as [|x sh] eqn:Em.
  - destruct (single_raises (ndim (st t)) (mkU t [UUniq s n [] inv (u_plates a)]) s n inv (u_plates a) eq_refl (le_n _)) as [e He].
    exists (S (ndim (st t))), e. exact He.
  - exists 2. cbn [undo_unique]. unfold is_unique, undo_round. cbn [u_plates existsb is_uq orb foldM].
    match goal with |- context [plate_undo veq 0 ?p ?a] => destruct (plate_undo veq 0 p a) as [b|e] eqn:E1 end; cbn [bind]; [|now exists e].
    apply plate_undo_plates in E1. destruct E1 as [s' [n' [sh' [inv' [ip' [E1 [E2 _]]]]]]]. injection E1 as <- <- <- <- <-. cbn [u_plates] in E2.
    rewrite E2, existsb_app. cbn [existsb is_uq orb]. rewrite orb_true_r.
    destruct (second_round (x :: sh) ((x :: sh) ++ [UUniq s n (x :: sh) inv (u_plates a)]) s n x sh inv (u_plates a) b []) as [e He]; auto.
    rewrite He. now exists e.
Qed.

(** What unique does achieve. *)
Hypothesis Htu : finds_unique tu.

Lemma plain_collect : forall l : list plate, u_collect veq (map UPlain l) = Ok tt.
Proof.
  intros l. unfold u_collect. replace (existsb _ (map UPlain l)) with false; auto. symmetry. generalize (map (@UPlain V) l) at 1. intros m.
  induction l as [|p l IH]; simpl; auto.
Qed.
Lemma multi_plain : forall l : list plate, u_multi (map UPlain l) = map UPlain (wide l).
Proof. induction l as [|p l IH]; simpl; auto. destruct (1 <? pn p); simpl; congruence. Qed.
Lemma as_plain : forall t (l : list plate), map (as_plate t) (map UPlain l) = l.
Proof. intros t l. rewrite map_map. apply map_id. Qed.
Lemma nonone_wide : forall l : list plate, (forall p, In p l -> 1 <= pn p) -> filter (fun p => negb (pn p =? 1)) l = wide l.
Proof.
  intros l H. unfold wide. apply filter_ext_in. intros p Hp. specialize (H p Hp). destruct (pn p =? 1) eqn:E, (1 <? pn p) eqn:F; auto;
    [apply Nat.eqb_eq in E; apply Nat.ltb_lt in F; lia|apply Nat.eqb_neq in E; apply Nat.ltb_ge in F; lia].
Qed.
Lemma lprod_pos : forall l, (forall d, In d l -> 0 < d) -> 0 < lprod l.
Proof. induction l as [|d l IH]; intros H; simpl; [lia|]. apply Nat.mul_pos_pos; [apply H; now left|apply IH; intros; apply H; now right]. Qed.

Lemma flat_of : forall (a : stensor), wf a -> s_event_shape a <> [] -> exists fl, flatten_from (s_plate_dims a) (st a) = Ok fl /\
  shape fl = map pn (wide (splates a)) ++ [lprod (s_event_shape a)] /\
  forall i e, length i = length (wide (splates a)) -> valid e (s_event_shape a) -> el fl (i ++ [ravel (s_event_shape a) e]) = el (st a) (i ++ e).
Proof.
  intros a Ha Hev. unfold flatten_from. rewrite (wf_dims a Ha), (wf_shape a Ha). set (ps := map pn (wide (splates a))). set (ev := s_event_shape a) in *.
  assert (Lp : length (wide (splates a)) = length ps) by (unfold ps; now rewrite map_length).
  destruct (ps ++ ev) as [|d r] eqn:E; [destruct ps; [now destruct ev|discriminate]|]. rewrite <- E. clear d r E.
  unfold ndim. rewrite (wf_shape a Ha). fold ps ev. rewrite Lp.
  replace (length ps <? length (ps ++ ev)) with true.
  2: { symmetry. apply Nat.ltb_lt. rewrite app_length. destruct ev; [congruence|simpl; lia]. }
  rewrite firstn_app, skipn_app, Nat.sub_diag, firstn_all, skipn_all. simpl. rewrite app_nil_r.
  eexists. split; [reflexivity|]. split; [reflexivity|]. intros i e Hi He. cbn [el].
  rewrite firstn_app, <- Hi, firstn_all, Nat.sub_diag. simpl. rewrite app_nil_r. rewrite app_nth2, Nat.sub_diag by lia. simpl. now rewrite unravel_ravel.
Qed.

Theorem unique_spec : forall id name (a : stensor) P, wf a -> wide (splates a) = [P] -> s_event_shape a <> [] ->
  (forall d, In d (s_event_shape a) -> 0 < d) ->
  exists u m inv, unique veq tu id name (Some 0) (ordinary a) = Ok u /\ shape (st (us u)) = [m; lprod (s_event_shape a)] /\
    u_plates u = [UUniq ("uq_plate_" ++ name) m [UPlain P] inv (map UPlain (splates a))] /\ shape inv = [pn P] /\
    (forall i e, i < pn P -> valid e (s_event_shape a) ->
       el inv [i] < m /\ el (st (us u)) [el inv [i]; ravel (s_event_shape a) e] = el (st a) (i :: e)) /\
    (forall p q, p < m -> q < m -> p <> q -> exists e, valid e (s_event_shape a) /\
       el (st (us u)) [p; ravel (s_event_shape a) e] <> el (st (us u)) [q; ravel (s_event_shape a) e]).
Proof.
  intros id name a P Ha HP Hev Hpos. unfold unique, ordinary. cbn [u_plates us]. rewrite plain_collect. cbn [bind].
  destruct (flat_of a Ha Hev) as [fl [F1 [F2 F3]]]. rewrite F1. cbn [bind]. rewrite HP in F2. simpl in F2.
  assert (HpP : 1 < pn P). { assert (In P (wide (splates a))) by (rewrite HP; now left). apply filter_In in H. destruct H as [_ H]. now apply Nat.ltb_lt. }
  destruct (Htu fl) as [uq [inv [T1 T2]]]; [rewrite F2; discriminate|rewrite F2; intros d [<-|[<-|[]]]; [lia|now apply lprod_pos]|].
  rewrite T1. cbn [bind]. destruct T2 as [[n [m [r [S1 [S2 S3]]]]] T3 T4 T5]. rewrite F2 in S1. injection S1 as <- <-.
  rewrite as_plain. assert (EC : check_plates (shape inv) (splates a) [] 0 = Ok (0 + length (filter (fun p => negb (pn p =? 1)) (splates a)))).
  { apply check_plates_ok. repeat split; [apply (wf_names a Ha)|intros ? ? []|]. exists []. unfold nonone. simpl. rewrite nonone_wide by apply (wf_pos a Ha). rewrite HP, S3. reflexivity. }
  rewrite EC. cbn [bind]. rewrite S2. unfold u_tensor. cbn [map as_plate].
  destruct (proj2 (mk_tensor_iff id uq [sid a] [mkPlate PlainPlate ("uq_plate_" ++ name) m (WTorch uq) []] false)) as [t Et].
  { split; [repeat constructor; intros []|]. simpl. rewrite S2. destruct (m =? 1); simpl; eauto. }
  rewrite Et. cbn [bind]. rewrite multi_plain, HP. cbn [map].
  destruct (mk_tensor_fields _ _ _ _ _ _ Et) as [_ [Es _]].
  eexists _, m, inv. split; [reflexivity|]. cbn [us u_plates]. rewrite Es. split; [exact S2|]. split; [reflexivity|]. split; [exact S3|]. split.
  - intros i e Hi He. rewrite F2 in T3. destruct (T3 i [ravel (s_event_shape a) e]) as [A1 A2].
    { constructor; [exact Hi|]. constructor; [now apply ravel_lt|constructor]. }
    rewrite S2 in A1. inversion A1; subst. split; [assumption|]. rewrite A2. apply (F3 [i] e); [now rewrite HP|exact He].
  - intros p q Hp Hq Hpq. rewrite S2 in T5. destruct (T5 p q Hp Hq Hpq) as [k [Hk Hne]]. simpl in Hk. inversion Hk as [|k0 d0 k1 d1 Hk0 Hk1]; subst. inversion Hk1; subst.
    exists (unravel (s_event_shape a) k0). split; [now apply unravel_valid|]. now rewrite ravel_unravel.
Qed.

Lemma unique_two : forall id name (a : stensor) P Q r, wf a -> wide (splates a) = P :: Q :: r -> s_event_shape a <> [] ->
  (forall d, In d (s_event_shape a) -> 0 < d) -> unique veq tu id name (Some 0) (ordinary a) = Err ValueError.
Proof.
  intros id name a P Q r Ha HP Hev Hpos. unfold unique, ordinary. cbn [u_plates us]. rewrite plain_collect. cbn [bind].
  destruct (flat_of a Ha Hev) as [fl [F1 [F2 F3]]]. rewrite F1. cbn [bind].
  destruct (Htu fl) as [uq [inv [T1 T2]]].
  - rewrite F2. destruct (map pn (wide (splates a))); discriminate.
  - rewrite F2. intros d Hd. apply in_app_or in Hd. destruct Hd as [Hd|[<-|[]]]; [|now apply lprod_pos]. apply in_map_iff in Hd. destruct Hd as [p [<- Hp]].
    apply filter_In in Hp. apply (wf_pos a Ha). tauto.
  - rewrite T1. cbn [bind]. rewrite as_plain. destruct T2 as [[n [m [q [S1 [S2 S3]]]]] _ _ _].
    destruct (check_plates (shape inv) (splates a) [] 0) as [k|e] eqn:EC; [|now rewrite (check_plates_err _ _ _ _ _ EC)]. exfalso.
    apply check_plates_ok in EC. destruct EC as [_ [_ [_ [ev EC]]]]. unfold nonone in EC. simpl in EC. rewrite nonone_wide, HP, S3 in EC by apply (wf_pos a Ha).
    simpl in EC. discriminate.
Qed.

Lemma unique_no_event : forall id name (a : stensor) P r d, wf a -> wide (splates a) = P :: r -> s_event_shape a = [] ->
  unique veq tu id name d (ordinary a) = Err IndexError.
Proof.
  intros id name a P r d Ha HP Hev. unfold unique, ordinary. cbn [u_plates us]. rewrite plain_collect. cbn [bind].
  unfold flatten_from, ndim. rewrite (wf_dims a Ha), (wf_shape a Ha), HP, Hev, app_nil_r. simpl. rewrite map_length, Nat.leb_refl || idtac.
  replace (S (length r) <? S (length (map pn r))) with false by (symmetry; apply Nat.ltb_ge; rewrite map_length; lia). reflexivity.
Qed.
End UQ.
