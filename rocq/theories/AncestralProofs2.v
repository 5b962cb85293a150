(** Collecting ancestral plates, and the tensor level of expand_with_ignore and gather. *)
From Coq Require Import String List Arith Bool Lia Permutation.
From Verif Require Import Base Torch Plates Wrap Ancestral ListLemmas IndexLemmas SpecTensor SpecWrap SpecReduce WrapProofs
  AlignProofs PlateEqProofs OpProofs AncestralProofs.
Import ListNotations.

#[local] Arguments skipn {A} !n !l : simpl nomatch.
#[local] Arguments firstn {A} !n !l : simpl nomatch.

Section Torch.
Context {V : Type}.

Lemma set_at_app : forall d v l m, length l = d -> set_at d v (l ++ m) = l ++ v :: tl m.
Proof.
  intros d v l m <-. unfold set_at. rewrite firstn_app_exact. f_equal. f_equal.
  destruct m as [|y m]; simpl.
  - rewrite app_nil_r. apply skipn_all2; lia.
  - replace (S (length l)) with (length (l ++ [y])) by (rewrite app_length; simpl; lia).
    change (l ++ y :: m) with (l ++ [y] ++ m). rewrite app_assoc. apply skipn_app_exact.
Qed.

Lemma nth_error_mid : forall {A} (l m : list A) x, nth_error (l ++ x :: m) (length l) = Some x.
Proof. intros. rewrite nth_error_app2 by lia. now rewrite Nat.sub_diag. Qed.

Lemma skipn_mid : forall {A} (l m : list A) x, skipn (S (length l)) (l ++ x :: m) = m.
Proof.
  intros. replace (S (length l)) with (length (l ++ [x])) by (rewrite app_length; simpl; lia).
  change (l ++ x :: m) with (l ++ [x] ++ m). rewrite app_assoc. apply skipn_app_exact.
Qed.

Lemma clip_ones : forall k j, length j = k -> zip_clip (repeat 1 k) j = repeat 0 k.
Proof. induction k; destruct j; simpl; intros H; try discriminate; auto. f_equal. apply IHk. lia. Qed.

Lemma ev_last : forall ev : list nat, 1 <= length ev -> repeat 1 (length ev - 1) ++ [1] = repeat 1 (length ev).
Proof.
  intros ev H. replace (length ev) with (length ev - 1 + 1) at 2 by lia. now rewrite repeat_app.
Qed.

Lemma repeat_ones_F2 : forall ev, Forall2 (fun x y => x = y \/ x = 1) (repeat 1 (length ev)) ev.
Proof. induction ev; simpl; constructor; auto. Qed.

Lemma F2_refl : forall l : list nat, Forall2 (fun x y => x = y \/ x = 1) l l.
Proof. induction l; constructor; auto. Qed.

Lemma expand_ignore_spec : forall (u like : ten V) l1 l2 n m ev, 1 <= length ev ->
  shape u = l1 ++ n :: l2 ++ repeat 1 (length ev - 1) -> shape like = l1 ++ m :: l2 ++ ev ->
  exists r, expand_with_ignore (length l1) u like = Ok r /\ shape r = l1 ++ n :: l2 ++ ev /\
    forall i j, valid i (l1 ++ n :: l2) -> valid j ev -> el r (i ++ j) = el u (i ++ repeat 0 (length ev - 1)).
Proof.
  intros u like l1 l2 n m ev Hev Hu Hl. unfold expand_with_ignore.
  assert (Hd : ndim like - ndim u = 1).
  { unfold ndim. rewrite Hu, Hl. rewrite !app_length. simpl. rewrite !app_length, repeat_length. lia. }
  rewrite Hd. cbn [unsqueeze_right shape repeat].
  assert (Hs : shape u ++ [1] = l1 ++ n :: l2 ++ repeat 1 (length ev)).
  { rewrite Hu. rewrite <- !app_assoc. simpl. rewrite <- app_assoc. now rewrite ev_last. }
  rewrite Hs. rewrite nth_error_mid. rewrite Hl. rewrite firstn_app_exact, skipn_mid. cbn [app].
  unfold expand. cbn [shape unsqueeze_right repeat]. rewrite Hs. rewrite expandable_Forall2.
  2:{ apply Forall2_app; [apply F2_refl|]. constructor; auto. apply Forall2_app; [apply F2_refl|apply repeat_ones_F2]. }
  eexists. split; [reflexivity|]. split; [reflexivity|]. intros i j Hi Hj. cbn [el].
  assert (Li : length i = length (l1 ++ n :: l2)) by now apply valid_length.
  assert (Lj : length j = length ev) by now apply valid_length.
  change (l1 ++ n :: l2 ++ repeat 1 (length ev)) with (l1 ++ (n :: l2) ++ repeat 1 (length ev)). rewrite app_assoc.
  rewrite bidx_same by (rewrite !app_length, repeat_length in *; lia).
  rewrite zip_clip_app by auto. rewrite zip_clip_valid by auto. rewrite clip_ones by auto.
  assert (Hz : repeat 0 (length ev) = repeat 0 (length ev - 1) ++ [0]).
  { replace (length ev) with (length ev - 1 + 1) at 1 by lia. apply repeat_app. }
  cbn [unsqueeze_right el]. rewrite Hz, app_assoc. f_equal.
  replace (ndim u) with (length (i ++ repeat 0 (length ev - 1))). { apply firstn_app_exact. }
  unfold ndim. rewrite Hu. change (l1 ++ n :: l2 ++ repeat 1 (length ev - 1)) with (l1 ++ (n :: l2) ++ repeat 1 (length ev - 1)).
  rewrite app_assoc, !app_length, !repeat_length. rewrite app_length in Li. lia.
Qed.

Lemma combine_le_refl : forall l : list nat, forallb (fun p => snd p <=? fst p) (combine l l) = true.
Proof. induction l; simpl; auto. now rewrite Nat.leb_refl. Qed.

Lemma gather_spec : forall (toi : V -> nat) (inp idx : ten V) l1 l2 n m ev,
  shape inp = l1 ++ m :: l2 ++ ev -> shape idx = l1 ++ n :: l2 ++ ev ->
  (forall i, valid i (shape idx) -> toi (el idx i) < m) ->
  exists r, torch_gather toi (length l1) inp idx = Ok r /\ shape r = shape idx /\
    forall i, el r i = el inp (set_at (length l1) (toi (el idx i)) i).
Proof.
  intros toi inp idx l1 l2 n m ev Hi Hx Hr. unfold torch_gather.
  assert (Hn : nth_error (shape inp) (length l1) = Some m) by (rewrite Hi; apply nth_error_mid). rewrite Hn.
  unfold gather_fits. rewrite Hi, Hx. rewrite !remove_at_app. rewrite combine_le_refl, !app_length. simpl.
  rewrite Nat.eqb_refl. simpl. rewrite <- Hx. rewrite (proj2 (forallb_forall _ _)).
  2:{ intros i Hin. apply Nat.ltb_lt. apply Hr. now apply in_indices. }
  simpl. eexists. split; [reflexivity|]. split; reflexivity.
Qed.
End Torch.

Section Collect.
Context {V : Type}.
Variable veq : V -> V -> bool.
Notation plate := (plate V).
Notation stensor := (stensor V).
Notation N l := (map (@pname V) l).

(** The ordinary plates [G] and two plates of one sequential method. *)
Variable G : list plate.
Variable x : string.
Variables pp q : plate.
Variables vp vq : nat.
Hypothesis G_plain : plain G.
Hypothesis G_agree : agree veq G.
Hypothesis G_name : forall p, In p G -> pname p <> x.
Hypothesis pp_cls : pcls pp = Ancestral vp false.
Hypothesis q_cls : pcls q = Ancestral vq false.
Hypothesis pp_name : pname pp = x.
Hypothesis q_name : pname q = x.
Hypothesis v_lt : vq < vp.

Definition world (p : plate) : Prop := p = pp \/ p = q \/ In p G.

Definition isq (p : plate) : bool := is_plate x vq p.

Lemma isq_q : isq q = true.
Proof. unfold isq, is_plate. rewrite q_cls, q_name, String.eqb_refl, Nat.eqb_refl. reflexivity. Qed.
Lemma isq_pp : isq pp = false.
Proof. unfold isq, is_plate. rewrite pp_cls. destruct (Nat.eqb_spec vq vp); [lia|]. apply andb_false_r. Qed.
Lemma isq_G : forall p, In p G -> isq p = false.
Proof. intros p H. unfold isq, is_plate. now rewrite (G_plain p H). Qed.

Lemma peq_G_anc : forall p r, In p G -> (r = pp \/ r = q) -> peq veq p r = false /\ peq veq r p = false.
Proof.
  intros p r Hp Hr. unfold peq, anc_eq. rewrite (G_plain p Hp).
  destruct Hr as [->| ->]; rewrite ?pp_cls, ?q_cls; auto.
Qed.
Lemma peq_pq : peq veq pp q = false /\ peq veq q pp = false.
Proof.
  unfold peq, anc_eq. rewrite pp_cls, q_cls. simpl. destruct (Nat.eqb_spec vp vq); [lia|].
  destruct (Nat.eqb_spec vq vp); [lia|]. rewrite !andb_false_r. auto.
Qed.
Lemma peq_GG : forall p r, In p G -> In r G -> peq veq p r = String.eqb (pname p) (pname r).
Proof.
  intros p r Hp Hr. destruct (String.eqb_spec (pname p) (pname r)) as [E|E].
  - apply G_agree; auto.
  - destruct (peq veq p r) eqn:Q; auto. apply peq_name in Q. congruence.
Qed.

(** In this world two plates are equal if they have the same name and are both the older plate or both not. *)
Lemma peq_world : forall p r, world p -> world r ->
  peq veq p r = String.eqb (pname p) (pname r) && Bool.eqb (isq p) (isq r).
Proof.
  intros p r Hp Hr.
  destruct Hp as [->|[->|Hp]]; destruct Hr as [->|[->|Hr]]; rewrite ?isq_q, ?isq_pp, ?(isq_G p), ?(isq_G r), ?peq_refl by auto;
    rewrite ?String.eqb_refl; auto.
  - rewrite (proj1 peq_pq). now rewrite pp_name, q_name, String.eqb_refl.
  - rewrite (proj2 (peq_G_anc r pp Hr (or_introl eq_refl))). rewrite pp_name.
    destruct (String.eqb_spec x (pname r)) as [E|]; auto. symmetry in E. now apply G_name in E.
  - rewrite (proj2 peq_pq). now rewrite pp_name, q_name, String.eqb_refl.
  - rewrite (proj2 (peq_G_anc r q Hr (or_intror eq_refl))). rewrite andb_false_r. reflexivity.
  - rewrite (proj1 (peq_G_anc p pp Hp (or_introl eq_refl))). rewrite pp_name.
    destruct (String.eqb_spec (pname p) x) as [E|]; auto. now apply G_name in E.
  - rewrite (proj1 (peq_G_anc p q Hp (or_intror eq_refl))). rewrite andb_false_r. reflexivity.
  - rewrite peq_GG by auto. now rewrite andb_true_r.
Qed.

Definition newp (acc : list plate) (r : plate) : bool := negb (pin veq r acc).

Lemma pin_app : forall r l m, pin veq r (l ++ m) = pin veq r l || pin veq r m.
Proof. intros. unfold pin, inb. apply existsb_app. Qed.

Lemma add_plates_new : forall l acc, (forall p, In p l -> world p) -> NoDup (N l) ->
  add_plates veq acc l = acc ++ filter (newp acc) l.
Proof.
  induction l as [|p l IH]; intros acc H ND; [simpl; now rewrite app_nil_r|].
  unfold add_plates. simpl. fold (add_plates veq (add_plate veq acc p) l).
  cbn [map] in ND. apply NoDup_cons_iff in ND. destruct ND as [Hni ND].
  rewrite IH by (auto; intros; apply H; simpl; auto).
  unfold add_plate, newp at 2. destruct (pin veq p acc) eqn:E; simpl; [reflexivity|].
  rewrite <- app_assoc. simpl. f_equal. f_equal. apply filter_ext_in. intros r Hr. unfold newp. rewrite pin_app, E || rewrite pin_app.
  unfold pin at 2, inb. simpl. rewrite orb_false_r.
  rewrite peq_world by (apply H; simpl; auto). destruct (String.eqb_spec (pname p) (pname r)) as [En|]; simpl.
  - exfalso. apply Hni. rewrite En. now apply in_map.
  - now rewrite orb_false_r.
Qed.

Lemma newp_world : forall acc r, (forall p, In p acc -> world p) -> world r ->
  newp acc r = negb (existsb (fun p => String.eqb (pname p) (pname r) && Bool.eqb (isq p) (isq r)) acc).
Proof.
  intros acc r H Hr. unfold newp, pin, inb. f_equal. induction acc as [|p acc IH]; simpl; auto.
  rewrite peq_world by (auto; apply H; simpl; auto). f_equal. apply IH. intros; apply H; simpl; auto.
Qed.

(** The plates of a call with two tensors. *)
Definition both (A B : list plate) : list plate := A ++ filter (newp A) B.

Lemma both_in : forall A B p, In p (both A B) -> In p A \/ In p B.
Proof. intros A B p H. apply in_app_iff in H. destruct H as [H|H]; auto. apply filter_In in H. tauto. Qed.

Lemma both_names : forall A B, (forall p, In p A -> world p) -> (forall p, In p B -> world p) ->
  NoDup (N A) -> NoDup (N B) -> NoDup (N (filter (fun p => negb (isq p)) (both A B))).
Proof.
  intros A B HA HB NA NB. unfold both. rewrite filter_app, map_app. apply NoDup_app_intro.
  - now apply NoDup_map_filter.
  - apply NoDup_map_filter. now apply NoDup_map_filter.
  - intros n H1 H2. apply in_map_iff in H1. destruct H1 as [p [<- Hp]]. apply in_map_iff in H2. destruct H2 as [r [En Hr]].
    apply filter_In in Hp. apply filter_In in Hr. destruct Hp as [Hp Qp]. destruct Hr as [Hr Qr]. apply filter_In in Hr.
    destruct Hr as [Hr Nr]. rewrite newp_world in Nr by auto. apply negb_true_iff in Nr.
    assert (X : existsb (fun p0 => String.eqb (pname p0) (pname r) && Bool.eqb (isq p0) (isq r)) A = true).
    { apply existsb_exists. exists p. split; auto. rewrite En, String.eqb_refl. apply negb_true_iff in Qp, Qr.
      now rewrite Qp, Qr. }
    congruence.
Qed.

Lemma both_has : forall A B r, (forall p, In p A -> world p) -> (forall p, In p B -> world p) -> In r B -> isq r = false ->
  exists p, In p (filter (fun p => negb (isq p)) (both A B)) /\ pname p = pname r.
Proof.
  intros A B r HA HB Hr Qr. destruct (newp A r) eqn:E.
  - exists r. split; auto. apply filter_In. rewrite Qr. split; auto. unfold both. apply in_or_app. right. apply filter_In. auto.
  - rewrite newp_world in E by auto. apply negb_false_iff in E. apply existsb_exists in E. destruct E as [p [Hp E]].
    apply andb_prop in E. destruct E as [En Eq]. apply String.eqb_eq in En. apply eqb_prop in Eq.
    exists p. split; auto. apply filter_In. rewrite Eq, Qr. split; auto. unfold both. apply in_or_app; auto.
Qed.

(** ** on_collecting_args *)
Lemma oca_true : forall self l,
  (forall r, In r l -> pname r = pname self -> peq veq r self = true \/ on_duplicate_plate r self = Ok true) ->
  on_collecting_args veq self l = Ok true.
Proof.
  induction l as [|r l IH]; simpl; intros H; auto.
  destruct (String.eqb_spec (pname r) (pname self)) as [E|E]; simpl; [|apply IH; auto].
  destruct (peq veq r self) eqn:Q; simpl; [apply IH; auto|].
  destruct (H r) as [H1|H1]; auto; [congruence|]. rewrite H1. simpl. apply IH; auto.
Qed.

Lemma oca_q : forall l, (forall r, In r l -> world r) -> In pp l -> on_collecting_args veq q l = Ok false.
Proof.
  induction l as [|r l IH]; intros H Hi; [destruct Hi|]. simpl.
  destruct (String.eqb_spec (pname r) (pname q)) as [E|E]; simpl.
  - destruct (H r (or_introl eq_refl)) as [->|[->|Hr]].
    + rewrite (proj1 peq_pq). simpl. unfold on_duplicate_plate. rewrite pp_cls, q_cls. simpl.
      destruct (Nat.ltb_spec vp vq); [lia|reflexivity].
    + rewrite peq_refl. simpl. destruct Hi as [Hi|Hi].
      * exfalso. pose proof isq_pp as X. rewrite <- Hi, isq_q in X. discriminate.
      * apply IH; auto. intros; apply H; simpl; auto.
    + exfalso. apply (G_name r Hr). congruence.
  - destruct Hi as [Hi|Hi].
    + exfalso. apply E. subst r. congruence.
    + apply IH; auto. intros; apply H; simpl; auto.
Qed.

Variable rec : recs.
Hypothesis rec_q : in_recursion rec q = false.

Lemma rec_G : forall p, In p G -> in_recursion rec p = false.
Proof.
  intros p H. unfold in_recursion, is_plate. rewrite (G_plain p H). clear. induction rec as [|k r IH]; simpl; auto.
Qed.

Definition ov (p : plate) : plate := if in_recursion rec p then set_override true p else p.

Lemma ov_name : forall p, pname (ov p) = pname p.
Proof. intros p. unfold ov. destruct (in_recursion rec p); auto. destruct p as [[|vi o] y n w l]; reflexivity. Qed.
Lemma ov_pn : forall p, pn (ov p) = pn p.
Proof. intros p. unfold ov. destruct (in_recursion rec p); auto. destruct p as [[|vi o] y n w l]; reflexivity. Qed.

Lemma rec_override : forall b (p : plate), in_recursion rec (set_override b p) = in_recursion rec p.
Proof.
  intros b p. unfold in_recursion. clear. induction rec as [|k r IH]; simpl; auto.
  rewrite IH. f_equal. destruct p as [[|vi o] y n w l]; reflexivity.
Qed.

Lemma mark_world : forall l, (forall r, In r l -> world r \/ r = set_override true pp) ->
  forall r, In r (mark pp l) -> In r G \/ r = q \/ r = set_override true pp.
Proof.
  intros l H r Hr. unfold mark in Hr. rewrite pp_cls in Hr. apply in_map_iff in Hr. destruct Hr as [p [<- Hp]].
  assert (X1 : is_plate (pname pp) vp pp = true).
  { unfold is_plate. now rewrite pp_cls, String.eqb_refl, Nat.eqb_refl. }
  destruct (H p Hp) as [[->|[->|Hg]]| ->].
  - rewrite X1. auto.
  - unfold is_plate. rewrite q_cls. destruct (Nat.eqb_spec vp vq); [lia|]. rewrite andb_false_r. auto.
  - unfold is_plate. rewrite (G_plain p Hg). auto.
  - right; right. destruct pp as [[|v o] y n w pl]; simpl in *; [discriminate|]. injection pp_cls as -> ->.
    unfold is_plate. simpl. rewrite String.eqb_refl, Nat.eqb_refl. reflexivity.
Qed.

Lemma rec_mark : forall l, existsb (in_recursion rec) (mark pp l) = existsb (in_recursion rec) l.
Proof.
  intros l. unfold mark. rewrite pp_cls. induction l as [|r l IH]; simpl; auto. rewrite IH. f_equal.
  destruct (is_plate _ _ r); auto. apply rec_override.
Qed.

Definition kept (M : list plate) : list plate := map ov (filter (fun p => negb (isq p)) M).

Definition clean (all M : list plate) : Prop := all = M \/ (in_recursion rec pp = true /\ all = mark pp M).

Lemma override_pp : pcls (set_override true pp) = Ancestral vp true.
Proof. destruct pp as [[|v o] y n w pl]; simpl in *; [discriminate|]. now injection pp_cls as -> ->. Qed.
Lemma override_name : forall b (p : plate), pname (set_override b p) = pname p.
Proof. intros b p. destruct p as [[|v o] y n w pl]; reflexivity. Qed.

Lemma collecting_spec : forall M, (forall p, In p M -> world p) -> In pp M ->
  collecting veq rec M = Ok (kept M).
Proof.
  intros M HM Hpp. unfold collecting.
  set (F := fun (acc : res (list plate * list plate)) p => _).
  assert (Hrec : existsb (in_recursion rec) M = in_recursion rec pp).
  { destruct (in_recursion rec pp) eqn:E.
    - apply existsb_exists. eauto.
    - destruct (existsb (in_recursion rec) M) eqn:X; auto. apply existsb_exists in X. destruct X as [p [Hp X]].
      destruct (HM p Hp) as [->|[->|Hg]]; try congruence. rewrite rec_G in X by auto. discriminate. }
  assert (Hall : forall all, clean all M -> existsb (in_recursion rec) all = in_recursion rec pp).
  { intros all [->|[_ ->]]; auto. now rewrite rec_mark. }
  assert (Hin : forall all r, clean all M -> In r all -> world r \/ r = set_override true pp).
  { intros all r [->|[_ ->]] Hr; [left; auto|]. apply mark_world in Hr; [|intros; left; auto].
    unfold world. tauto. }
  assert (Hmark : forall all, clean all M -> in_recursion rec pp = true -> clean (mark pp all) M).
  { intros all [->|[_ ->]] E; right; split; auto. unfold mark. rewrite pp_cls. rewrite map_map. apply map_ext.
    intros r. destruct (is_plate (pname pp) vp r) eqn:E1; [|now rewrite E1].
    destruct r as [[|v o] y n w pl]; simpl in *; auto. unfold is_plate in *. simpl in *. rewrite E1. reflexivity. }
  assert (Hgen : forall l k0 all, (forall p, In p l -> In p M) -> clean all M ->
    exists all', fold_left F l (Ok (k0, all)) = Ok (k0 ++ kept l, all') /\ clean all' M).
  { induction l as [|p l IH]; intros k0 all Hl Hc.
    - exists all. simpl. rewrite app_nil_r. auto.
    - cbn [fold_left].
      destruct (HM p (Hl p (or_introl eq_refl))) as [->|[->|Hg]].
      + (* the newer plate *)
        unfold kept. cbn [filter]. rewrite isq_pp. cbn [negb map].
        set (all1 := if in_recursion rec pp then mark pp all else all).
        assert (Hc1 : clean all1 M) by (unfold all1; destruct (in_recursion rec pp) eqn:E; auto).
        assert (EF : F (Ok (k0, all)) pp = Ok (k0 ++ [ov pp], all1)).
        { unfold F. cbn [bind]. fold all1. fold (ov pp).
          assert (Eh : match pcls (ov pp) with PlainPlate => false
                       | Ancestral _ _ => existsb (in_recursion rec) all1 && negb (in_recursion rec (ov pp)) end = false).
          { rewrite Hall by auto. unfold ov. destruct (in_recursion rec pp) eqn:E.
            - rewrite override_pp, rec_override, E. reflexivity.
            - rewrite pp_cls. reflexivity. }
          rewrite Eh. rewrite oca_true; [reflexivity|].
          intros r Hr En. rewrite ov_name in En.
          destruct (in_recursion rec pp) eqn:E.
          - left. unfold ov. rewrite E.
            assert (Hr' : r = q \/ r = set_override true pp).
            { unfold all1 in Hr. apply mark_world in Hr; [|intros; apply (Hin all); auto].
              destruct Hr as [Hr|Hr]; auto. exfalso. apply (G_name r Hr). congruence. }
            destruct Hr' as [->| ->].
            + unfold peq, anc_eq. rewrite q_cls, override_pp. simpl. rewrite override_name. apply String.eqb_eq. congruence.
            + apply peq_refl.
          - unfold ov. rewrite E. unfold all1 in Hr. destruct (Hin all r Hc Hr) as [[->|[->|Hg]]| ->].
            + left. apply peq_refl.
            + right. unfold on_duplicate_plate. rewrite q_cls, pp_cls. f_equal. now apply Nat.ltb_lt.
            + exfalso. apply (G_name r Hg). congruence.
            + exfalso. destruct Hc as [->|[Hx _]]; [|congruence]. destruct (HM _ Hr) as [Hx|[Hx|Hx]].
              * assert (Y : pcls (set_override true pp) = pcls pp) by now rewrite Hx. rewrite override_pp, pp_cls in Y. congruence.
              * assert (Y : pcls (set_override true pp) = pcls q) by now rewrite Hx. rewrite override_pp, q_cls in Y. congruence.
              * assert (Y := G_plain _ Hx). rewrite override_pp in Y. discriminate. }
        rewrite EF. destruct (IH (k0 ++ [ov pp]) all1) as [all' [E' C']]; auto.
        { intros; apply Hl; simpl; auto. }
        exists all'. split; auto. rewrite E'. unfold kept. now rewrite <- app_assoc.
      + (* the older plate *)
        unfold kept. cbn [filter]. rewrite isq_q. cbn [negb].
        assert (EF : F (Ok (k0, all)) q = Ok (k0, all)).
        { unfold F. cbn [bind]. rewrite !rec_q, q_cls, Hall, ?rec_q by auto.
          destruct (in_recursion rec pp) eqn:E; simpl; [reflexivity|].
          destruct Hc as [->|[Hx _]]; [|congruence]. rewrite oca_q by auto. reflexivity. }
        rewrite EF. destruct (IH k0 all) as [all' [E' C']]; auto.
        { intros; apply Hl; simpl; auto. }
        exists all'. auto.
      + (* an ordinary plate *)
        unfold kept. cbn [filter]. rewrite isq_G by auto. cbn [negb map]. unfold ov at 1. rewrite rec_G by auto.
        assert (EF : F (Ok (k0, all)) p = Ok (k0 ++ [p], all)).
        { unfold F. cbn [bind]. rewrite rec_G by auto. rewrite (G_plain p Hg).
          rewrite oca_true; [reflexivity|]. intros r Hr En. left.
          destruct (Hin all r Hc Hr) as [[->|[->|Hg']]| ->].
          - exfalso. apply (G_name p Hg). congruence.
          - exfalso. apply (G_name p Hg). congruence.
          - now apply G_agree.
          - exfalso. apply (G_name p Hg). rewrite override_name in En. congruence. }
        rewrite EF. destruct (IH (k0 ++ [p]) all) as [all' [E' C']]; auto.
        { intros; apply Hl; simpl; auto. }
        exists all'. split; auto. rewrite E'. unfold kept. now rewrite <- app_assoc. }
  destruct (Hgen M [] M) as [all' [E _]]; [auto|left; reflexivity|]. rewrite E. reflexivity.
Qed.

End Collect.
