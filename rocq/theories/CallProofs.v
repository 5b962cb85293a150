(** Proofs about whole wrapped calls: collection of parents and plates, unwrapping of nested arguments,
    elementwise functions and batchwise functions. *)
From Coq Require Import String List Arith Bool Lia Permutation.
From Verif Require Import Base Torch Plates Wrap ListLemmas IndexLemmas SpecTensor SpecWrap WrapProofs AlignProofs.
Import ListNotations.

#[local] Arguments skipn {A} !n !l : simpl nomatch.
#[local] Arguments firstn {A} !n !l : simpl nomatch.

Section CallProofs.
Context {V : Type}.
Variable veq : V -> V -> bool.
Variable anc_unwrap : plate V -> stensor V -> res (stensor V).
Notation plate := (plate V).
Notation stensor := (stensor V).
Notation pyval := (pyval V).
Notation N l := (map (@pname V) l).

(** Induction over nested values. *)
Fixpoint pyval_ind' (P : pyval -> Prop)
  (HNone : P PNone) (HT : forall a, P (PT a)) (HRaw : forall t, P (PRaw t))
  (HList : forall l, Forall P l -> P (PList l)) (HTuple : forall l, Forall P l -> P (PTuple l))
  (HDict : forall l, Forall (fun kv => P (snd kv)) l -> P (PDict l))
  (HDistr : forall c l, Forall (fun kv => P (snd kv)) l -> P (PDistr c l))
  (HInt : forall n, P (PInt n)) (HOther : forall n, P (POther n)) (a : pyval) : P a :=
  match a with
  | PNone => HNone | PT a => HT a | PRaw t => HRaw t
  | PList l => HList l ((fix go l : Forall P l := match l with
      | [] => Forall_nil P
      | x :: r => Forall_cons x (pyval_ind' P HNone HT HRaw HList HTuple HDict HDistr HInt HOther x) (go r) end) l)
  | PTuple l => HTuple l ((fix go l : Forall P l := match l with
      | [] => Forall_nil P
      | x :: r => Forall_cons x (pyval_ind' P HNone HT HRaw HList HTuple HDict HDistr HInt HOther x) (go r) end) l)
  | PDict l => HDict l ((fix go l : Forall (fun kv => P (snd kv)) l := match l with
      | [] => Forall_nil _
      | x :: r => Forall_cons x (pyval_ind' P HNone HT HRaw HList HTuple HDict HDistr HInt HOther (snd x)) (go r) end) l)
  | PDistr c l => HDistr c l ((fix go l : Forall (fun kv => P (snd kv)) l := match l with
      | [] => Forall_nil _
      | x :: r => Forall_cons x (pyval_ind' P HNone HT HRaw HList HTuple HDict HDistr HInt HOther (snd x)) (go r) end) l)
  | PInt n => HInt n | POther n => HOther n
  end.

Definition col (ts : list stensor) (s : @acc V) : @acc V :=
  let '(ps, pl, m) := s in
  (ps ++ ts, fold_left (fun pl t => add_plates veq pl (splates t)) ts pl,
   fold_left (fun m t => Nat.max m (s_event_dims t)) ts m).

Lemma col_app : forall ts us s, col (ts ++ us) s = col us (col ts s).
Proof. intros ts us [[ps pl] m]; simpl. now rewrite !fold_left_app, app_assoc. Qed.

Lemma col_nil : forall s, col [] s = s.
Proof. intros [[ps pl] m]; simpl. now rewrite app_nil_r. Qed.

Lemma collect_spec : forall a s, collect veq a s = col (tensors_in a) s.
Proof.
  induction a using pyval_ind'; intros s; simpl; try (symmetry; apply col_nil).
  - destruct s as [[ps pl] m]; reflexivity.
  - revert s. induction H as [|x r Hx Hr IH]; intros s; simpl; [symmetry; apply col_nil|].
    rewrite col_app, Hx. apply IH.
  - revert s. induction H as [|x r Hx Hr IH]; intros s; simpl; [symmetry; apply col_nil|].
    rewrite col_app, Hx. apply IH.
  - revert s. induction H as [|[k x] r Hx Hr IH]; intros s; simpl; [symmetry; apply col_nil|].
    rewrite col_app. simpl in Hx. rewrite Hx. apply IH.
Qed.

Lemma add_plates_union : forall L new old, agree veq L -> incl new L -> incl old L -> NoDup (N new) ->
  add_plates veq old new = union old new.
Proof.
  intros L new. induction new as [|p new IH]; intros old HA Hn Ho ND; unfold union; simpl.
  - now rewrite app_nil_r.
  - inversion ND as [|? ? Hp ND']; subst. unfold add_plates in *. simpl.
    assert (HpL : In p L) by (apply Hn; simpl; auto).
    assert (Hn' : incl new L) by (intros x Hx; apply Hn; simpl; auto).
    unfold add_plate at 2. rewrite (pin_mem veq L) by auto. rewrite <- has_mem.
    destruct (has old (pname p)) eqn:E; simpl.
    + rewrite IH by auto. reflexivity.
    + rewrite IH; auto.
      * unfold union. rewrite <- app_assoc. simpl. f_equal. f_equal. apply filter_ext_in. intros q Hq. f_equal.
        unfold has. rewrite existsb_app. simpl. rewrite orb_false_r.
        destruct (String.eqb_spec (pname p) (pname q)) as [E'|]; [|now rewrite orb_false_r].
        exfalso. apply Hp. rewrite E'. now apply in_map.
      * intros x Hx. apply in_app_iff in Hx. destruct Hx as [Hx|[<-|[]]]; auto.
Qed.

Lemma union_NoDup : forall l m : list plate, NoDup (N l) -> NoDup (N m) -> NoDup (N (union l m)).
Proof.
  intros l m Hl Hm. unfold union. rewrite map_app. apply NoDup_app_intro; auto.
  - now apply NoDup_map_filter.
  - intros x Hx Hy. apply in_map_iff in Hy. destruct Hy as [q [<- Hq]]. apply filter_In in Hq.
    destruct Hq as [_ Hq]. apply has_In in Hx. rewrite Hx in Hq. discriminate.
Qed.

Lemma union_incl : forall (l m L : list plate), incl l L -> incl m L -> incl (union l m) L.
Proof.
  intros l m L Hl Hm x Hx. unfold union in Hx. apply in_app_iff in Hx. destruct Hx as [Hx|Hx]; auto.
  apply filter_In in Hx. apply Hm; tauto.
Qed.

Lemma union_names : forall (l m : list plate) x, In x (N (union l m)) <-> In x (N l) \/ In x (N m).
Proof.
  intros l m x. unfold union. rewrite map_app, in_app_iff. split.
  - intros [H|H]; auto. right. apply in_map_iff in H. destruct H as [q [<- Hq]]. apply filter_In in Hq.
    apply in_map; tauto.
  - intros [H|H]; auto. destruct (has l x) eqn:E.
    + left. now apply has_In.
    + right. apply in_map_iff in H. destruct H as [q [<- Hq]]. apply in_map. apply filter_In. split; auto.
      now rewrite E.
Qed.

Lemma union_nil_l : forall l : list plate, union [] l = l.
Proof. intros l. unfold union. simpl. induction l; simpl; congruence. Qed.

Lemma filter_none : forall l : list plate, filter (fun p => negb (existsb (String.eqb (pname p)) [])) l = l.
Proof. induction l as [|p l IH]; [reflexivity|]. simpl. f_equal. exact IH. Qed.

Definition folded (ts : list stensor) (acc : list plate) : list plate :=
  fold_left (fun acc t => union acc (splates t)) ts acc.

Lemma folded_spec : forall ts acc L, agree veq L -> Forall wf ts -> incl acc L -> NoDup (N acc) ->
  (forall t, In t ts -> incl (splates t) L) ->
  fold_left (fun pl t => add_plates veq pl (splates t)) ts acc = folded ts acc /\
  incl (folded ts acc) L /\ NoDup (N (folded ts acc)) /\
  (forall x, In x (N (folded ts acc)) <-> In x (N acc) \/ exists t, In t ts /\ In x (N (splates t))).
Proof.
  induction ts as [|t ts IH]; intros acc L HA Hwf Hacc ND Hts; simpl.
  - repeat split; auto. intros [H|[t [[] _]]]; auto.
  - inversion Hwf; subst. assert (Ht : incl (splates t) L) by (apply Hts; simpl; auto).
    rewrite (add_plates_union L) by (auto; apply wf_names; auto).
    destruct (IH (union acc (splates t)) L) as [E [I [D X]]]; auto.
    { now apply union_incl. }
    { apply union_NoDup; auto. apply wf_names; auto. }
    { intros u Hu. apply Hts; simpl; auto. }
    unfold folded in *. simpl. repeat split; auto.
    + intros Hx. apply X in Hx. destruct Hx as [Hx|[u [Hu Hx]]].
      * apply union_names in Hx. destruct Hx as [Hx|Hx]; auto. right. exists t; auto.
      * right. exists u; auto.
    + intros Hx. apply X. rewrite union_names. destruct Hx as [Hx|[u [[<-|Hu] Hx]]]; auto. right. exists u; auto.
Qed.

Lemma on_collecting_ok : forall L p l, agree veq L -> In p L -> incl l L -> on_collecting_args veq p l = Ok true.
Proof.
  intros L p l HA Hp. induction l as [|q r IH]; simpl; intros Hl; auto.
  assert (Hq : In q L) by (apply Hl; simpl; auto).
  rewrite (peq_names veq L) by auto. rewrite andb_negb_r. apply IH. intros x Hx; apply Hl; simpl; auto.
Qed.

Lemma filter_collected_ok : forall L all l, agree veq L -> incl all L -> incl l L ->
  filter_collected veq all l = Ok l.
Proof.
  intros L all l HA Hall. induction l as [|p r IH]; simpl; intros Hl; auto.
  rewrite (on_collecting_ok L); auto.
  - simpl. rewrite IH by (intros x Hx; apply Hl; simpl; auto). reflexivity.
  - apply Hl; simpl; auto.
Qed.

Lemma unwrap_val_spec : forall (R : stensor -> ten V -> Prop) ps o ed a,
  no_distr a ->
  (forall t, In t (tensors_in a) -> exists u, unwrap_tensor veq anc_unwrap ps o ed t = Ok u /\ R t u) ->
  exists a', unwrap_val veq anc_unwrap ps o ed a = Ok a' /\ unwrapped R a a'.
Proof.
  intros R ps o ed. induction a using pyval_ind'; intros ND HR; simpl in *;
    try (eexists; split; [reflexivity|constructor]); try contradiction.
  - destruct (HR a (or_introl eq_refl)) as [u [E Hu]]. rewrite E. simpl. eexists; split; [reflexivity|].
    now constructor.
  - enough (X : exists l', (fix go (l : list pyval) : res (list pyval) :=
                  match l with
                  | [] => Ok []
                  | x :: r => do x' <- unwrap_val veq anc_unwrap ps o ed x; do r' <- go r; Ok (x' :: r')
                  end) l = Ok l' /\ Forall2 (unwrapped R) l l').
    { destruct X as [l' [E F]]. rewrite E. simpl. eexists; split; [reflexivity|]. now constructor. }
    induction H as [|x r Hx Hr IH]; [exists []; auto|]. destruct ND as [ND1 ND2].
    destruct (Hx ND1) as [x' [Ex Ux]]. { intros t Ht. apply HR. simpl. apply in_app_iff; auto. }
    destruct (IH ND2) as [r' [Er Ur]]. { intros t Ht. apply HR. simpl. apply in_app_iff; auto. }
    rewrite Ex. cbn [bind]. rewrite Er. cbn [bind]. eexists; split; [reflexivity|]. now constructor.
  - enough (X : exists l', (fix go (l : list pyval) : res (list pyval) :=
                  match l with
                  | [] => Ok []
                  | x :: r => do x' <- unwrap_val veq anc_unwrap ps o ed x; do r' <- go r; Ok (x' :: r')
                  end) l = Ok l' /\ Forall2 (unwrapped R) l l').
    { destruct X as [l' [E F]]. rewrite E. simpl. eexists; split; [reflexivity|]. now constructor. }
    induction H as [|x r Hx Hr IH]; [exists []; auto|]. destruct ND as [ND1 ND2].
    destruct (Hx ND1) as [x' [Ex Ux]]. { intros t Ht. apply HR. simpl. apply in_app_iff; auto. }
    destruct (IH ND2) as [r' [Er Ur]]. { intros t Ht. apply HR. simpl. apply in_app_iff; auto. }
    rewrite Ex. cbn [bind]. rewrite Er. cbn [bind]. eexists; split; [reflexivity|]. now constructor.
  - enough (X : exists l', (fix go (l : list (string * pyval)) : res (list (string * pyval)) :=
                  match l with
                  | [] => Ok []
                  | (k, x) :: r => do x' <- unwrap_val veq anc_unwrap ps o ed x; do r' <- go r; Ok ((k, x') :: r')
                  end) l = Ok l' /\ Forall2 (fun x y => fst x = fst y /\ unwrapped R (snd x) (snd y)) l l').
    { destruct X as [l' [E F]]. rewrite E. simpl. eexists; split; [reflexivity|]. now constructor. }
    induction H as [|[k x] r Hx Hr IH]; [exists []; auto|]. destruct ND as [ND1 ND2]. simpl in Hx.
    destruct (Hx ND1) as [x' [Ex Ux]]. { intros t Ht. apply HR. simpl. apply in_app_iff; auto. }
    destruct (IH ND2) as [r' [Er Ur]]. { intros t Ht. apply HR. simpl. apply in_app_iff; auto. }
    rewrite Ex. cbn [bind]. rewrite Er. cbn [bind]. eexists; split; [reflexivity|]. constructor; auto.
Qed.

Lemma mapM_spec : forall {A B} (f : A -> res B) (P : A -> B -> Prop) l,
  (forall x, In x l -> exists y, f x = Ok y /\ P x y) -> exists l', mapM f l = Ok l' /\ Forall2 P l l'.
Proof.
  induction l as [|x l IH]; intros H; simpl; [exists []; auto|].
  destruct (H x (or_introl eq_refl)) as [y [E Py]]. destruct IH as [l' [E' F]]; [intros; apply H; simpl; auto|].
  rewrite E. cbn [bind]. rewrite E'. cbn [bind]. eexists; split; [reflexivity|]. constructor; auto.
Qed.

Lemma max_event_ge : forall ts m t, In t ts \/ s_event_dims t <= m ->
  s_event_dims t <= fold_left (fun m t => Nat.max m (@s_event_dims V t)) ts m.
Proof.
  induction ts as [|u ts IH]; simpl; intros m t H.
  - destruct H as [[]|H]; auto.
  - apply IH. destruct H as [[<-|H]|H]; auto; right; lia.
Qed.

Lemma plain_hook : forall (p : plate) a, pcls p = PlainPlate -> on_unwrap_tensor anc_unwrap p a = Ok a.
Proof. intros p a H. unfold on_unwrap_tensor. now rewrite H. Qed.

Lemma prepare_args_gen : forall (R : stensor -> ten V -> Prop) args kwargs o ts,
  ts = call_tensors args kwargs -> callable veq ts ->
  o_unwrap o = true -> o_dim o = None -> o_dims o = None ->
  Forall no_distr args -> Forall (fun kv => no_distr (snd kv)) kwargs ->
  (forall t, In t ts -> exists u, unwrap_tensor veq anc_unwrap (wide (all_plates ts)) o (max_event ts) t = Ok u /\ R t u) ->
  exists args' kwargs',
    prepare_args veq anc_unwrap args kwargs o = Ok (args', kwargs', ts, all_plates ts) /\
    Forall2 (unwrapped R) args args' /\
    Forall2 (fun x y => fst x = fst y /\ unwrapped R (snd x) (snd y)) kwargs kwargs'.
Proof.
  intros R args kwargs o ts Ets [Hwf [HA Hpl]] Hu Hd Hds NDa NDk HR.
  unfold prepare_args. rewrite !collect_spec.
  assert (Ecol : col (tensors_in (PDict kwargs)) (col (tensors_in (PList args)) ([], [], 0)) =
                 (ts, all_plates ts, max_event ts)).
  { rewrite <- col_app. simpl tensors_in. fold (call_tensors args kwargs). rewrite <- Ets. unfold col.
    destruct (folded_spec ts [] (flat_map splates ts)) as [E _]; auto.
    - intros x [].
    - constructor.
    - intros t Ht x Hx. apply in_flat_map. exists t; auto.
    - rewrite E. reflexivity. }
  rewrite Ecol.
  destruct (folded_spec ts [] (flat_map splates ts)) as [_ [I [D X]]]; auto.
  { intros x []. } { constructor. } { intros t Ht x Hx. apply in_flat_map. exists t; auto. }
  change (folded ts []) with (all_plates ts) in *.
  rewrite (filter_collected_ok (flat_map splates ts)) by auto. cbn [bind].
  rewrite Hd. cbn [bind]. rewrite Hds. cbn [bind]. rewrite Hu.
  destruct (mapM_spec (unwrap_val veq anc_unwrap (mdp (all_plates ts)) o (max_event ts)) (unwrapped R) args)
    as [args' [E1 F1]].
  { intros x Hx. apply unwrap_val_spec.
    - rewrite Forall_forall in NDa. auto.
    - intros t Ht. apply HR. rewrite Ets. unfold call_tensors. apply in_app_iff. left. apply in_flat_map. exists x; auto. }
  destruct (mapM_spec (fun kv : string * pyval => do v <- unwrap_val veq anc_unwrap (mdp (all_plates ts)) o (max_event ts) (snd kv); Ok (fst kv, v))
     (fun x y => fst x = fst y /\ unwrapped R (snd x) (snd y)) kwargs) as [kwargs' [E2 F2]].
  { intros x Hx. destruct (unwrap_val_spec R (mdp (all_plates ts)) o (max_event ts) (snd x)) as [v [Ev Uv]].
    - rewrite Forall_forall in NDk. auto.
    - intros t Ht. apply HR. rewrite Ets. unfold call_tensors. apply in_app_iff. right. apply in_flat_map. exists x; auto.
    - rewrite Ev. cbn [bind]. eexists; split; [reflexivity|]. auto. }
  rewrite E1. cbn [bind]. rewrite E2. cbn [bind]. exists args', kwargs'. auto.
Qed.

Lemma all_plates_facts : forall ts, callable veq ts ->
  incl (all_plates ts) (flat_map splates ts) /\ NoDup (N (all_plates ts)) /\
  (forall x, In x (N (all_plates ts)) <-> exists t, In t ts /\ In x (N (splates t))).
Proof.
  intros ts [Hwf [HA Hpl]].
  destruct (folded_spec ts [] (flat_map splates ts)) as [_ [I [D X]]]; auto.
  { intros x []. } { constructor. } { intros t Ht x Hx. apply in_flat_map. exists t; auto. }
  change (folded ts []) with (all_plates ts) in *. repeat split; auto.
  - intros Hx. apply X in Hx. destruct Hx as [[]|Hx]; auto.
  - intros Hx. apply X. auto.
Qed.

Lemma unwrap_side : forall ts t, callable veq ts -> In t ts ->
  incl (wide (all_plates ts)) (flat_map splates ts) /\ incl (splates t) (flat_map splates ts) /\ wf t /\
  NoDup (N (wide (all_plates ts))) /\ (forall p, In p (wide (all_plates ts)) -> 1 < pn p) /\
  (forall p, In p (wide (splates t)) -> In (pname p) (N (wide (all_plates ts)))) /\
  (forall p, In p (wide (all_plates ts)) -> on_unwrap_tensor anc_unwrap p t = Ok t) /\
  s_event_dims t <= max_event ts.
Proof.
  intros ts t HC Ht. destruct (all_plates_facts ts HC) as [I [D X]]. destruct HC as [Hwf [HA Hpl]].
  assert (IW : incl (wide (all_plates ts)) (flat_map splates ts)).
  { intros p Hp. apply In_wide in Hp. apply I; tauto. }
  assert (IT : incl (splates t) (flat_map splates ts)).
  { intros p Hp. apply in_flat_map. eauto. }
  rewrite Forall_forall in Hwf.
  refine (conj IW (conj IT (conj (Hwf t Ht) (conj _ (conj _ (conj _ (conj _ _))))))).
  - now apply NoDup_map_filter.
  - intros p Hp. apply In_wide in Hp. tauto.
  - intros p Hp. apply In_wide in Hp. destruct Hp as [Hp Hn].
    assert (Hx : In (pname p) (N (all_plates ts))). { apply X. exists t. split; auto. now apply in_map. }
    apply in_map_iff in Hx. destruct Hx as [q [E Hq]]. rewrite <- E. apply in_map. apply In_wide. split; auto.
    destruct (HA q p) as [_ En]; auto. lia.
  - intros p Hp. apply plain_hook. apply Hpl. auto.
  - apply max_event_ge. auto.
Qed.

Lemma prepare_args_laid_out : forall args kwargs o ts,
  ts = call_tensors args kwargs -> callable veq ts ->
  o_unwrap o = true -> o_align o = true -> o_lbroadcast o = true -> o_flatten o = false ->
  o_dim o = None -> o_dims o = None ->
  Forall no_distr args -> Forall (fun kv => no_distr (snd kv)) kwargs ->
  let R := laid_out (wide (all_plates ts)) (o_expand o) (max_event ts) in
  exists args' kwargs',
    prepare_args veq anc_unwrap args kwargs o = Ok (args', kwargs', ts, all_plates ts) /\
    Forall2 (unwrapped R) args args' /\
    Forall2 (fun x y => fst x = fst y /\ unwrapped R (snd x) (snd y)) kwargs kwargs'.
Proof.
  intros. eapply prepare_args_gen; eauto. intros t Ht.
  destruct (unwrap_side ts t) as [S1 [S2 [S3 [S4 [S5 [S6 [S7 S8]]]]]]]; auto.
  apply unwrap_tensor_spec with (L := flat_map splates ts); auto. apply H0.
Qed.

Lemma prepare_args_laid_out_flat : forall args kwargs o ts,
  ts = call_tensors args kwargs -> callable veq ts ->
  o_unwrap o = true -> o_align o = true -> o_lbroadcast o = true -> o_flatten o = true ->
  o_dim o = None -> o_dims o = None ->
  Forall no_distr args -> Forall (fun kv => no_distr (snd kv)) kwargs ->
  (forall t, In t ts -> 0 < lprod (s_event_shape t)) ->
  let R := laid_out_flat (wide (all_plates ts)) (max_event ts) in
  exists args' kwargs',
    prepare_args veq anc_unwrap args kwargs o = Ok (args', kwargs', ts, all_plates ts) /\
    Forall2 (unwrapped R) args args' /\
    Forall2 (fun x y => fst x = fst y /\ unwrapped R (snd x) (snd y)) kwargs kwargs'.
Proof.
  intros. eapply prepare_args_gen; eauto. intros t Ht.
  destruct (unwrap_side ts t) as [S1 [S2 [S3 [S4 [S5 [S6 [S7 S8]]]]]]]; auto.
  apply unwrap_tensor_flat with (L := flat_map splates ts); auto. apply H0.
Qed.

(** ** Elementwise binary functions *)

Lemma wide_choice_broadcasts : forall (a b : stensor) ps,
  (forall p : plate, In p ps -> has (splates a) (pname p) = true \/ has (splates b) (pname p) = true) ->
  broadcasts (map (fun p => if has (splates a) (pname p) || false then pn p else 1) ps)
             (map (fun p => if has (splates b) (pname p) || false then pn p else 1) ps) (map pn ps).
Proof.
  intros a b ps H. induction ps as [|p ps IH]; simpl; [constructor|].
  assert (IH' := IH (fun q Hq => H q (or_intror Hq))). specialize (H p (or_introl eq_refl)). rewrite !orb_false_r in *.
  destruct (has (splates a) (pname p)), (has (splates b) (pname p)); try (constructor; exact IH').
  destruct H; discriminate.
Qed.

Lemma pad_length : forall m ev, length ev <= m -> length (pad m ev) = m.
Proof. intros. unfold pad. rewrite app_length, repeat_length. lia. Qed.

Lemma in_range_wide : forall (s : assignment) (l : list plate), in_range s l -> in_range s (wide l).
Proof. intros s l H p Hp. apply In_wide in Hp. apply H; tauto. Qed.

Lemma clip_choice2 : forall (a : stensor) (s : assignment) ps,
  (forall p, In p ps -> 1 < pn p) ->
  zip_clip (map (fun p : plate => if has (splates a) (pname p) || false then pn p else 1) ps) (map (fun p => s (pname p)) ps)
  = map (fun p => if has (splates a) (pname p) || false then s (pname p) else 0) ps.
Proof.
  intros. replace (map (fun p : plate => if has (splates a) (pname p) || false then pn p else 1) ps) with
    (map (fun p : plate => if has (splates a) (pname p) then pn p else 1) ps) by (apply map_ext; intros; now rewrite orb_false_r).
  rewrite clip_choice by auto. apply map_ext. intros. now rewrite orb_false_r.
Qed.

Lemma all_pos : forall ts, callable veq ts -> forall p, In p (all_plates ts) -> 1 <= pn p.
Proof.
  intros ts HC p Hp. destruct (all_plates_facts ts HC) as [I _]. apply I in Hp. apply in_flat_map in Hp.
  destruct Hp as [t [Ht Hp]]. destruct HC as [Hwf _]. rewrite Forall_forall in Hwf. apply (wf_pos t (Hwf t Ht) p Hp).
Qed.

Lemma op2_spec : forall f a b base evc,
  callable veq [a; b] ->
  let m := Nat.max (s_event_dims a) (s_event_dims b) in
  broadcasts (pad m (s_event_shape a)) (pad m (s_event_shape b)) evc ->
  exists r, torch_op2 veq anc_unwrap top_ctx f (PT a) (PT b) base = Ok (PT r) /\
    splates r = union (splates a) (splates b) /\ s_event_shape r = evc /\ wf r /\
    sparents r = [sid a; sid b] /\ s_stochastic r = false /\ sid r = base + 1 /\
    forall s e, in_range s (splates r) -> valid e evc ->
      den r s e = f (den a s (proj (s_event_shape a) e)) (den b s (proj (s_event_shape b) e)).
Proof.
  intros f a b base evc HC m Hev.
  assert (Eap : all_plates [a; b] = union (splates a) (splates b)) by (unfold all_plates; simpl; now rewrite union_nil_l).
  assert (Em : max_event [a; b] = m) by reflexivity.
  destruct (prepare_args_laid_out [PT a; PT b] [] default_opts [a; b]) as [args' [kwargs' [E [F1 F2]]]]; auto.
  { repeat constructor. }
  inversion F1 as [|? x1 ? r1 U1 F1']; subst. inversion F1' as [|? x2 ? r2 U2 F1'']; subst.
  inversion F1''; subst. inversion F2; subst.
  inversion U1 as [? u1 L1| | | | | | | |]; subst. inversion U2 as [? u2 L2| | | | | | | |]; subst.
  destruct L1 as [S1 X1], L2 as [S2 X2]. simpl o_expand in *.
  unfold torch_op2, handle_deterministic. simpl c_stochastic. cbv iota. rewrite E. cbn [bind].
  cbn [torch_fn2]. unfold elementwise2.
  set (ps := wide (all_plates [a; b])) in *.
  assert (HB : broadcasts (shape u1) (shape u2) (map pn ps ++ evc)).
  { rewrite S1, S2, Em. apply broadcasts_app; auto. apply wide_choice_broadcasts.
    intros p Hp. apply In_wide in Hp. destruct Hp as [Hp _].
    apply (in_map pname) in Hp. rewrite Eap in Hp. apply union_names in Hp. rewrite !has_In. tauto. }
  rewrite (broadcasts_bshape _ _ _ HB). cbn [bind].
  assert (Ef : filter (fun p => negb (existsb (String.eqb (pname p)) [])) (all_plates [a; b]) = all_plates [a; b]).
  { apply filter_none. }
  cbn [c_ignore top_ctx]. rewrite Ef. cbn [prepare_outputs default_opts o_flatten bind].
  set (t := mkten (map pn ps ++ evc) (fun idx => f (el u1 (bidx (shape u1) idx)) (el u2 (bidx (shape u2) idx)))).
  destruct (all_plates_facts [a; b] HC) as [I [D X]].
  assert (Hpos := all_pos _ HC).
  assert (Hmk : exists r, mk_tensor (base + 1) t (map sid [a; b]) (all_plates [a; b]) false = Ok r).
  { apply mk_tensor_iff. split; auto. rewrite nonone_wide by auto. exists evc. reflexivity. }
  destruct Hmk as [r Hr]. rewrite Hr. cbn [bind].
  destruct (mk_tensor_fields _ _ _ _ _ _ Hr) as [F3 [F4 [F5 [F6 [F7 [F8 F9]]]]]].
  assert (Hwr : wf r) by (eapply mk_tensor_wf; eauto).
  assert (Eev : s_event_shape r = evc).
  { rewrite nonone_wide in F9 by auto. unfold t in F9. simpl shape in F9. fold ps in F9.
    apply app_inv_head in F9. auto. }
  exists r. rewrite F5, Eap. refine (conj eq_refl (conj eq_refl (conj Eev (conj Hwr (conj F6 (conj F7 (conj F3 _))))))).
    intros s e Hs He. unfold den at 1. rewrite F4, F5. fold ps. unfold t. simpl el.
    rewrite <- Eap in Hs.
    assert (Hsr : in_range s ps) by (apply in_range_wide; auto).
    assert (Hw : forall p, In p ps -> 1 < pn p) by (intros p Hp; apply In_wide in Hp; tauto).
    pose proof (broadcasts_length _ _ _ HB) as [LB1 LB2].
    pose proof (broadcasts_length _ _ _ Hev) as [LE1 LE2].
    assert (Le : length e = length evc) by now apply valid_length.
    rewrite !bidx_same by (rewrite LB1 || rewrite LB2; rewrite !app_length, !map_length; lia).
    rewrite S1, S2, Em.
    rewrite !zip_clip_app by now rewrite !map_length.
    rewrite !clip_choice2 by auto.
    assert (V1 : valid (zip_clip (pad m (s_event_shape a)) e) (pad m (s_event_shape a)))
      by (eapply broadcasts_valid_l; eauto).
    assert (V2 : valid (zip_clip (pad m (s_event_shape b)) e) (pad m (s_event_shape b)))
      by (eapply broadcasts_valid_r; eauto).
    rewrite Em in X1, X2.
    rewrite X1, X2 by auto.
    unfold s_event_dims. unfold pad.
    rewrite !zip_clip_prefix by (fold (pad m (s_event_shape a)); fold (pad m (s_event_shape b)); lia).
    reflexivity.
Qed.

End CallProofs.
