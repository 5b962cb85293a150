(** Proofs that unwrapping lays every argument out for the collected plates. *)
From Coq Require Import String List Arith Bool Lia Permutation.
From Verif Require Import Base Torch Plates Wrap ListLemmas IndexLemmas SpecTensor SpecWrap WrapProofs.
Import ListNotations.

#[local] Arguments skipn {A} !n !l : simpl nomatch.
#[local] Arguments firstn {A} !n !l : simpl nomatch.

Section AlignProofs.
Context {V : Type}.
Variable veq : V -> V -> bool.
Variable anc_unwrap : plate V -> stensor V -> res (stensor V).
Notation plate := (plate V).
Notation stensor := (stensor V).
Notation N l := (map (@pname V) l).

Lemma has_mem : forall (l : list plate) x, has l x = mem x (N l).
Proof.
  unfold has, mem. induction l; simpl; intros x; auto. rewrite IHl. f_equal. apply String.eqb_sym.
Qed.

Lemma unsq_loop_spec : forall L r aplates (t : ten V) dims pre (f : plate -> nat) ev,
  agree veq L -> incl r L -> incl aplates L ->
  shape t = pre ++ map f (filter (fun p => has aplates (pname p)) r) ++ ev ->
  exists t', unsq_loop veq r (length pre) aplates t dims =
      Ok (t', dims ++ map (fun p => if has aplates (pname p) then f p else pn p) r) /\
    shape t' = pre ++ map (fun p => if has aplates (pname p) then f p else 1) r ++ ev /\
    forall ipre (g : plate -> nat) e, length ipre = length pre ->
      el t' (ipre ++ map g r ++ e) = el t (ipre ++ map g (filter (fun p => has aplates (pname p)) r) ++ e).
Proof.
  intros L r aplates. induction r as [|p r IH]; intros t dims pre f ev HA Hr Ha Hs; simpl in *.
  - exists t. rewrite app_nil_r. auto.
  - assert (Hp : In p L) by (apply Hr; simpl; auto).
    assert (Hr' : incl r L) by (intros x Hx; apply Hr; simpl; auto).
    rewrite (pin_mem veq L) by auto. rewrite <- has_mem.
    destruct (has aplates (pname p)) eqn:E; simpl in Hs.
    + rewrite Hs. rewrite nth_error_app2 by lia. rewrite Nat.sub_diag. simpl.
      destruct (IH t (dims ++ [f p]) (pre ++ [f p]) f ev) as [t' [H1 [H2 H3]]]; auto.
      { rewrite <- app_assoc. exact Hs. }
      rewrite app_length in H1. simpl in H1. rewrite Nat.add_1_r in H1.
      exists t'. split; [|split].
      * rewrite H1. now rewrite <- app_assoc.
      * rewrite H2. now rewrite <- app_assoc.
      * intros ipre g e Hl. specialize (H3 (ipre ++ [g p]) g e).
        rewrite <- !app_assoc in H3. simpl in H3. apply H3. rewrite !app_length; simpl; lia.
    + assert (Hle : (length pre <=? ndim t) = true).
      { apply Nat.leb_le. unfold ndim. rewrite Hs, app_length. lia. }
      unfold unsqueeze. rewrite Hle. cbn [bind].
      set (t1 := mkten (insert_at (length pre) 1 (shape t)) (fun idx => el t (remove_at (length pre) idx))).
      destruct (IH t1 (dims ++ [pn p]) (pre ++ [1]) f ev) as [t' [H1 [H2 H3]]]; auto.
      { unfold t1; simpl. rewrite Hs. rewrite insert_at_app. rewrite <- app_assoc. reflexivity. }
      rewrite app_length in H1. simpl in H1. rewrite Nat.add_1_r in H1.
      exists t'. split; [|split].
      * rewrite H1. now rewrite <- app_assoc.
      * rewrite H2. now rewrite <- app_assoc.
      * intros ipre g e Hl. specialize (H3 (ipre ++ [g p]) g e).
        rewrite <- !app_assoc in H3. simpl in H3. rewrite H3 by (rewrite !app_length; simpl; lia).
        unfold t1; simpl. f_equal. rewrite <- Hl. apply remove_at_app.
Qed.

Lemma agree_incl : forall L M, agree veq L -> incl M L -> agree veq M.
Proof. unfold agree; intros L M H I p q Hp Hq. apply H; auto. Qed.

Lemma wide_mdp : forall l : list plate, wide l = mdp l.
Proof. reflexivity. Qed.

Lemma In_wide : forall (l : list plate) p, In p (wide l) <-> In p l /\ 1 < pn p.
Proof. intros. unfold wide. rewrite filter_In. now rewrite Nat.ltb_lt. Qed.

Lemma has_In : forall (l : list plate) x, has l x = true <-> In x (N l).
Proof. intros. rewrite has_mem. apply mem_In. Qed.

(** filtering the collected wide plates by "tensor has it" and by "tensor has it as a wide plate" coincide. *)
Lemma has_wide : forall L (l : list plate) p, agree veq L -> incl l L -> In p L -> 1 < pn p ->
  has (wide l) (pname p) = has l (pname p).
Proof.
  intros L l p HA Hl Hp Hn. apply eq_true_iff_eq. rewrite !has_In, !in_map_iff. split; intros [q [E I]].
  - exists q. apply In_wide in I. tauto.
  - exists q. split; auto. apply In_wide. split; auto.
    destruct (HA q p) as [_ En]; auto. lia.
Qed.

Lemma filter_map_comm : forall {A B} (f : A -> B) g l, filter g (map f l) = map f (filter (fun x => g (f x)) l).
Proof. induction l; simpl; auto. destruct (g (f a)); simpl; now rewrite IHl. Qed.

(** The size function by name. *)
Definition size_of (L : list plate) (x : string) : nat :=
  match find (fun p => String.eqb (pname p) x) L with Some p => pn p | None => 0 end.

Lemma size_of_spec : forall L p, agree veq L -> In p L -> size_of L (pname p) = pn p.
Proof.
  intros L p HA Hp. unfold size_of. destruct (find _ L) as [q|] eqn:E.
  - apply find_some in E. destruct E as [I E]. apply String.eqb_eq in E. apply HA; auto.
  - exfalso. pose proof (find_none _ _ E p Hp) as C. simpl in C. rewrite String.eqb_refl in C. discriminate.
Qed.

Lemma map_size_of : forall L l, agree veq L -> incl l L -> map (size_of L) (N l) = map pn l.
Proof.
  intros L l HA Hl. rewrite map_map. apply map_ext_in. intros p Hp. apply size_of_spec; auto.
Qed.

Lemma unwrap_hook_id : forall (ps : list plate) a,
  (forall p, In p ps -> on_unwrap_tensor anc_unwrap p a = Ok a) ->
  foldM (fun a p => on_unwrap_tensor anc_unwrap p a) ps a = Ok a.
Proof.
  induction ps as [|p ps IH]; simpl; intros a H; auto. rewrite H by auto. simpl. apply IH. auto.
Qed.

Lemma pad_self : forall ev, pad (length ev) ev = ev.
Proof. intros; unfold pad. rewrite Nat.sub_diag. simpl. apply app_nil_r. Qed.

Definition lb_tensor (o : wopts) (ed : nat) (a : stensor) : ten V :=
  if o_lbroadcast o && (s_event_dims a <? ed) then unsqueeze_right (ed - s_event_dims a) (st a) else st a.

Lemma valid_firstn_pad : forall ev ed e, valid e (pad ed ev) -> valid (firstn (length ev) e) ev.
Proof.
  intros ev ed e H. unfold pad in H. apply valid_app_inv in H. destruct H as [i1 [i2 [-> [H1 H2]]]].
  rewrite <- (valid_length _ _ H1). now rewrite firstn_app_exact.
Qed.

Lemma unwrap_core : forall ps o ed a L,
  o_align o = true -> o_lbroadcast o = true ->
  agree veq L -> incl ps L -> incl (splates a) L -> wf a ->
  NoDup (N ps) -> (forall p, In p ps -> 1 < pn p) ->
  (forall p, In p (wide (splates a)) -> In (pname p) (N ps)) ->
  (forall p, In p ps -> on_unwrap_tensor anc_unwrap p a = Ok a) ->
  s_event_dims a <= ed ->
  exists t1 t2,
    align_loop veq ps 0 (multi_dim_plates a) (lb_tensor o ed a) = Ok t1 /\
    unsq_loop veq ps 0 (splates a) t1 [] = Ok (t2, map pn ps) /\
    shape t2 = map (fun p => if has (splates a) (pname p) then pn p else 1) ps ++ pad ed (s_event_shape a) /\
    (forall (s : assignment) (g : plate -> nat) e,
       length e = length (pad ed (s_event_shape a)) ->
       (forall p, In p ps -> has (splates a) (pname p) = true -> g p = s (pname p)) ->
       el t2 (map g ps ++ e) = den a s (firstn (s_event_dims a) e)).
Proof.
  intros ps o ed a L Hal Hlb HA Hps Hap Hwf NDps Hwide Hcov Hhook Hed.
  destruct Hwf as [ND Hpos Hsh Hd].
  unfold lb_tensor. rewrite Hlb. simpl.
  set (t0 := if s_event_dims a <? ed then unsqueeze_right (ed - s_event_dims a) (st a) else st a).
  assert (Hwa : incl (wide (splates a)) L).
  { intros p Hp. apply In_wide in Hp. apply Hap; tauto. }
  assert (Sh0 : shape t0 = map (size_of L) (N (wide (splates a))) ++ pad ed (s_event_shape a)).
  { rewrite map_size_of by auto. unfold t0, pad. fold (s_event_dims a). destruct (Nat.ltb_spec (s_event_dims a) ed).
    - simpl. rewrite Hsh. now rewrite <- app_assoc.
    - replace (ed - s_event_dims a) with 0 by lia. simpl. now rewrite app_nil_r. }
  assert (El0 : forall (s : assignment) e, length e = length (pad ed (s_event_shape a)) ->
             el t0 (map s (N (wide (splates a))) ++ e) = den a s (firstn (s_event_dims a) e)).
  { intros s e He. unfold den. rewrite map_map. unfold t0. destruct (Nat.ltb_spec (s_event_dims a) ed).
    - simpl. f_equal. unfold ndim. rewrite Hsh. rewrite app_length, map_length.
      rewrite firstn_app, map_length.
      rewrite firstn_all2 by (rewrite map_length; lia). f_equal. f_equal.
      unfold s_event_dims. lia.
    - f_equal. f_equal. rewrite firstn_all2; auto. rewrite He. unfold pad. rewrite app_length, repeat_length.
      fold (s_event_dims a). lia. }
  unfold multi_dim_plates. rewrite <- wide_mdp.
  destruct (align_loop_spec veq L ps 0 (wide (splates a)) t0) as [t1 [E1 [S1 X1]]]; auto.
  { apply NoDup_map_filter. exact ND. }
  { lia. }
  { intros x Hx. change (In x (N (wide (splates a)))) in Hx. rewrite in_map_iff in Hx.
    destruct Hx as [p [<- Hp]]. auto. }
  { unfold ndim. rewrite Sh0. rewrite app_length, !map_length. lia. }
  change (firstn 0 (N (wide (splates a)))) with (@nil string) in S1, X1. simpl in S1, X1.
  assert (EF : filter (fun x => mem x (N (wide (splates a)))) (N ps)
               = N (filter (fun p => has (splates a) (pname p)) ps)).
  { rewrite filter_map_comm. f_equal. apply filter_ext_in. intros p Hp. rewrite <- has_mem.
    apply (has_wide L); auto. }
  rewrite EF in S1, X1.
  specialize (S1 (size_of L) (pad ed (s_event_shape a)) Sh0).
  assert (Hfi : incl (filter (fun p => has (splates a) (pname p)) ps) L).
  { intros p Hp. apply filter_In in Hp. apply Hps; tauto. }
  rewrite map_size_of in S1 by auto.
  destruct (unsq_loop_spec L ps (splates a) t1 [] [] (@pn V) (pad ed (s_event_shape a))) as [t2 [E2 [S2 X2]]]; auto.
  simpl in E2, S2.
  exists t1, t2. split; [exact E1|]. split; [|split].
  - rewrite E2. f_equal. f_equal. apply map_ext. intros p. destruct (has (splates a) (pname p)); auto.
  - exact S2.
  - intros s g e He Hg. specialize (X2 [] g e eq_refl). simpl in X2. rewrite X2.
    rewrite <- El0 by exact He. rewrite <- X1. f_equal. f_equal. rewrite map_map. apply map_ext_in.
    intros p Hp. apply filter_In in Hp. apply Hg; tauto.
Qed.

Lemma skipn_map_app : forall {A} (f : A -> nat) (l : list A) m, skipn (length l) (map f l ++ m) = m.
Proof. intros. rewrite <- (map_length f l). apply skipn_app_exact. Qed.

Lemma pn_choice_expandable : forall (a : stensor) ps,
  Forall2 (fun x y => x = y \/ x = 1) (map (fun p : plate => if has (splates a) (pname p) then pn p else 1) ps) (map pn ps).
Proof. induction ps; simpl; constructor; auto. destruct (has _ _); auto. Qed.

Lemma Forall2_app_refl : forall (a b c : list nat), Forall2 (fun x y => x = y \/ x = 1) a b ->
  Forall2 (fun x y => x = y \/ x = 1) (a ++ c) (b ++ c).
Proof.
  intros. apply Forall2_app; auto. induction c; constructor; auto.
Qed.

Lemma clip_choice : forall (a : stensor) (s : assignment) ps,
  (forall p, In p ps -> 1 < pn p) ->
  zip_clip (map (fun p : plate => if has (splates a) (pname p) then pn p else 1) ps) (map (fun p => s (pname p)) ps)
  = map (fun p => if has (splates a) (pname p) then s (pname p) else 0) ps.
Proof.
  intros a s ps H. induction ps as [|p ps IH]; simpl; auto. rewrite IH by (intros; apply H; simpl; auto). f_equal.
  specialize (H p (or_introl eq_refl)). destruct (has (splates a) (pname p)); simpl; auto.
  destruct (Nat.eqb_spec (pn p) 1); lia.
Qed.

Lemma in_range_valid : forall (s : assignment) (ps : list plate), in_range s ps ->
  valid (map (fun p => s (pname p)) ps) (map pn ps).
Proof.
  intros s ps H. induction ps as [|p ps IH]; simpl; constructor.
  - apply H; simpl; auto.
  - apply IH. intros q Hq. apply H; simpl; auto.
Qed.

Lemma lprod_pad : forall m ev, lprod (pad m ev) = lprod ev.
Proof.
  intros. unfold pad. rewrite lprod_app. replace (lprod (repeat 1 (m - length ev))) with 1; [lia|].
  induction (m - length ev); simpl; auto. now rewrite <- IHn.
Qed.

Lemma unwrap_tensor_spec : forall ps o ed a L,
  o_align o = true -> o_lbroadcast o = true -> o_flatten o = false ->
  agree veq L -> incl ps L -> incl (splates a) L -> wf a ->
  NoDup (N ps) -> (forall p, In p ps -> 1 < pn p) ->
  (forall p, In p (wide (splates a)) -> In (pname p) (N ps)) ->
  (forall p, In p ps -> on_unwrap_tensor anc_unwrap p a = Ok a) ->
  s_event_dims a <= ed ->
  exists u, unwrap_tensor veq anc_unwrap ps o ed a = Ok u /\ laid_out ps (o_expand o) ed a u.
Proof.
  intros ps o ed a L Hal Hlb Hfl HA Hps Hap Hwf NDps Hwide Hcov Hhook Hed.
  destruct (unwrap_core ps o ed a L) as [t1 [t2 [E1 [E2 [S2 X2]]]]]; auto.
  unfold unwrap_tensor. rewrite Hal. simpl. rewrite unwrap_hook_id by auto. cbn [bind].
  fold (lb_tensor o ed a). rewrite E1. cbn [bind]. rewrite E2. cbn [bind]. rewrite Hfl, orb_false_r.
  rewrite map_length.
  assert (Esk : skipn (length ps) (shape t2) = pad ed (s_event_shape a)).
  { rewrite S2. apply skipn_map_app. }
  rewrite Esk.
  destruct (o_expand o) eqn:Hex.
  - unfold expand. rewrite expandable_Forall2.
    2:{ rewrite S2. apply Forall2_app_refl. apply pn_choice_expandable. }
    cbn [bind]. eexists. split; [reflexivity|]. split; simpl.
    + f_equal. apply map_ext. intros p. now rewrite orb_true_r.
    + intros s e Hr He.
      assert (Le : length e = length (pad ed (s_event_shape a))) by now apply valid_length.
      rewrite bidx_same.
      2:{ rewrite S2. rewrite !app_length, !map_length. lia. }
      rewrite S2. rewrite zip_clip_app by now rewrite !map_length.
      rewrite (zip_clip_valid _ e) by auto.
      replace (map (fun p : plate => if has (splates a) (pname p) || true then s (pname p) else 0) ps)
        with (map (fun p : plate => s (pname p)) ps)
        by (apply map_ext; intros p; now rewrite orb_true_r).
      rewrite clip_choice by auto. apply X2; auto. intros p Hp ->. reflexivity.
  - cbn [bind]. eexists. split; [reflexivity|]. split.
    + rewrite S2. f_equal. apply map_ext. intros p. now rewrite orb_false_r.
    + intros s e Hr He. apply X2; [now apply valid_length|]. intros p Hp ->. reflexivity.
Qed.

Lemma unwrap_tensor_flat : forall ps o ed a L,
  o_align o = true -> o_lbroadcast o = true -> o_flatten o = true ->
  agree veq L -> incl ps L -> incl (splates a) L -> wf a ->
  NoDup (N ps) -> (forall p, In p ps -> 1 < pn p) ->
  (forall p, In p (wide (splates a)) -> In (pname p) (N ps)) ->
  (forall p, In p ps -> on_unwrap_tensor anc_unwrap p a = Ok a) ->
  s_event_dims a <= ed ->
  0 < lprod (s_event_shape a) ->
  exists u, unwrap_tensor veq anc_unwrap ps o ed a = Ok u /\ laid_out_flat ps ed a u.
Proof.
  intros ps o ed a L Hal Hlb Hfl HA Hps Hap Hwf NDps Hwide Hcov Hhook Hed Hnz.
  destruct (unwrap_core ps o ed a L) as [t1 [t2 [E1 [E2 [S2 X2]]]]]; auto.
  unfold unwrap_tensor. rewrite Hal. simpl. rewrite unwrap_hook_id by auto. cbn [bind].
  fold (lb_tensor o ed a). rewrite E1. cbn [bind]. rewrite E2. cbn [bind]. rewrite Hfl, orb_true_r.
  rewrite map_length.
  assert (Esk : skipn (length ps) (shape t2) = pad ed (s_event_shape a)).
  { rewrite S2. apply skipn_map_app. }
  rewrite Esk. unfold expand. rewrite expandable_Forall2.
  2:{ rewrite S2. apply Forall2_app_refl. apply pn_choice_expandable. }
  cbn [bind]. cbn [shape]. rewrite skipn_map_app.
  unfold reshape_infer. cbn [shape]. rewrite lprod_pad.
  destruct (Nat.eqb_spec (lprod (s_event_shape a)) 0); [lia|].
  rewrite lprod_app, lprod_pad. rewrite Nat.mod_mul by lia. simpl (0 =? 0). cbn [Nat.eqb].
  rewrite Nat.div_mul by lia.
  unfold reshape. cbn [lprod fold_right shape]. fold (lprod (pad ed (s_event_shape a))).
  rewrite lprod_app, lprod_pad. rewrite Nat.eqb_refl.
  eexists. split; [reflexivity|]. split; [reflexivity|].
  intros s e Hr He. cbn [el shape].
  assert (Le : length e = length (pad ed (s_event_shape a))) by now apply valid_length.
  assert (Hv : valid (map (fun p : plate => s (pname p)) ps ++ e) (map pn ps ++ pad ed (s_event_shape a))).
  { apply valid_app; auto. now apply in_range_valid. }
  cbn [ravel].
  replace (ravel (map pn ps) (map (fun p : plate => s (pname p)) ps) * lprod (pad ed (s_event_shape a))
           + ravel (pad ed (s_event_shape a)) e)
    with (ravel (map pn ps ++ pad ed (s_event_shape a)) (map (fun p : plate => s (pname p)) ps ++ e))
    by (apply ravel_app; now rewrite !map_length).
  rewrite unravel_ravel by exact Hv.
  rewrite bidx_same.
  2:{ rewrite S2. rewrite !app_length, !map_length. lia. }
  rewrite S2. rewrite zip_clip_app by now rewrite !map_length.
  rewrite (zip_clip_valid _ e) by auto.
  rewrite clip_choice by auto. apply X2; auto. intros p Hp ->. reflexivity.
Qed.

End AlignProofs.
