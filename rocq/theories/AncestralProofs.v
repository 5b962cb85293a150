(** Unwrapping a tensor for plates that are compared by name only. *)
From Coq Require Import String List Arith Bool Lia Permutation.
From Verif Require Import Base Torch Plates Wrap Ancestral ListLemmas IndexLemmas SpecTensor SpecWrap WrapProofs AlignProofs
  PlateEqProofs OpProofs.
Import ListNotations.

#[local] Arguments skipn {A} !n !l : simpl nomatch.
#[local] Arguments firstn {A} !n !l : simpl nomatch.

Section Unwrap.
Context {V : Type}.
Variable veq : V -> V -> bool.
Notation plate := (plate V).
Notation stensor := (stensor V).
Notation N l := (map (@pname V) l).

Lemma pin_map : forall (p p' : plate) (f : plate -> plate) l, (forall r, In r l -> peq veq r p = peq veq (f r) p') ->
  pin veq p l = pin veq p' (map f l).
Proof.
  intros p p' f l H. unfold pin, inb. induction l as [|r l IH]; simpl; auto. rewrite H by (simpl; auto).
  rewrite IH; auto. intros; apply H; simpl; auto.
Qed.

Lemma pindex_map : forall (p p' : plate) (f : plate -> plate) l, (forall r, In r l -> peq veq r p = peq veq (f r) p') ->
  pindex veq p l = pindex veq p' (map f l).
Proof.
  intros p p' f l H. unfold pindex. induction l as [|r l IH]; simpl; auto. rewrite H by (simpl; auto).
  rewrite IH; auto. intros; apply H; simpl; auto.
Qed.

Lemma align_cong : forall (f g : plate -> plate) ps k links (t : ten V),
  (forall p r, In p ps -> In r links -> peq veq p r = peq veq (g p) (f r) /\ peq veq r p = peq veq (f r) (g p)) ->
  align_loop veq ps k links t = align_loop veq (map g ps) k (map f links) t.
Proof.
  induction ps as [|p ps IH]; intros k links t H; [reflexivity|]. simpl.
  rewrite (pin_map p (g p) f links) by (intros; apply H; simpl; auto).
  destruct (pin veq (g p) (map f links)) eqn:E; [|apply IH; intros; apply H; simpl; auto].
  rewrite nth_error_map. destruct (nth_error links k) as [q|] eqn:Eq; [|reflexivity]. simpl.
  destruct (H p q) as [Hpq _]; [simpl; auto|eapply nth_error_In; eauto|]. rewrite Hpq.
  destruct (peq veq (g p) (f q)); [apply IH; intros; apply H; simpl; auto|].
  rewrite (pindex_map p (g p) f links) by (intros; apply H; simpl; auto).
  destruct (pindex veq (g p) (map f links)) as [j|]; [|reflexivity].
  destruct (transpose j k t) as [t'|]; [|reflexivity]. cbn [bind]. rewrite <- map_swapl. apply IH.
  intros p' r Hp Hr. apply H; simpl; auto. eapply Permutation_in; [apply swapl_perm|eauto].
Qed.

Lemma unsq_cong : forall (f g : plate -> plate) l ps i (t : ten V) dims,
  (forall p r, In p ps -> In r l -> peq veq p r = peq veq (g p) (f r) /\ peq veq r p = peq veq (f r) (g p)) ->
  (forall p, In p ps -> pin veq p l = false -> pn p = pn (g p)) ->
  unsq_loop veq ps i l t dims = unsq_loop veq (map g ps) i (map f l) t dims.
Proof.
  induction ps as [|p ps IH]; intros i t dims H Hn; [reflexivity|]. simpl.
  rewrite <- (pin_map p (g p) f l) by (intros; apply H; simpl; auto).
  destruct (pin veq p l) eqn:E.
  - destruct (nth_error (shape t) i); [|reflexivity]. apply IH; [intros; apply H|intros; apply Hn]; simpl; auto.
  - destruct (unsqueeze i t) as [t'|]; [|reflexivity]. cbn [bind]. rewrite <- (Hn p) by (simpl; auto).
    apply IH; [intros; apply H|intros; apply Hn]; simpl; auto.
Qed.

(** The number of samples a tensor has for a plate, which is the plate's own if the tensor lacks it. *)
Definition sz (a : stensor) (p : plate) : nat :=
  match find (fun r => String.eqb (pname r) (pname p)) (splates a) with Some r => pn r | None => pn p end.

Lemma sz_has : forall a p r, NoDup (N (splates a)) -> In r (splates a) -> pname r = pname p -> sz a p = pn r.
Proof.
  intros a p r ND Hr En. unfold sz. destruct (find _ (splates a)) as [q|] eqn:E.
  - apply find_some in E. destruct E as [Hq Eq]. apply String.eqb_eq in Eq. f_equal.
    apply (NoDup_map_inj (@pname V) (splates a)); auto. congruence.
  - exfalso. apply (find_none _ _ E) in Hr. rewrite En, String.eqb_refl in Hr. discriminate.
Qed.

Lemma sz_lacks : forall a p, ~ In (pname p) (N (splates a)) -> sz a p = pn p.
Proof.
  intros a p H. unfold sz. destruct (find _ (splates a)) as [q|] eqn:E; auto. exfalso. apply H.
  apply find_some in E. destruct E as [Hq Eq]. apply String.eqb_eq in Eq. rewrite <- Eq. now apply in_map.
Qed.

Definition flat (a : stensor) (n : plate -> nat) (p : plate) : plate := mkPlate PlainPlate (pname p) (n p) (WTorch (st a)) [].
Definition flat_tensor (a : stensor) : stensor :=
  mkS (sid a) (st a) (map (flat a (@pn V)) (splates a)) (s_plate_dims a) (s_event_shape a) (sparents a) (s_stochastic a).

Lemma N_flat : forall a n l, N (map (flat a n) l) = N l.
Proof. intros. rewrite map_map. apply map_ext. reflexivity. Qed.
Lemma wide_flat : forall a l, wide (map (flat a (@pn V)) l) = map (flat a (@pn V)) (wide l).
Proof. intros. unfold wide. rewrite filter_map_comm. reflexivity. Qed.

Lemma peq_flat : forall a n m p r, peq veq (flat a n p) (flat a m r) = String.eqb (pname p) (pname r) && (n p =? m r).
Proof.
  intros. unfold peq, flat, plate_eq_base. simpl. destruct (String.eqb (pname p) (pname r)); simpl; auto.
  destruct (n p =? m r); auto.
Qed.

(** By name: the plates [ps] are found among those of [a] by their names. *)
Definition by_name (ps : list plate) (a : stensor) : Prop :=
  forall p r, In p ps -> In r (splates a) ->
    peq veq p r = String.eqb (pname p) (pname r) /\ peq veq r p = String.eqb (pname r) (pname p).

Lemma unwrap_gen : forall hook ps o ed a a',
  o_align o = true -> o_lbroadcast o = true -> o_flatten o = false -> o_expand o = true ->
  foldM (fun a p => on_unwrap_tensor hook p a) ps a = Ok a' ->
  wf a' -> NoDup (N ps) -> (forall p, In p ps -> 1 < pn p) ->
  (forall r, In r (wide (splates a')) -> In (pname r) (N ps)) ->
  by_name ps a' ->
  (forall p r, In p ps -> In r (splates a') -> pname p = pname r -> 1 < pn r) ->
  s_event_dims a' <= ed ->
  exists u, unwrap_tensor veq hook ps o ed a = Ok u /\
    shape u = map (sz a') ps ++ pad ed (s_event_shape a') /\
    forall (s : assignment) e, (forall p, In p ps -> s (pname p) < sz a' p) -> valid e (pad ed (s_event_shape a')) ->
      el u (map (fun p => s (pname p)) ps ++ e) = den a' s (firstn (s_event_dims a') e).
Proof.
  intros hook ps o ed a a' Hal Hlb Hfl Hex Hh Hwf NDps Hps Hcov Hbn Hw Hed.
  pose proof (wf_names a' Hwf) as NDa.
  set (ps' := map (flat a' (sz a')) ps). set (af := flat_tensor a').
  assert (NDps' : NoDup (N ps')) by (unfold ps'; rewrite N_flat; exact NDps).
  assert (Hps' : forall p, In p ps' -> 1 < pn p).
  { intros p Hp. unfold ps' in Hp. apply in_map_iff in Hp. destruct Hp as [q [<- Hq]]. simpl.
    unfold sz. destruct (find _ (splates a')) as [r|] eqn:E; [|auto].
    apply find_some in E. destruct E as [Hr Er]. apply String.eqb_eq in Er. apply (Hw q r); auto. }
  assert (Hpair : forall p r, In p ps -> In r (splates a') -> pname p = pname r -> sz a' p = pn r).
  { intros p r Hp Hr En. apply sz_has; auto. }
  set (L := ps' ++ splates af).
  assert (HL : agree veq L).
  { assert (Hn : forall p r, In p L -> In r L -> pname p = pname r -> pn p = pn r).
    { unfold L, af, ps'. simpl. intros p r Hp Hr En. rewrite in_app_iff, !in_map_iff in Hp, Hr.
      destruct Hp as [[p0 [<- Hp0]]|[p0 [<- Hp0]]]; destruct Hr as [[r0 [<- Hr0]]|[r0 [<- Hr0]]]; simpl in *.
      - f_equal. apply (NoDup_map_inj (@pname V) ps); auto.
      - apply Hpair; auto.
      - symmetry. apply Hpair; auto.
      - f_equal. apply (NoDup_map_inj (@pname V) (splates a')); auto. }
    intros p r Hp Hr En. split; [|auto].
    assert (Hf : forall p, In p L -> exists n p0, p = flat a' n p0).
    { unfold L, af, ps'. simpl. intros p0 H0. rewrite in_app_iff, !in_map_iff in H0.
      destruct H0 as [[x [<- _]]|[x [<- _]]]; eauto. }
    pose proof (Hn p r Hp Hr En) as En2.
    destruct (Hf p Hp) as [n1 [p1 ->]]. destruct (Hf r Hr) as [n2 [r1 ->]]. rewrite peq_flat. simpl in *.
    rewrite En, String.eqb_refl. simpl. now apply Nat.eqb_eq. }
  destruct (unwrap_tensor_spec veq (fun _ x => Ok x) ps' o ed af L) as [u [Eu [Su Xu]]]; auto.
  - unfold L. intros p Hp. apply in_or_app; auto.
  - unfold L. intros p Hp. apply in_or_app; auto.
  - constructor; unfold af; simpl.
    + rewrite N_flat. exact NDa.
    + intros p Hp. apply in_map_iff in Hp. destruct Hp as [q [<- Hq]]. simpl. apply (wf_pos a' Hwf); auto.
    + rewrite wide_flat, map_map. apply (wf_shape a' Hwf).
    + rewrite wide_flat, map_length. apply (wf_dims a' Hwf).
  - intros r Hr. unfold af in Hr. simpl in Hr. rewrite wide_flat in Hr. apply in_map_iff in Hr.
    destruct Hr as [q [<- Hq]]. unfold ps'. rewrite N_flat. simpl. auto.
  - intros p Hp. unfold on_unwrap_tensor. destruct (pcls p); reflexivity.
  - assert (Heq : forall p r, In p ps -> In r (splates a') ->
       peq veq p r = peq veq (flat a' (sz a') p) (flat a' (@pn V) r) /\
       peq veq r p = peq veq (flat a' (@pn V) r) (flat a' (sz a') p)).
    { intros p r Hp Hr. rewrite !peq_flat. destruct (Hbn p r Hp Hr) as [-> ->].
      rewrite (String.eqb_sym (pname r)). destruct (String.eqb_spec (pname p) (pname r)) as [En|]; simpl; auto.
      rewrite (Hpair p r) by auto. now rewrite Nat.eqb_refl. }
    exists u. split; [|split].
    + rewrite <- Eu. unfold unwrap_tensor. rewrite Hal. simpl. rewrite Hh. cbn [bind].
      assert (Hid : foldM (fun a p => on_unwrap_tensor (fun _ x => Ok x) p a) ps' af = Ok af).
      { apply unwrap_hook_id. intros p Hp. unfold on_unwrap_tensor. destruct (pcls p); reflexivity. }
      rewrite Hid. cbn [bind].
      replace (multi_dim_plates af) with (map (flat a' (@pn V)) (multi_dim_plates a')).
      2:{ unfold multi_dim_plates, af. simpl. rewrite <- !wide_mdp. symmetry. apply wide_flat. }
      change (s_event_dims af) with (s_event_dims a'). change (st af) with (st a').
      unfold ps'. rewrite <- align_cong.
      2:{ intros p r Hp Hr. apply Heq; auto. unfold multi_dim_plates in Hr. rewrite <- wide_mdp in Hr.
          apply In_wide in Hr. tauto. }
      destruct (align_loop veq ps 0 (multi_dim_plates a') _) as [t1|]; [|reflexivity]. cbn [bind].
      change (splates af) with (map (flat a' (@pn V)) (splates a')).
      rewrite <- unsq_cong; auto.
      intros p Hp Hn. simpl. symmetry. apply sz_lacks. intros Hi. apply in_map_iff in Hi. destruct Hi as [r [En Hr]].
      assert (Hpin : pin veq p (splates a') = true).
      { unfold pin. apply inb_spec. exists r. split; auto. destruct (Hbn p r Hp Hr) as [_ ->]. now apply String.eqb_eq. }
      congruence.
    + rewrite Su. rewrite Hex. unfold ps'. rewrite map_map. f_equal. apply map_ext. intros p. now rewrite orb_true_r.
    + intros s e Hr He. specialize (Xu s e). rewrite Hex in Xu. unfold ps' in Xu. rewrite map_map in Xu. simpl in Xu.
      replace (map (fun x : plate => if has (map (flat a' (@pn V)) (splates a')) (pname x) || true then s (pname x) else 0) ps)
        with (map (fun p : plate => s (pname p)) ps) in Xu by (apply map_ext; intros; now rewrite orb_true_r).
      rewrite Xu; auto.
      * unfold den, af. simpl. rewrite wide_flat, map_map. reflexivity.
      * intros p Hp. apply in_map_iff in Hp. destruct Hp as [q [<- Hq]]. simpl. auto.
Qed.

End Unwrap.
