(** Plate.reduce and reduce_plates. *)
From Coq Require Import String List Arith Bool ZArith Lia Permutation Ring.
From Verif Require Import Base Torch Plates Wrap OrderPlates Scalar Reduce ListLemmas IndexLemmas SpecTensor SpecWrap SpecOrder SpecReduce
  WrapProofs AlignProofs CallProofs CallProofs2 OpProofs OrderProofs ReduceProofs.
Import ListNotations.

#[local] Arguments skipn {A} !n !l : simpl nomatch.
#[local] Arguments firstn {A} !n !l : simpl nomatch.

Section Reduce2.
Context {V : Type}.
Variable veq : V -> V -> bool.
Variable anc_unwrap : plate V -> stensor V -> res (stensor V).
Variable o : sops V.
Hypothesis Hring : is_ring o.
Notation plate := (plate V).
Notation stensor := (stensor V).
Notation N l := (map (@pname V) l).
Let Hring' : ring_theory (o_zero o) (o_one o) (o_add o) (o_mul o) (o_sub o) (o_opp o) (@eq V) := Hring.
Add Ring o_ring : Hring'.

Definition without (x : string) (l : list plate) : list plate := filter (fun q => negb (String.eqb (pname q) x)) l.

Lemma without_names : forall x l y, In y (N (without x l)) <-> In y (N l) /\ y <> x.
Proof.
  intros x l y. unfold without. rewrite !in_map_iff. split.
  - intros [q [<- Hq]]. apply filter_In in Hq. destruct Hq as [Hq Hn]. apply negb_true_iff in Hn. apply String.eqb_neq in Hn.
    split; eauto.
  - intros [[q [<- Hq]] Hn]. exists q. split; auto. apply filter_In. split; auto. apply negb_true_iff. now apply String.eqb_neq.
Qed.

(** Meaning does not depend on the choice for absent or singleton plates. *)
Lemma den_ext : forall (a : stensor) (s s' : assignment) e, (forall p, In p (wide (splates a)) -> s (pname p) = s' (pname p)) ->
  den a s e = den a s' e.
Proof. intros a s s' e H. unfold den. f_equal. f_equal. apply map_ext_in. auto. Qed.

Lemma osum_ext : forall {A} (f g : A -> V) l, (forall x, In x l -> f x = g x) -> osum o (map f l) = osum o (map g l).
Proof. intros A f g l H. f_equal. now apply map_ext_in. Qed.
Lemma osum_mul_r : forall {A} (f : A -> V) w l, o_mul o (osum o (map f l)) w = osum o (map (fun i => o_mul o (f i) w) l).
Proof. intros A f w. unfold osum. induction l as [|x l IH]; simpl; [ring|]. rewrite <- IH. ring. Qed.
Lemma osum_mul_l : forall {A} (f : A -> V) w l, o_mul o w (osum o (map f l)) = osum o (map (fun i => o_mul o w (f i)) l).
Proof. intros A f w. unfold osum. induction l as [|x l IH]; simpl; [ring|]. rewrite <- IH. ring. Qed.
Lemma osum_add : forall {A} (f g : A -> V) l, osum o (map (fun i => o_add o (f i) (g i)) l) = o_add o (osum o (map f l)) (osum o (map g l)).
Proof. intros A f g. unfold osum. induction l as [|x l IH]; simpl; [ring|]. rewrite IH. ring. Qed.
Lemma osum_zero : forall {A} (l : list A), osum o (map (fun _ => o_zero o) l) = o_zero o.
Proof. intros A. unfold osum. induction l as [|x l IH]; simpl; [ring|]. rewrite IH. ring. Qed.
Lemma osum_cons : forall x l, osum o (x :: l) = o_add o x (osum o l).
Proof. reflexivity. Qed.
Lemma osum_swap : forall {A B} (f : A -> B -> V) l m,
  osum o (map (fun i => osum o (map (fun j => f i j) m)) l) = osum o (map (fun j => osum o (map (fun i => f i j) l)) m).
Proof.
  intros A B f. induction l as [|x l IH]; intros m.
  - change (o_zero o = osum o (map (fun _ : B => o_zero o) m)). now rewrite osum_zero.
  - simpl map at 1. rewrite osum_cons, IH, <- osum_add. apply osum_ext. intros j _. reflexivity.
Qed.

(** Sum over one plate. *)
Lemma named_one : forall n x, named [inl n] x = String.eqb n x.
Proof. intros n x. unfold named. simpl. now rewrite orb_false_r. Qed.

Lemma filter_unique : forall (l : list plate) p, NoDup (N l) -> In p l -> filter (fun q => String.eqb (pname p) (pname q)) l = [p].
Proof.
  induction l as [|q l IH]; intros p ND Hp; [destruct Hp|]. simpl in ND. inversion ND as [|? ? Hn ND']; subst. simpl.
  destruct Hp as [->|Hp].
  - rewrite String.eqb_refl. f_equal. clear -Hn. induction l as [|x l IH]; simpl; auto. simpl in Hn.
    destruct (String.eqb_spec (pname p) (pname x)) as [e|]; [exfalso; apply Hn; left; congruence|]. apply IH. tauto.
  - destruct (String.eqb_spec (pname p) (pname q)) as [e|].
    + exfalso. apply Hn. rewrite <- e. now apply in_map.
    + now apply IH.
Qed.

Lemma fill_none : forall m k, length k = length m -> (forall x, In x m -> x = false) -> fill m k [] = k.
Proof.
  induction m as [|x m IH]; intros [|y k] Hl H; simpl in *; try discriminate; auto.
  rewrite (H x) by auto. f_equal. apply IH; auto.
Qed.

Lemma st_sum_plate : forall a p base, callable veq [a] -> In p (splates a) -> 1 < pn p ->
  exists r, st_sum veq anc_unwrap o top_ctx a [DPlate (pname p)] base = Ok (PT r) /\
    splates r = without (pname p) (splates a) /\ s_event_shape r = s_event_shape a /\ wf r /\ s_stochastic r = false /\
    forall s e, in_range s (splates r) -> valid e (s_event_shape a) ->
      den r s e = osum o (map (fun i => den a (set_to s (pname p) i) e) (seq 0 (pn p))).
Proof.
  intros a p base HC Hp Hn.
  assert (Hw : wf a) by (destruct HC as [H _]; inversion H; auto).
  destruct (reduce_with_spec veq anc_unwrap (osum o) a [DPlate (pname p)] [inl (pname p)] base HC) as [r [E [P [Ev [Wr [Pa [St D]]]]]]].
  - repeat constructor; auto.
  - repeat constructor. simpl. tauto.
  - discriminate.
  - exists r. unfold st_sum. refine (conj E _).
    assert (Hm : forall x, In x (event_mask a [inl (pname p)]) -> x = false).
    { intros x Hx. unfold event_mask in Hx. apply in_map_iff in Hx. destruct Hx as [j [<- _]]. reflexivity. }
    assert (Lm : length (event_mask a [inl (pname p)]) = length (s_event_shape a)).
    { unfold event_mask. rewrite map_length, seq_length. reflexivity. }
    assert (Hpf : pick false (event_mask a [inl (pname p)]) (s_event_shape a) = s_event_shape a).
    { rewrite <- select_pick. apply select_all; auto. }
    assert (Hpt : pick true (event_mask a [inl (pname p)]) (s_event_shape a) = []).
    { rewrite <- select_pick. apply select_none; auto. }
    rewrite Hpf in Ev.
    assert (EP : splates r = without (pname p) (splates a)).
    { rewrite P. apply filter_ext. intros q. rewrite named_one. now rewrite String.eqb_sym. }
    refine (conj EP (conj Ev (conj Wr (conj St _)))).
    intros s e Hs He. rewrite D by (auto; now rewrite Ev). unfold group.
    assert (Hrp : reduced_plates a [inl (pname p)] = [p]).
    { unfold reduced_plates. rewrite <- (filter_unique (wide (splates a)) p).
      - apply filter_ext. intros q. apply named_one.
      - apply NoDup_wide. apply (wf_names a Hw).
      - apply In_wide. auto. }
    assert (Hi : indices ([pn p] ++ []) = map (fun i => [i]) (seq 0 (pn p))).
    { simpl. clear. generalize (seq 0 (pn p)) as l. induction l as [|x l IH]; simpl; auto. }
    rewrite Hrp, Hpt. change (map pn [p]) with [pn p]. rewrite Hi.
    rewrite map_map. apply osum_ext. intros i _. simpl. f_equal.
    apply fill_none; auto. apply valid_length in He. congruence.
Qed.

(** A storch tensor and a raw tensor that broadcasts to its shape. *)
Lemma op2_raw : forall f (u : ten V) a base, callable veq [a] -> bshape (shape (st a)) (shape u) = Some (shape (st a)) ->
  exists r, torch_op2 veq anc_unwrap top_ctx f (PT a) (PRaw u) base = Ok (PT r) /\
    splates r = splates a /\ s_event_shape r = s_event_shape a /\ wf r /\ s_stochastic r = false /\
    forall s e, in_range s (splates a) -> valid e (s_event_shape a) ->
      den r s e = f (den a s e) (el u (bidx (shape u) (map (fun p => s (pname p)) (wide (splates a)) ++ e))).
Proof.
  intros f u a base HC HB.
  assert (Hw : wf a) by (destruct HC as [H _]; inversion H; auto).
  destruct (prepare_args_laid_out veq anc_unwrap [PT a; PRaw u] [] default_opts [a]) as [args' [kwargs' [E [F1 F2]]]]; auto.
  { repeat constructor. }
  rewrite all_plates_single in *. change (max_event [a]) with (Nat.max 0 (s_event_dims a)) in F1. simpl Nat.max in F1.
  inversion F1 as [|? x1 ? r1 U1 F1']; subst. inversion F1' as [|? x2 ? r2 U2 F1'']; subst. inversion F1''; subst. inversion F2; subst.
  inversion U2; subst. inversion U1 as [? u1 L1| | | | | | | |]; subst.
  destruct (laid_out_self _ _ _ Hw L1) as [Hs X].
  unfold torch_op2, handle_deterministic. cbn [top_ctx c_stochastic]. rewrite E. cbn [bind c_ignore torch_fn2].
  unfold elementwise2. rewrite <- Hs, HB. cbn [bind]. rewrite filter_none. cbn [prepare_outputs default_opts o_flatten bind].
  match goal with |- context [mk_tensor ?i ?t ?q ?l ?b] =>
    destruct (mk_tensor_good i t q l b (s_event_shape a)) as [r [Hr [G1 [G2 [G3 [G4 [G5 [G6 G7]]]]]]]] end.
  { apply (wf_names a Hw). } { apply (wf_pos a Hw). } { simpl. apply (wf_shape a Hw). }
  rewrite Hr. cbn [bind]. exists r.
  refine (conj eq_refl (conj G3 (conj G6 (conj G7 (conj G5 _))))).
  intros s e Hsr He. unfold den at 1. rewrite G2, G3. simpl el.
  assert (Hv : valid (map (fun p => s (pname p)) (wide (splates a)) ++ e) (shape (st a))).
  { rewrite (wf_shape a Hw). apply valid_app; auto. exact (in_range_valid s _ (in_range_wide anc_unwrap s _ Hsr)). }
  rewrite bidx_valid by congruence. f_equal. unfold den. symmetry. apply X. exact Hv.
Qed.

(** Tensors over sound plates can be combined. *)
Lemma sound_callable : forall (L : list plate) (ts : list stensor), sound veq L -> Forall wf ts -> (forall t p, In t ts -> In p (splates t) -> ancestry L p) ->
  callable veq ts.
Proof.
  intros L ts HS HW HA.
  assert (A : forall p, In p (flat_map splates ts) -> ancestry L p).
  { intros p Hp. apply in_flat_map in Hp. destruct Hp as [t [Ht Hp]]. eapply HA; eauto. }
  refine (conj HW (conj _ _)).
  - intros p q Hp Hq E. split; [apply (proj2 (proj2 (so_orderable _ _ HS)))|apply (so_size _ _ HS)]; auto.
  - intros p Hp. apply (so_plain _ _ HS). auto.
Qed.

Lemma ancestry_sub : forall (L M : list plate) p, incl M L -> ancestry M p -> ancestry L p.
Proof. intros L M p Hi [H|[q [Hq H]]]; [left|right; exists q]; auto. Qed.
Lemma sound_sub : forall (L M : list plate), sound veq L -> incl M L -> NoDup (N M) -> sound veq M.
Proof.
  intros L M HS Hi ND. destruct (so_orderable _ _ HS) as [A [B C]].
  constructor.
  - split; [exact ND|split; auto]. intros p q Hp Hq. apply C; eapply ancestry_sub; eauto.
  - intros p q Hp Hq. apply (so_size _ _ HS); eapply ancestry_sub; eauto.
  - intros p Hp. apply (so_plain _ _ HS). eapply ancestry_sub; eauto.
  - intros p Hp. apply (so_pos _ _ HS). eapply ancestry_sub; eauto.
Qed.

Lemma size_in_spec : forall (L : list plate) p, sound veq L -> In (pname p) (N L) -> ancestry L p -> size_in L (pname p) = pn p.
Proof.
  intros L p HS Hn Hp. unfold size_in. destruct (find (fun q => String.eqb (pname q) (pname p)) L) as [q|] eqn:E.
  - apply find_some in E. destruct E as [Hq E]. apply String.eqb_eq in E. apply (so_size _ _ HS); auto. now left.
  - exfalso. apply in_map_iff in Hn. destruct Hn as [q [Eq Hq]]. pose proof (find_none _ _ E q Hq) as C. simpl in C.
    rewrite Eq, String.eqb_refl in C. discriminate.
Qed.

(** The weight of a plate as a tensor. *)
Lemma find_plate_spec : forall x (l : list plate), In x (N l) -> exists q, find_plate x l = Ok q /\ In q l /\ pname q = x.
Proof.
  intros x. induction l as [|p l IH]; intros H; [destruct H|]. simpl.
  destruct (String.eqb_spec (pname p) x) as [e|n].
  - exists p. simpl; auto.
  - destruct H as [C|H]; [congruence|]. destruct (IH H) as [q [A [B C]]]. exists q. simpl; auto.
Qed.

Definition wval (detach : bool) (v : V) : V := if detach then o_det o v else v.

Lemma storch_weight : forall L p detach base obj w names, sound veq L -> In p L -> pweight p = WStorch obj w names -> weight_fits L p ->
  exists t, detached_weight veq anc_unwrap o top_ctx p detach base = Ok (PT t) /\ wf t /\ s_event_shape t = [] /\
    (forall q, In q (splates t) -> ancestry L q) /\
    N (splates t) = names /\ N (wide (splates t)) = wide_names L names /\
    forall s, in_range s (splates t) -> den t s [] = wval detach (weight_at L p s).
Proof.
  intros L p detach base obj w names HS Hp Ew Hf. unfold weight_fits in Hf. rewrite Ew in Hf.
  destruct Hf as [Hn [ND [Hin [Hnames [Hpar Hsh]]]]].
  unfold detached_weight, weight_tensor. rewrite Ew.
  assert (HA : forall q, In q (p :: pparents p) -> ancestry L q).
  { intros q [<-|Hq]; [now left|]. right. exists p. split; auto. now constructor. }
  assert (HL : forall x, In x names -> In x (N L)).
  { intros x Hx. destruct (Hnames x Hx) as [->|H]; [now apply in_map|]. apply in_map_iff in H. destruct H as [q [<- Hq]]. auto. }
  assert (Hres : exists ps, mapM (fun nm => find_plate nm (p :: pparents p)) names = Ok ps /\ N ps = names /\ incl ps (p :: pparents p)).
  { clear -Hnames. induction names as [|x names IH]; [exists []; repeat split; auto; intros y []|].
    destruct IH as [ps [E [A B]]]; [intros y Hy; apply Hnames; simpl; auto|].
    destruct (find_plate_spec x (p :: pparents p)) as [q [E2 [Hq Eq]]].
    { destruct (Hnames x) as [->|H]; simpl; auto. }
    exists (q :: ps). cbn [mapM]. rewrite E2. cbn [bind]. rewrite E. cbn [bind]. split; auto. split; [simpl; congruence|].
    intros y [<-|Hy]; auto. }
  destruct Hres as [ps [E1 [E2 E3]]]. rewrite E1. cbn [bind].
  assert (Hwide : N (wide ps) = wide_names L names /\ map pn (wide ps) = map (size_in L) (wide_names L names)).
  { assert (G : forall l, incl l ps -> N (wide l) = wide_names L (N l) /\ map pn (wide l) = map (size_in L) (wide_names L (N l))).
    { induction l as [|q l IH]; intros Hi; simpl; auto.
      destruct IH as [A B]; [intros y Hy; apply Hi; simpl; auto|].
      assert (Hq : In q ps) by (apply Hi; simpl; auto).
      rewrite (size_in_spec L q HS); [|apply HL; rewrite <- E2; now apply in_map|apply HA; auto].
      destruct (1 <? pn q); simpl; [|auto]. rewrite (size_in_spec L q HS); [|apply HL; rewrite <- E2; now apply in_map|apply HA; auto].
      split; congruence. }
    destruct (G ps (incl_refl _)) as [A B]. rewrite E2 in A, B. auto. }
  destruct Hwide as [Hw1 Hw2].
  destruct (mk_tensor_good obj w [] ps false []) as [t [Hr [G1 [G2 [G3 [G4 [G5 [G6 G7]]]]]]]].
  { rewrite E2. exact ND. } { intros q Hq. apply (so_pos _ _ HS). apply HA. auto. } { rewrite app_nil_r, Hw2. exact Hsh. }
  rewrite Hr. cbn [bind].
  assert (HD : forall s, den t s [] = weight_at L p s).
  { intros s. unfold den, weight_at. rewrite Ew, G2, G3, app_nil_r, <- Hw1, map_map. reflexivity. }
  destruct detach.
  - destruct (op1_spec veq anc_unwrap (o_det o) t base) as [r [Q1 [Q2 [Q3 [Q4 [Q5 [Q6 [Q7 Q8]]]]]]]].
    { apply (sound_callable L); auto. intros t' q [<-|[]] Hq. rewrite G3 in Hq. apply HA. auto. }
    exists r. rewrite Q2, G3. rewrite Q3, G6. refine (conj Q1 (conj Q4 (conj eq_refl (conj _ (conj E2 (conj Hw1 _)))))).
    + intros q Hq. apply HA. auto.
    + intros s Hs. rewrite Q8; [now rewrite HD|now rewrite G3|rewrite G6; constructor].
  - exists t. rewrite G3. refine (conj eq_refl (conj G7 (conj G6 (conj _ (conj E2 (conj Hw1 _)))))).
    + intros q Hq. apply HA. auto.
    + intros s _. apply HD.
Qed.

Lemma union_sub : forall l m : list plate, (forall q, In q m -> In (pname q) (N l)) -> union l m = l.
Proof.
  intros l m H. unfold union. replace (filter (fun q => negb (has l (pname q))) m) with (@nil plate); [apply app_nil_r|].
  induction m as [|q m IH]; simpl; auto. replace (has l (pname q)) with true; simpl.
  - apply IH. intros; apply H; simpl; auto.
  - symmetry. apply has_In. apply H. simpl; auto.
Qed.

Lemma broadcasts_ones : forall l, broadcasts l (repeat 1 (length l)) l.
Proof. induction l; simpl; constructor; auto. Qed.
Lemma proj_ones : forall n e, length e = n -> proj (repeat 1 n) e = repeat 0 n.
Proof. induction n; intros [|x e] H; simpl in *; try discriminate; auto. f_equal. auto. Qed.
Lemma proj_app : forall a b e f, length e = length a -> proj (a ++ b) (e ++ f) = proj a e ++ proj b f.
Proof. induction a as [|x a IH]; intros b [|y e] f H; simpl in *; try discriminate; auto. f_equal. apply IH. auto. Qed.
Lemma proj_short : forall a e f, length e = length a -> proj a (e ++ f) = proj a e.
Proof. induction a as [|x a IH]; intros [|y e] f H; simpl in *; try discriminate; auto. f_equal. apply IH. auto. Qed.
Lemma valid_zeros : forall k, valid (repeat 0 k) (repeat 1 k).
Proof. induction k; simpl; constructor; auto. Qed.

(** Two tensors, the second without event dimensions and with plates of the first. *)
Lemma times_plain : forall a t base, callable veq [a; t] -> s_event_shape t = [] -> (forall q, In q (splates t) -> In (pname q) (N (splates a))) ->
  exists r, torch_op2 veq anc_unwrap top_ctx (o_mul o) (PT a) (PT t) base = Ok (PT r) /\
    splates r = splates a /\ s_event_shape r = s_event_shape a /\ wf r /\ s_stochastic r = false /\
    forall s e, in_range s (splates a) -> valid e (s_event_shape a) -> den r s e = o_mul o (den a s e) (den t s []).
Proof.
  intros a t base HC Ht Hsub.
  destruct (op2_spec veq anc_unwrap (o_mul o) a t base (s_event_shape a) HC) as [r [Q1 [Q2 [Q3 [Q4 [Q5 [Q6 [Q7 Q8]]]]]]]].
  { unfold s_event_dims. rewrite Ht. simpl. rewrite Nat.max_0_r. rewrite pad_self. unfold pad. simpl. rewrite Nat.sub_0_r. apply broadcasts_ones. }
  exists r. rewrite union_sub in Q2 by auto. refine (conj Q1 (conj Q2 (conj Q3 (conj Q4 (conj Q6 _))))).
  intros s e Hs He. rewrite Q8; [|now rewrite Q2|auto]. rewrite Ht. f_equal. f_equal. now apply proj_valid.
Qed.

(** Plate.reduce. *)
Lemma set_to_range : forall (s : assignment) p (l : list plate) i, NoDup (N l) -> In p l -> in_range s (without (pname p) l) -> i < pn p ->
  in_range (set_to s (pname p) i) l.
Proof.
  intros s p l i ND Hp Hs Hi q Hq. unfold set_to. destruct (String.eqb_spec (pname q) (pname p)) as [e|n].
  - replace q with p; auto. eapply NoDup_map_inj; eauto.
  - apply Hs. unfold without. apply filter_In. split; auto. apply negb_true_iff. now apply String.eqb_neq.
Qed.

Lemma getitem_spec : forall t k base, callable veq [t] -> s_event_shape t = [] ->
  exists r, add_dims veq anc_unwrap top_ctx k (PT t) base = Ok (PT r) /\ splates r = splates t /\ s_event_shape r = repeat 1 k /\ wf r /\
    forall s e, in_range s (splates t) -> length e = k -> den r s e = den t s [].
Proof.
  intros t k base HC Ht.
  assert (Hw : wf t) by (destruct HC as [H _]; inversion H; auto).
  assert (Em : max_event [t] = s_event_dims t) by reflexivity.
  destruct (prepare_args_gen veq anc_unwrap (laid_out (wide (all_plates [t])) false (max_event [t])) [PT t] [] getitem_opts [t]) as [args' [kwargs' [E [F1 F2]]]]; auto.
  { repeat constructor. }
  { intros t' [<-|[]].
    destruct (unwrap_side veq anc_unwrap [t] t) as [S1 [S2 [S3 [S4 [S5 [S6 [S7 S8]]]]]]]; auto. { simpl; auto. }
    destruct (unwrap_tensor_spec veq anc_unwrap (wide (all_plates [t])) default_opts (max_event [t]) t (flat_map splates [t])) as [u [Eu Lu]]; auto.
    { apply HC. }
    exists u. split; auto. rewrite <- Eu. unfold unwrap_tensor. simpl o_align. cbn [negb]. rewrite unwrap_hook_id by auto. cbn [bind].
    rewrite Em, Nat.ltb_irrefl, !andb_false_r. reflexivity. }
  rewrite Em in *.
  inversion F1 as [|? x1 ? r1 U1 F1']; subst. inversion F1'; subst. inversion F2; subst.
  inversion U1 as [? u1 L1| | | | | | | |]; subst.
  rewrite all_plates_single in *.
  destruct (laid_out_self _ _ _ Hw L1) as [Hs X].
  assert (Sh : shape (st t) = map pn (wide (splates t))) by (rewrite (wf_shape t Hw), Ht; apply app_nil_r).
  unfold add_dims, handle_deterministic. cbn [top_ctx c_stochastic]. rewrite E. cbn [bind torch_fn1 c_ignore].
  rewrite filter_none. cbn [prepare_outputs default_opts getitem_opts o_flatten bind].
  destruct (mk_tensor_good (base + 1) (unsqueeze_right k u1) (map sid [t]) (splates t) false (repeat 1 k))
    as [r [Hr [G1 [G2 [G3 [G4 [G5 [G6 G7]]]]]]]].
  { apply (wf_names t Hw). } { apply (wf_pos t Hw). } { simpl. now rewrite <- Hs, Sh. }
  rewrite Hr. cbn [bind]. exists r.
  refine (conj eq_refl (conj G3 (conj G6 (conj G7 _)))).
  intros s e Hsr He. unfold den. rewrite G2, G3. simpl el. unfold ndim. rewrite <- Hs, Sh, map_length, app_nil_r.
  rewrite <- (map_length (fun p => s (pname p)) (wide (splates t))), firstn_app_exact. symmetry. apply X.
  rewrite Sh. exact (in_range_valid s _ (in_range_wide anc_unwrap s _ Hsr)).
Qed.

Lemma bshape_long : forall l m t, length m = length t -> bshape m t = Some m -> bshape (l ++ m) t = Some (l ++ m).
Proof.
  intros l m t Hl H. unfold bshape in *. rewrite rev_app_distr.
  assert (G : forall a b c, length a = length b -> bshape_rev a b = Some c -> bshape_rev (a ++ rev l) b = Some (c ++ rev l)).
  { induction a as [|x a IH]; intros [|y b] c Hab Hc; simpl in *; try discriminate.
    - injection Hc as <-. destruct (rev l); reflexivity.
    - destruct (bshape_rev a b) as [r|] eqn:Er; [|discriminate]. rewrite (IH b r) by auto.
      destruct (x =? y); [injection Hc as <-; auto|]. destruct (x =? 1); [injection Hc as <-; auto|].
      destruct (y =? 1); [injection Hc as <-; auto|discriminate]. }
  destruct (bshape_rev (rev m) (rev t)) as [r|] eqn:Er; [|discriminate]. simpl in H. injection H as H.
  rewrite (G _ _ r); [|now rewrite !rev_length|auto]. simpl. f_equal. rewrite rev_app_distr, rev_involutive. now rewrite H.
Qed.

Lemma bidx_scalar : forall idx, bidx [] idx = [].
Proof. reflexivity. Qed.

Lemma bidx_column : forall n k i1 i i2, length i2 = k -> i < n -> bidx (n :: repeat 1 k) (i1 ++ i :: i2) = i :: repeat 0 k.
Proof.
  intros n k i1 i i2 Hk Hi. unfold bidx. rewrite app_length. simpl length. rewrite repeat_length.
  replace (length i1 + S (length i2) - S k) with (length i1) by lia.
  rewrite skipn_app, skipn_all2, Nat.sub_diag by lia. simpl. f_equal.
  - destruct (Nat.eqb_spec n 1); lia.
  - rewrite <- proj_zip_clip. now apply proj_ones.
Qed.

Lemma wide_without_single : forall (l : list plate) p, NoDup (N l) -> In p l -> pn p = 1 -> wide (without (pname p) l) = wide l.
Proof.
  intros l p ND Hp Hn. unfold without. induction l as [|q l IH]; auto. simpl in ND. inversion ND as [|? ? Hni ND']; subst.
  destruct Hp as [->|Hp].
  - simpl. rewrite String.eqb_refl, Hn. simpl.
    assert (G : forall m, ~ In (pname p) (N m) -> filter (fun q => negb (String.eqb (pname q) (pname p))) m = m).
    { clear. induction m as [|x m IH]; simpl; auto. intros H. destruct (String.eqb_spec (pname x) (pname p)) as [e|]; [tauto|].
      simpl. f_equal. tauto. }
    now rewrite G.
  - simpl. destruct (String.eqb_spec (pname q) (pname p)) as [e|ne].
    + exfalso. apply Hni. rewrite e. now apply in_map.
    + simpl. destruct (1 <? pn q); [f_equal|]; auto.
Qed.

Lemma without_NoDup : forall x (l : list plate), NoDup (N l) -> NoDup (N (without x l)).
Proof. intros. unfold without. now apply NoDup_map_filter. Qed.

(** The number of trailing singleton dimensions Plate.reduce adds: a storch weight over one wide plate is padded up to
    the rank of the whole tensor instead of the event rank. *)
Definition extra (L : list plate) (a : stensor) (p : plate) : nat :=
  match pweight p with
  | WTorch _ => 0
  | WStorch _ _ names =>
      if length (wide_names L names) =? 1 then length (wide (splates a)) - S (pos_of a (inl (pname p))) else 0
  end.

Lemma split_at : forall (a : stensor) p, wf a -> In p (splates a) -> 1 < pn p ->
  exists l1 l2, wide (splates a) = l1 ++ p :: l2 /\ get_plate_dim_index a (pname p) = Ok (length l1) /\
    pos_of a (inl (pname p)) = length l1.
Proof.
  intros a p Hw Hp Hn.
  assert (Hin : In (pname p) (N (wide (splates a)))) by (apply in_map; apply In_wide; auto).
  destruct (find_dim_spec (pname p) (wide (splates a)) 0 Hin) as [k [E Hk]].
  rewrite nth_error_map in Hk. destruct (nth_error (wide (splates a)) k) as [q|] eqn:Eq; [|discriminate]. simpl in Hk. injection Hk as Hk.
  assert (q = p). { eapply NoDup_map_inj; [apply (wf_names a Hw)| | |exact Hk]; [|exact Hp]. apply nth_error_In in Eq. apply In_wide in Eq. tauto. }
  subst q. destruct (nth_error_split _ _ Eq) as [l1 [l2 [E1 E2]]]. exists l1, l2. split; auto. subst k. split; auto.
  simpl. rewrite E. reflexivity.
Qed.

Lemma plate_reduce_step : forall (a : stensor) p detach base, sound veq (splates a) -> wf a -> In p (splates a) -> weight_fits (splates a) p ->
  exists r, plate_reduce veq anc_unwrap o top_ctx p a detach base = Ok (PT r) /\
    splates r = without (pname p) (splates a) /\ s_event_shape r = s_event_shape a ++ repeat 1 (extra (splates a) a p) /\ wf r /\
    s_stochastic r = false /\
    forall s e, in_range s (splates r) -> valid e (s_event_shape a) ->
      den r s (e ++ repeat 0 (extra (splates a) a p)) =
        osum o (map (fun i => o_mul o (den a (set_to s (pname p) i) e)
                                      (wval detach (weight_at (splates a) p (set_to s (pname p) i)))) (seq 0 (pn p))).
Proof.
  intros a p detach base HS Hw Hp Hf.
  assert (HC : callable veq [a]).
  { apply (sound_callable (splates a)); auto. intros t q [<-|[]] Hq. now left. }
  assert (ND := wf_names a Hw).
  assert (Hpos : 1 <= pn p) by (apply (wf_pos a Hw); auto).
  unfold plate_reduce.
  destruct (pweight p) as [w|obj w names] eqn:Ew.
  - (* a raw weight *)
    assert (Hx : extra (splates a) a p = 0) by (unfold extra; now rewrite Ew). rewrite Hx. simpl repeat.
    assert (EW : detached_weight veq anc_unwrap o top_ctx p detach base = Ok (PRaw (tmap (wval detach) w))).
    { unfold detached_weight, weight_tensor. rewrite Ew. cbn [bind]. unfold wval. destruct detach; auto. destruct w; reflexivity. }
    rewrite EW. cbn [bind]. unfold weight_fits in Hf. rewrite Ew in Hf.
    destruct (Nat.eqb_spec (pn p) 1) as [E1|N1].
    + (* singleton plate *)
      destruct Hf as [Hf|[C _]]; [|lia].
      destruct (prepare_args_laid_out veq anc_unwrap [PT a] [] default_opts [a]) as [args' [kwargs' [E [F1 F2]]]]; auto.
      { repeat constructor. }
      inversion F1 as [|? x1 ? r1 U1 F1']; subst. inversion F1'; subst. inversion F2; subst.
      inversion U1 as [? u1 L1| | | | | | | |]; subst.
      unfold handle_deterministic. cbn [top_ctx c_stochastic]. rewrite E. cbn [bind times_weight c_ignore].
      rewrite all_plates_single in *. change (max_event [a]) with (Nat.max 0 (s_event_dims a)) in L1. simpl Nat.max in L1.
      destruct (laid_out_self _ _ _ Hw L1) as [Hs X].
      unfold elementwise2. simpl shape. rewrite Hf, bshape_nil_r. cbn [bind prepare_outputs default_opts o_flatten].
      assert (EF : filter (fun q : plate => negb (existsb (String.eqb (pname q)) [pname p])) (splates a) = without (pname p) (splates a)).
      { apply filter_ext. intros q. simpl. now rewrite orb_false_r. }
      rewrite EF.
      match goal with |- context [mk_tensor ?i ?t ?q ?l ?b] =>
        destruct (mk_tensor_good i t q l b (s_event_shape a)) as [r [Hr [G1 [G2 [G3 [G4 [G5 [G6 G7]]]]]]]] end.
      { now apply without_NoDup. } { intros q Hq. apply filter_In in Hq. apply (wf_pos a Hw). tauto. }
      { simpl. rewrite wide_without_single by auto. rewrite <- Hs. apply (wf_shape a Hw). }
      rewrite Hr. cbn [bind]. exists r. rewrite app_nil_r.
      refine (conj eq_refl (conj G3 (conj G6 (conj G7 (conj G5 _))))).
      intros s e Hsr He. rewrite app_nil_r. rewrite E1. simpl map. rewrite osum_cons. unfold osum. simpl fold_right.
      unfold den at 1. rewrite G2, G3. simpl el. rewrite wide_without_single by auto. rewrite bidx_scalar.
      assert (Hv : valid (map (fun p => s (pname p)) (wide (splates a)) ++ e) (shape (st a))).
      { rewrite (wf_shape a Hw). apply valid_app; auto. apply in_range_valid. intros q Hq.
        rewrite <- (wide_without_single _ p) in Hq by auto. apply In_wide in Hq. apply Hsr. rewrite G3. tauto. }
      rewrite bidx_valid by (rewrite <- Hs; exact Hv). rewrite <- X by auto.
      unfold weight_at. rewrite Ew, Hf.
      rewrite (den_ext a (set_to s (pname p) 0) s).
      * unfold den. ring.
      * intros q Hq. unfold set_to. destruct (String.eqb_spec (pname q) (pname p)) as [e'|]; auto.
        exfalso. apply In_wide in Hq. assert (q = p) by (eapply NoDup_map_inj; try exact ND; tauto). subst. lia.
    + assert (Hn : 1 < pn p) by lia.
      destruct Hf as [Hf|[_ Hf]].
      * (* one number *)
        replace (val_ndim (PRaw (tmap (wval detach) w)) =? 0) with true by (simpl; unfold ndim; simpl; now rewrite Hf).
        destruct (st_sum_plate a p (base + 10) HC Hp Hn) as [x [Q1 [Q2 [Q3 [Q4 [Q5 Q6]]]]]].
        rewrite Q1. cbn [bind].
        assert (HCx : callable veq [x]).
        { apply (sound_callable (splates a)); auto. intros t q [<-|[]] Hq. rewrite Q2 in Hq. apply filter_In in Hq. now left. }
        destruct (op2_raw (o_mul o) (tmap (wval detach) w) x (base + 20) HCx) as [r [R1 [R2 [R3 [R4 [R5 R6]]]]]].
        { simpl. rewrite Hf. apply bshape_nil_r. }
        exists r. rewrite app_nil_r, R2, R3. refine (conj R1 (conj Q2 (conj Q3 (conj R4 (conj R5 _))))).
        intros s e Hsr He. rewrite app_nil_r, R6, Q6 by (auto; now rewrite Q3). rewrite osum_mul_r.
        apply osum_ext. intros i _. f_equal. unfold weight_at. rewrite Ew. simpl. rewrite Hf. reflexivity.
      * (* one number per sample *)
        replace (val_ndim (PRaw (tmap (wval detach) w)) =? 0) with false by (simpl; unfold ndim; simpl; now rewrite Hf).
        replace (val_ndim (PRaw (tmap (wval detach) w)) =? 1) with true by (simpl; unfold ndim; simpl; now rewrite Hf).
        destruct (split_at a p Hw Hp Hn) as [l1 [l2 [Esp [Ei _]]]]. rewrite Ei. cbn [bind add_dims].
        assert (Esh : shape (st a) = map pn l1 ++ pn p :: (map pn l2 ++ s_event_shape a)).
        { rewrite (wf_shape a Hw), Esp, map_app. simpl. now rewrite <- app_assoc. }
        assert (Ek : ndim (st a) - length l1 - 1 = length (map pn l2 ++ s_event_shape a)).
        { unfold ndim. rewrite Esh, app_length. simpl. rewrite map_length. lia. }
        rewrite Ek.
        destruct (op2_raw (o_mul o) (unsqueeze_right (length (map pn l2 ++ s_event_shape a)) (tmap (wval detach) w)) a (base + 20) HC)
          as [x [R1 [R2 [R3 [R4 [R5 R6]]]]]].
        { simpl. rewrite Hf, Esh. apply bshape_long; [simpl; now rewrite repeat_length|].
          apply broadcasts_bshape. apply (@B_same);  apply broadcasts_ones. }
        rewrite R1. cbn [bind as_tensor].
        assert (HCx : callable veq [x]).
        { apply (sound_callable (splates a)); auto. intros t q [<-|[]] Hq. rewrite R2 in Hq. now left. }
        destruct (st_sum_plate x p (base + 30) HCx) as [r [Q1 [Q2 [Q3 [Q4 [Q5 Q6]]]]]]; [now rewrite R2|auto|].
        exists r. rewrite app_nil_r. rewrite R2 in Q2. rewrite R3 in Q3. refine (conj Q1 (conj Q2 (conj Q3 (conj Q4 (conj Q5 _))))).
        intros s e Hsr He. rewrite app_nil_r, Q6 by (auto; now rewrite R3). apply osum_ext. intros i Hi. apply in_seq in Hi.
        rewrite Q2 in Hsr. rewrite R6 by (auto; apply set_to_range; auto; lia). f_equal.
        unfold weight_at. rewrite Ew. simpl. rewrite Hf. unfold ndim. simpl shape. rewrite Hf. simpl length.
        rewrite Esp, map_app. simpl map. rewrite <- app_assoc. simpl app.
        assert (Ep : set_to s (pname p) i (pname p) = i) by (unfold set_to; now rewrite String.eqb_refl). rewrite !Ep.
        rewrite bidx_column; [reflexivity| |lia].
        rewrite !app_length, !map_length. apply valid_length in He. congruence.
  - (* a storch weight *)
    destruct (storch_weight (splates a) p detach base obj w names HS Hp Ew Hf) as [t [T1 [T2 [T3 [T4 [T5 [T6 T7]]]]]]].
    rewrite T1. cbn [bind]. unfold weight_fits in Hf. rewrite Ew in Hf. destruct Hf as [Hn [NDn [Hin [Hnames [Hpar Hsh]]]]].
    replace (pn p =? 1) with false by (symmetry; apply Nat.eqb_neq; lia).
    assert (HNa : forall q, In q (splates t) -> In (pname q) (N (splates a))).
    { intros q Hq. assert (Hx : In (pname q) names) by (rewrite <- T5; now apply in_map).
      destruct (Hnames _ Hx) as [->|H]; [now apply in_map|]. apply in_map_iff in H. destruct H as [q' [<- Hq']]. auto. }
    assert (Hwn : In (pname p) (wide_names (splates a) names)).
    { unfold wide_names. apply filter_In. split; auto. rewrite (size_in_spec (splates a) p HS); [now apply Nat.ltb_lt|now apply in_map|now left]. }
    assert (Hrk : val_ndim (PT t) = length (wide_names (splates a) names)).
    { simpl. unfold ndim. rewrite (wf_shape t T2), T3, app_nil_r, map_length, <- T6, map_length. reflexivity. }
    rewrite Hrk.
    assert (HCt : callable veq [t]).
    { apply (sound_callable (splates a)); auto. intros t' q [<-|[]] Hq. auto. }
    assert (Hrt : forall s, in_range s (splates a) -> in_range s (splates t)).
    { intros s Hs q Hq. assert (Hq' := HNa q Hq). apply in_map_iff in Hq'. destruct Hq' as [q' [E' Hq']].
      rewrite <- E'. rewrite <- (so_size _ _ HS q' q); auto. now left. }
    replace (length (wide_names (splates a) names) =? 0) with false.
    2:{ symmetry. apply Nat.eqb_neq. intros C. apply length_zero_iff_nil in C. rewrite C in Hwn. destruct Hwn. }
    unfold extra. rewrite Ew.
    destruct (Nat.eqb_spec (length (wide_names (splates a) names)) 1) as [E1|N1].
    + destruct (split_at a p Hw Hp Hn) as [l1 [l2 [Esp [Ei Epos]]]]. rewrite Ei. cbn [bind].
      rewrite Epos.
      assert (Ek : ndim (st a) - length l1 - 1 = length l2 + length (s_event_shape a)).
      { unfold ndim. rewrite (wf_shape a Hw), Esp, map_app, !app_length. simpl. rewrite !map_length. lia. }
      rewrite Ek.
      replace (length (wide (splates a)) - S (length l1)) with (length l2) by (rewrite Esp, app_length; simpl; lia).
      destruct (getitem_spec t (length l2 + length (s_event_shape a)) (base + 10) HCt T3) as [t' [Y1 [Y2 [Y3 [Y4 Y5]]]]].
      rewrite Y1. cbn [bind].
      assert (HC2 : callable veq [a; t']).
      { apply (sound_callable (splates a)); auto. intros t'' q [<-|[<-|[]]] Hq; [now left|]. rewrite Y2 in Hq. auto. }
      destruct (op2_spec veq anc_unwrap (o_mul o) a t' (base + 20) (s_event_shape a ++ repeat 1 (length l2)) HC2)
        as [x [Q1 [Q2 [Q3 [Q4 [Q5 [Q6 [Q7 Q8]]]]]]]].
      { unfold s_event_dims. rewrite Y3, repeat_length.
        replace (Nat.max (length (s_event_shape a)) (length l2 + length (s_event_shape a))) with (length l2 + length (s_event_shape a)) by lia.
        unfold pad. rewrite repeat_length, Nat.sub_diag. simpl repeat at 3. rewrite app_nil_r.
        replace (length l2 + length (s_event_shape a) - length (s_event_shape a)) with (length l2) by lia.
        replace (length l2 + length (s_event_shape a)) with (length (s_event_shape a ++ repeat 1 (length l2))) by (rewrite app_length, repeat_length; lia).
        apply broadcasts_ones. }
      rewrite Q1. cbn [bind as_tensor].
      rewrite union_sub in Q2 by (intros q Hq; rewrite Y2 in Hq; auto).
      assert (HCx : callable veq [x]).
      { apply (sound_callable (splates a)); auto. intros t'' q [<-|[]] Hq. rewrite Q2 in Hq. now left. }
      destruct (st_sum_plate x p (base + 30) HCx) as [r [R1 [R2 [R3 [R4 [R5 R6]]]]]]; [now rewrite Q2|auto|].
      exists r. rewrite Q2 in R2. rewrite Q3 in R3. refine (conj R1 (conj R2 (conj R3 (conj R4 (conj R5 _))))).
      intros s e Hsr He.
      assert (Hve : valid (e ++ repeat 0 (length l2)) (s_event_shape a ++ repeat 1 (length l2))) by (apply valid_app; auto; apply valid_zeros).
      rewrite R6 by (auto; now rewrite Q3). apply osum_ext. intros i Hi. apply in_seq in Hi. rewrite R2 in Hsr.
      assert (Hsi : in_range (set_to s (pname p) i) (splates a)) by (apply set_to_range; auto; lia).
      rewrite Q8; [|now rewrite Q2|auto].
      rewrite proj_short by (now apply valid_length). rewrite proj_valid by auto. f_equal.
      rewrite Y5; [|rewrite <- Y2 in *; now apply Hrt|].
      * apply T7. now apply Hrt.
      * rewrite Y3. rewrite proj_ones; [now rewrite repeat_length|]. rewrite app_length, repeat_length. apply valid_length in He. lia.
    + assert (Epp : existsb (fun q => negb (pin veq q (splates a))) (pparents p) = false).
      { apply not_true_is_false. intros C. apply existsb_exists in C. destruct C as [q [Hq C]]. apply negb_true_iff in C.
        apply not_true_iff_false in C. apply C. clear C.
        assert (Hqn := Hpar q Hq). apply in_map_iff in Hqn. destruct Hqn as [q' [E' Hq']].
        unfold pin. apply existsb_exists. exists q'. split; auto.
        apply (proj2 (proj2 (so_orderable _ _ HS))); [now left|right; exists p; split; auto; now apply A_parent|auto]. }
      rewrite Epp. simpl repeat. rewrite app_nil_r.
      assert (HC2 : callable veq [a; t]).
      { apply (sound_callable (splates a)); auto. intros t'' q [<-|[<-|[]]] Hq; [now left|]. auto. }
      destruct (times_plain a t (base + 20) HC2 T3 HNa) as [x [Q1 [Q2 [Q3 [Q4 [Q5 Q6]]]]]].
      rewrite Q1. cbn [bind as_tensor].
      assert (HCx : callable veq [x]).
      { apply (sound_callable (splates a)); auto. intros t'' q [<-|[]] Hq. rewrite Q2 in Hq. now left. }
      destruct (st_sum_plate x p (base + 30) HCx) as [r [R1 [R2 [R3 [R4 [R5 R6]]]]]]; [now rewrite Q2|auto|].
      exists r. rewrite Q2 in R2. rewrite Q3 in R3. refine (conj R1 (conj R2 (conj R3 (conj R4 (conj R5 _))))).
      intros s e Hsr He. rewrite app_nil_r, R6 by (auto; now rewrite Q3). apply osum_ext. intros i Hi. apply in_seq in Hi. rewrite R2 in Hsr.
      assert (Hsi : in_range (set_to s (pname p) i) (splates a)) by (apply set_to_range; auto; lia).
      rewrite Q6 by auto. f_equal. apply T7. now apply Hrt.
Qed.


(** ** Several plates *)

Definition ext (f : assignment -> V) : Prop := forall s s', (forall x, s x = s' x) -> f s = f s'.

Lemma sum_over_ext : forall ps s (f g : assignment -> V), NoDup (N ps) ->
  (forall s', (forall x, ~ In x (N ps) -> s' x = s x) -> (forall p, In p ps -> s' (pname p) < pn p) -> f s' = g s') ->
  sum_over o ps f s = sum_over o ps g s.
Proof.
  induction ps as [|p ps IH]; intros s f g ND H; simpl.
  - apply H; [auto|intros p []].
  - simpl in ND. inversion ND as [|? ? Hn ND']; subst. apply osum_ext. intros i Hi. apply in_seq in Hi. apply IH; auto. intros s' H1 H2. apply H.
    + intros x Hx. simpl in Hx. rewrite H1 by tauto. unfold set_to. destruct (String.eqb_spec x (pname p)); subst; tauto.
    + intros q [<-|Hq]; auto. rewrite H1 by auto. unfold set_to. rewrite String.eqb_refl. lia.
Qed.

Lemma sum_over_same : forall ps s s' (f : assignment -> V), ext f -> (forall x, s x = s' x) -> sum_over o ps f s = sum_over o ps f s'.
Proof.
  induction ps as [|p ps IH]; intros s s' f Hf H; simpl; auto.
  apply osum_ext. intros i _. apply IH; auto. intros x. unfold set_to. destruct (String.eqb x (pname p)); auto.
Qed.
Lemma sum_over_ext_fun : forall ps (f : assignment -> V), ext f -> ext (sum_over o ps f).
Proof. intros ps f Hf s s' H. now apply sum_over_same. Qed.

Lemma sum_over_perm : forall ps qs s (f : assignment -> V), Permutation ps qs -> NoDup (N ps) -> ext f -> sum_over o ps f s = sum_over o qs f s.
Proof.
  intros ps qs s f HP. revert s. induction HP as [|p ps qs HP IH|p q ps|ps qs rs HP1 IH1 HP2 IH2]; intros s ND Hf; auto.
  - simpl. inversion ND; subst. apply osum_ext. intros i _. auto.
  - simpl. simpl in ND. inversion ND as [|? ? Hn ND']; subst.
    rewrite osum_swap. apply osum_ext. intros i _. apply osum_ext. intros j _.
    apply sum_over_same; auto. intros x. unfold set_to.
    destruct (String.eqb_spec x (pname p)); destruct (String.eqb_spec x (pname q)); subst; auto.
    exfalso. apply Hn. simpl. left. congruence.
  - rewrite IH1 by auto. apply IH2; auto. eapply Permutation_NoDup; [|exact ND]. now apply Permutation_map.
Qed.

Lemma sum_over_last : forall ps p s (f : assignment -> V),
  sum_over o (ps ++ [p]) f s = sum_over o ps (fun s' => osum o (map (fun i => f (set_to s' (pname p) i)) (seq 0 (pn p)))) s.
Proof. induction ps as [|q ps IH]; intros p s f; simpl; auto. apply osum_ext. intros i _. apply IH. Qed.

Lemma den_ext_fun : forall (a : stensor) e, ext (fun s => den a s e).
Proof. intros a e s s' H. apply den_ext. auto. Qed.
Lemma weight_ext : forall L (p : plate), ext (weight_at L p).
Proof.
  intros L p s s' H. unfold weight_at. destruct (pweight p) as [w|obj w names].
  - rewrite H. reflexivity.
  - f_equal. apply map_ext. auto.
Qed.

Definition wprod (detach : bool) (L ps : list plate) (s : assignment) : V :=
  oprod o (map (fun p => let w := weight_at L p s in if detach then o_det o w else w) ps).

Lemma wprod_ext : forall detach L ps, ext (wprod detach L ps).
Proof.
  intros detach L ps s s' H. unfold wprod. f_equal. apply map_ext. intros p. rewrite (weight_ext L p s s' H). reflexivity.
Qed.
Lemma oprod_perm : forall l m, Permutation l m -> oprod o l = oprod o m.
Proof.
  intros l m H. induction H as [|x l m H IH|x y l|l m k H1 IH1 H2 IH2]; [reflexivity| | |congruence].
  - unfold oprod in *. simpl. now rewrite IH.
  - unfold oprod. simpl. ring.
Qed.

(** Sizes and weights looked up in a sublist. *)
Lemma size_in_sub : forall (L M : list plate) x, sound veq L -> incl M L -> In x (N M) -> size_in M x = size_in L x.
Proof.
  intros L M x HS Hi Hx. unfold size_in.
  destruct (find (fun p => String.eqb (pname p) x) M) as [q|] eqn:E.
  - destruct (find (fun p => String.eqb (pname p) x) L) as [q'|] eqn:E'.
    + apply find_some in E. apply find_some in E'. destruct E as [E1 E2], E' as [E3 E4]. apply String.eqb_eq in E2, E4.
      apply (so_size _ _ HS); [left; auto|now left|congruence].
    + exfalso. apply find_some in E. destruct E as [E1 E2]. pose proof (find_none _ _ E' q (Hi _ E1)) as C. simpl in C. congruence.
  - exfalso. apply in_map_iff in Hx. destruct Hx as [q [<- Hq]]. pose proof (find_none _ _ E q Hq) as C. simpl in C.
    rewrite String.eqb_refl in C. discriminate.
Qed.
Lemma wide_names_sub : forall (L M : list plate) names, sound veq L -> incl M L -> (forall x, In x names -> In x (N M)) ->
  wide_names M names = wide_names L names.
Proof.
  intros L M names HS Hi H. unfold wide_names. apply filter_ext_in. intros x Hx. now rewrite (size_in_sub L M x) by auto.
Qed.

Definition parents_in (M : list plate) (p : plate) : Prop := forall q, In q (pparents p) -> In (pname q) (N M).
Definition storch_weighted (p : plate) : Prop := match pweight p with WTorch _ => False | WStorch _ _ _ => True end.

Lemma weight_names_in : forall L M (p : plate) obj w names, weight_fits L p -> pweight p = WStorch obj w names -> In p M -> parents_in M p ->
  forall x, In x names -> In x (N M).
Proof.
  intros L M p obj w names Hf Ew Hp Hpar x Hx. unfold weight_fits in Hf. rewrite Ew in Hf. destruct Hf as [_ [_ [_ [Hn _]]]].
  destruct (Hn x Hx) as [->|H]; [now apply in_map|]. apply in_map_iff in H. destruct H as [q [<- Hq]]. auto.
Qed.
Lemma weight_fits_sub : forall L M p, sound veq L -> incl M L -> In p M -> (storch_weighted p -> parents_in M p) -> weight_fits L p -> weight_fits M p.
Proof.
  intros L M p HS Hi Hp Hpar Hf. pose proof Hf as Hf'. unfold weight_fits in Hf |- *. unfold storch_weighted in Hpar. destruct (pweight p) as [w|obj w names] eqn:Ew; auto.
  assert (HN := weight_names_in L M p obj w names Hf' Ew Hp (Hpar I)).
  destruct Hf as [A [B [C [D [E F]]]]]. refine (conj A (conj B (conj C (conj D (conj _ _))))).
  - intros q Hq. apply (Hpar I). auto.
  - rewrite (wide_names_sub L M) by auto. rewrite F. apply map_ext_in. intros x Hx. symmetry. apply size_in_sub; auto.
    apply HN. unfold wide_names in Hx. apply filter_In in Hx. tauto.
Qed.
Lemma weight_at_sub : forall L M p s, sound veq L -> incl M L -> In p M -> (storch_weighted p -> parents_in M p) -> weight_fits L p ->
  weight_at M p s = weight_at L p s.
Proof.
  intros L M p s HS Hi Hp Hpar Hf. unfold weight_at, storch_weighted in *. destruct (pweight p) as [w|obj w names] eqn:Ew; auto.
  rewrite (wide_names_sub L M); auto. eapply weight_names_in; eauto.
Qed.
Lemma weight_at_other : forall L p x s i, weight_fits L p -> x <> pname p -> ~ In x (N (pparents p)) ->
  weight_at L p (set_to s x i) = weight_at L p s.
Proof.
  intros L p x s i Hf Hx Hpar. unfold weight_at, weight_fits in *. destruct (pweight p) as [w|obj w names].
  - unfold set_to. destruct (String.eqb_spec (pname p) x); [congruence|]. reflexivity.
  - destruct Hf as [_ [_ [_ [Hn _]]]]. f_equal. apply map_ext_in. intros y Hy. unfold wide_names in Hy. apply filter_In in Hy.
    destruct Hy as [Hy _]. unfold set_to. destruct (String.eqb_spec y x) as [->|]; auto. destruct (Hn x Hy); congruence.
Qed.

Lemma filter_twice : forall {A} (f g : A -> bool) l, filter f (filter g l) = filter (fun x => g x && f x) l.
Proof. intros A f g. induction l as [|x l IH]; simpl; auto. destruct (g x); simpl; [destruct (f x)|]; now rewrite IH. Qed.

(** Children before parents. *)
Fixpoint children_first (l : list plate) : Prop :=
  match l with
  | [] => True
  | p :: r => (forall q, In q r -> ~ In (pname p) (N (pparents q))) /\ children_first r
  end.

Lemma reduce_all_spec : forall l L a detach base, sound veq L -> wf a -> incl (splates a) L -> incl l (splates a) -> NoDup (N l) ->
  children_first l -> (forall p, In p l -> weight_fits L p) -> (forall p, In p l -> storch_weighted p -> parents_in (splates a) p) ->
  exists r k, reduce_all veq anc_unwrap o top_ctx l a detach base = Ok r /\
    splates r = filter (fun q => negb (mems (pname q) (N l))) (splates a) /\
    s_event_shape r = s_event_shape a ++ repeat 1 k /\ wf r /\ ((forall p, In p l -> ~ padded L p) -> k = 0) /\
    forall s e, in_range s (splates r) -> valid e (s_event_shape a) ->
      den r s (e ++ repeat 0 k) = sum_over o l (fun s' => o_mul o (wprod detach L l s') (den a s' e)) s.
Proof.
  induction l as [|p l IH]; intros L a detach base HS Hw Hi Hl ND Hcf Hf Hpar.
  - exists a, 0. simpl. rewrite app_nil_r. refine (conj eq_refl (conj _ (conj eq_refl (conj Hw (conj (fun _ => eq_refl) _))))).
    + symmetry. apply filter_none.
    + intros s e Hs He. rewrite app_nil_r. unfold wprod, oprod. simpl. ring.
  - simpl in ND. inversion ND as [|? ? Hn ND']; subst. destruct Hcf as [Hc Hcf].
    assert (Hp : In p (splates a)) by (apply Hl; simpl; auto).
    assert (HSa : sound veq (splates a)) by (eapply sound_sub; eauto; apply (wf_names a Hw)).
    assert (Hpp : storch_weighted p -> parents_in (splates a) p) by (apply Hpar; simpl; auto).
    assert (Hfp : weight_fits (splates a) p) by (apply (weight_fits_sub L); auto; apply Hf; simpl; auto).
    destruct (plate_reduce_step a p detach base HSa Hw Hp Hfp) as [x [E1 [E2 [E3 [E4 [E5 E6]]]]]].
    simpl reduce_all. rewrite E1. cbn [bind as_tensor].
    assert (Hx : incl (splates x) (splates a)). { rewrite E2. intros q Hq. apply filter_In in Hq. tauto. }
    destruct (IH L x detach (base + 40)) as [r [k [R1 [R2 [R3 [R4 [R5 R6]]]]]]]; auto.
    { intros q Hq. auto. }
    { intros q Hq. rewrite E2. unfold without. apply filter_In. split; [apply Hl; simpl; auto|]. apply negb_true_iff. apply String.eqb_neq.
      intros C. apply Hn. rewrite <- C. now apply in_map. }
    { intros q Hq. apply Hf. simpl; auto. }
    { intros q Hq Hsw y Hy. rewrite E2. apply without_names. split; [apply (Hpar q); simpl; auto|].
      intros C. apply (Hc q Hq). rewrite <- C. now apply in_map. }
    exists r, (extra (splates a) a p + k). refine (conj R1 (conj _ (conj _ (conj R4 (conj _ _))))).
    + rewrite R2, E2. unfold without. rewrite filter_twice. apply filter_ext. intros q. unfold mems. simpl.
      now rewrite negb_orb.
    + rewrite R3, E3, <- app_assoc. now rewrite <- repeat_app.
    + intros Hpd. rewrite R5 by (intros q Hq; apply Hpd; simpl; auto).
      assert (Hnp : ~ padded L p) by (apply Hpd; simpl; auto). unfold extra, padded in *.
      destruct (pweight p) as [w|obj w names] eqn:Ew; auto.
      rewrite (wide_names_sub L (splates a)); auto.
      * destruct (Nat.eqb_spec (length (wide_names L names)) 1); [contradiction|auto].
      * eapply weight_names_in; eauto. apply Hpp. unfold storch_weighted. now rewrite Ew.
    + intros s e Hs He. rewrite repeat_app, app_assoc. rewrite R6; [|auto|rewrite E3; apply valid_app; auto; apply valid_zeros].
      assert (ND2 : NoDup (N (l ++ [p]))).
      { rewrite map_app. apply NoDup_app_intro; auto; [repeat constructor; simpl; tauto|]. intros y Hy [C|[]]. simpl in C. subst. contradiction. }
      rewrite (sum_over_perm (p :: l) (l ++ [p]) s).
      2:{ apply Permutation_cons_append. } 2:{ simpl; constructor; auto. }
      2:{ intros s1 s2 H12. rewrite (wprod_ext detach L (p :: l) s1 s2 H12). now rewrite (den_ext_fun a e s1 s2 H12). }
      rewrite sum_over_last. apply sum_over_ext; auto.
      intros s' H1 H2.
      assert (Hs' : in_range s' (splates x)).
      { intros q Hq. destruct (in_dec string_dec (pname q) (N l)) as [Hin|Hnin].
        - apply in_map_iff in Hin. destruct Hin as [q' [Eq Hq']].
          assert (q' = q). { eapply NoDup_map_inj; [apply (wf_names a Hw)| | |exact Eq]; [apply Hl; simpl; auto|auto]. }
          subst. auto.
        - rewrite H1 by auto. apply Hs. rewrite R2. apply filter_In. split; auto. apply negb_true_iff.
          unfold mems. apply not_true_iff_false. intros C. apply existsb_exists in C. destruct C as [y [Hy C]]. apply String.eqb_eq in C. congruence. }
      rewrite E6 by auto. rewrite osum_mul_l. apply osum_ext. intros i _.
      rewrite (weight_at_sub L (splates a)) by (auto; apply Hf; simpl; auto).
      assert (Ewl : wprod detach L l (set_to s' (pname p) i) = wprod detach L l s').
      { unfold wprod. f_equal. apply map_ext_in. intros q Hq. cbv zeta. rewrite weight_at_other; auto.
        - apply Hf; simpl; auto.
        - intros C. apply Hn. rewrite C. now apply in_map. }
      change (wprod detach L (p :: l) (set_to s' (pname p) i)) with
        (o_mul o (wval detach (weight_at L p (set_to s' (pname p) i))) (wprod detach L l (set_to s' (pname p) i))).
      rewrite Ewl. ring.
Qed.

(** ** reduce_plates *)
Lemma parents_first_children : forall (l : list plate), NoDup (N l) -> parents_first l -> children_first (rev l).
Proof.
  intros l. induction l as [|p l IH] using rev_ind; intros ND H; simpl; auto.
  rewrite rev_app_distr. simpl. split.
  - intros q Hq C. apply in_rev in Hq. destruct (In_nth_error _ _ Hq) as [j Hj].
    assert (Hlt : j < length l) by (apply nth_error_Some; congruence).
    assert (length l < j); [|lia]. apply (H (length l) j p q).
    + rewrite nth_error_app2, Nat.sub_diag by lia. reflexivity.
    + rewrite nth_error_app1 by lia. exact Hj.
    + exact C.
  - apply IH.
    + rewrite map_app in ND. simpl in ND. apply NoDup_remove_1 in ND. rewrite app_nil_r in ND. exact ND.
    + intros i j a b Hi Hj Hab. apply (H i j a b); auto.
      * rewrite nth_error_app1; auto. apply nth_error_Some. congruence.
      * rewrite nth_error_app1; auto. apply nth_error_Some. congruence.
Qed.

Lemma asks_handle : forall v args (a : stensor) (ps : list plate) base, asks v args a ps -> wf a ->
  exists a', handle_inputs v args base = Ok (a', ps) /\ splates a' = splates a /\ st a' = st a /\
    s_event_shape a' = s_event_shape a /\ wf a' /\ incl ps (splates a).
Proof.
  intros v args a ps base H Hw. inversion H; subst; cbn [handle_inputs].
  - exists a. refine (conj eq_refl (conj eq_refl (conj eq_refl (conj eq_refl (conj Hw _))))). apply incl_refl.
  - destruct args as [|x args]; [congruence|]. exists a. 
    assert (E : mapM (fun x => match x with ByPlate p => Ok p | ByName n => get_plate a n end) (x :: args) = Ok ps /\ incl ps (splates a)).
    { clear -H1 Hw anc_unwrap. revert ps H1. generalize (x :: args) as l. induction l as [|y l IH]; intros ps F; inversion F as [|? q ? qs Hq Hqs]; subst.
      - split; auto. intros z [].
      - destruct (IH _ Hqs) as [E I]. cbn [mapM]. 
        assert (Ey : match y with ByPlate p => Ok p | ByName n => get_plate a n end = Ok q /\ In q (splates a)).
        { inversion Hq; subst; auto. split; auto. unfold get_plate.
          destruct (find_plate_spec (pname q) (splates a)) as [q' [E' [I' N']]]; [now apply in_map|].
          rewrite E'. f_equal. eapply NoDup_map_inj; [apply (wf_names a Hw)| | |exact N']; auto. }
        destruct Ey as [Ey Iy]. rewrite Ey. cbn [bind]. rewrite E. cbn [bind]. split; auto. intros z [<-|Hz]; auto. }
    destruct E as [E I]. rewrite E. cbn [bind]. exact (conj eq_refl (conj eq_refl (conj eq_refl (conj eq_refl (conj Hw I))))).
  - destruct (splates a) as [|p l] eqn:El; [congruence|]. 
    assert (E : check_aligned (shape (st a)) (map ByPlate (p :: l)) 0 = Ok (p :: l)).
    { assert (G : forall (m : list plate) pre rest, (forall q, In q m -> 1 <= pn q) -> check_aligned (pre ++ map pn (wide m) ++ rest) (map ByPlate m) (length pre) = Ok m).
      { induction m as [|q m IH]; intros pre rest Hpos; simpl; auto.
        destruct (1 <? pn q) eqn:E1.
        - rewrite nth_error_app2, Nat.sub_diag by lia. simpl. rewrite Nat.eqb_refl.
          specialize (IH (pre ++ [pn q]) rest). rewrite <- app_assoc in IH. simpl in IH. rewrite app_length in IH. simpl in IH.
          rewrite Nat.add_1_r in IH. rewrite IH; auto. intros; apply Hpos; simpl; auto.
        - rewrite IH; auto. intros; apply Hpos; simpl; auto. }
      rewrite (wf_shape a Hw), El. apply (G (p :: l) [] (s_event_shape a)). intros q Hq. apply (wf_pos a Hw). now rewrite El. }
    cbn [map]. change (ByPlate p :: map ByPlate l) with (map ByPlate (p :: l)). rewrite E. cbn [bind].
    destruct (mk_tensor_good base (st a) [] (p :: l) false (s_event_shape a)) as [r [Hr [G1 [G2 [G3 [G4 [G5 [G6 G7]]]]]]]].
    { rewrite <- El. apply (wf_names a Hw). } { rewrite <- El. apply (wf_pos a Hw). } { rewrite <- El. apply (wf_shape a Hw). }
    rewrite Hr. cbn [bind]. exists r. exact (conj eq_refl (conj G3 (conj G2 (conj G6 (conj G7 (incl_refl _)))))).
Qed.

Lemma reduce_plates_spec : forall v args (a : stensor) (ps : list plate) detach base, asks v args a ps -> wf a -> sound veq (splates a) -> NoDup (N ps) ->
  no_gaps ps -> ~ cyclic ps -> (forall p, In p ps -> weight_fits (splates a) p) ->
  exists r k, reduce_plates veq anc_unwrap o top_ctx v args detach base = Ok r /\
    splates r = filter (fun q => negb (mems (pname q) (N ps))) (splates a) /\
    s_event_shape r = s_event_shape a ++ repeat 1 k /\ wf r /\ ((forall p, In p ps -> ~ padded (splates a) p) -> k = 0) /\
    forall s e, in_range s (splates r) -> valid e (s_event_shape a) ->
      den r s (e ++ repeat 0 k) = weighted_sum o detach (splates a) ps (fun s' => den a s' e) s.
Proof.
  intros v args a ps detach base HA Hw HS ND Hg Hcy Hf.
  destruct (asks_handle v args a ps base HA Hw) as [a' [E [Ap [At [Ae [Aw Ai]]]]]].
  unfold reduce_plates. rewrite E. cbn [bind].
  assert (Ho : orderable veq ps).
  { assert (Hs : sound veq ps) by (eapply sound_sub; eauto). apply (so_orderable _ _ Hs). }
  destruct (order_plates_spec veq ps Ho Hg) as [_ Hord]. destruct (Hord Hcy) as [l [_ [El [HP Hpf]]]]. rewrite El. cbn [bind].
  assert (HPr : Permutation ps (rev l)). { rewrite <- Permutation_rev. now symmetry. }
  assert (NDr : NoDup (N (rev l))). { eapply Permutation_NoDup; [|exact ND]. now apply Permutation_map. }
  destruct (reduce_all_spec (rev l) (splates a) a' detach base) as [r [k [R1 [R2 [R3 [R4 [R5 R6]]]]]]]; auto.
  { rewrite Ap. apply incl_refl. }
  { rewrite Ap. intros q Hq. apply Ai. eapply Permutation_in; [symmetry; exact HPr|exact Hq]. }
  { apply parents_first_children; auto. rewrite map_rev in NDr. eapply Permutation_NoDup; [|exact NDr]. symmetry. apply Permutation_rev. }
  { intros p Hp. apply Hf. eapply Permutation_in; [symmetry; exact HPr|exact Hp]. }
  { intros p Hp Hsw q Hq. rewrite Ap.
    assert (Hfp : weight_fits (splates a) p) by (apply Hf; eapply Permutation_in; [symmetry; exact HPr|exact Hp]).
    unfold weight_fits, storch_weighted in *. destruct (pweight p); [contradiction|]. destruct Hfp as [_ [_ [_ [_ [Hpar _]]]]]. auto. }
  exists r, k. rewrite Ap in R2. rewrite Ae in *. refine (conj R1 (conj _ (conj R3 (conj R4 (conj _ _))))).
  - rewrite R2. apply filter_ext. intros q. f_equal. apply bool_iff. rewrite !mems_In.
    split; intros H; (eapply Permutation_in; [|exact H]); apply Permutation_map; auto. now symmetry.
  - intros Hp. apply R5. intros p Hpl. apply Hp. eapply Permutation_in; [symmetry; exact HPr|exact Hpl].
  - intros s e Hs He. rewrite R6 by auto. unfold weighted_sum.
    assert (Hd : forall s', den a' s' e = den a s' e) by (intros; unfold den; now rewrite At, Ap).
    rewrite (sum_over_perm ps (rev l)); auto.
    + apply sum_over_ext; auto. intros s' _ _. rewrite Hd. f_equal. unfold wprod. apply oprod_perm. apply Permutation_map. now symmetry.
    + intros s1 s2 H12. fold (wprod detach (splates a) ps s1). fold (wprod detach (splates a) ps s2).
      rewrite (wprod_ext detach (splates a) ps s1 s2 H12). now rewrite (den_ext_fun a e s1 s2 H12).
Qed.

End Reduce2.
