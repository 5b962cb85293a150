(** Calculations with storch tensors that all have the same single plate, or no plate, and any event shape. *)
From Coq Require Import String List Arith Bool ZArith Lia Permutation Ring.
From Verif Require Import Base Torch Plates Wrap OrderPlates Scalar Reduce Graph Surrogate ListLemmas IndexLemmas SpecTensor SpecWrap
  SpecOrder SpecReduce SpecGraph SpecSurrogate WrapProofs AlignProofs CallProofs CallProofs2 OpProofs OrderProofs ReduceProofs ReduceProofs2
  VarianceProofs PlateEqProofs GraphProofs SurrogateProofs SurrogateProofs2 SurrogateProofs3 CallN CallV GetitemProofs RaoBlackwellProofs.
Import ListNotations.
Open Scope nat_scope.

Lemma bshape_front : forall n ev, bshape (n :: ev) ev = Some (n :: ev).
Proof.
  intros n ev. unfold bshape. simpl rev. replace (bshape_rev (rev ev ++ [n]) (rev ev)) with (Some (rev ev ++ [n])).
  - simpl. rewrite rev_app_distr, rev_involutive. reflexivity.
  - symmetry. induction (rev ev) as [|x l IH]; simpl; auto. now rewrite IH, Nat.eqb_refl.
Qed.
Lemma bshape_same : forall s, bshape s s = Some s.
Proof.
  intros s. unfold bshape. replace (bshape_rev (rev s) (rev s)) with (Some (rev s)); [simpl; now rewrite rev_involutive|].
  symmetry. induction (rev s) as [|x l IH]; simpl; auto. now rewrite IH, Nat.eqb_refl.
Qed.
Lemma bidx_front : forall i e ev, valid e ev -> bidx ev (i :: e) = e.
Proof.
  intros i e ev H. unfold bidx. pose proof (valid_length _ _ H) as L. replace (length (i :: e) - length ev) with 1 by (cbn [length]; lia).
  simpl. now apply zip_clip_valid.
Qed.
Lemma zip_clip_ones : forall k e, length e = k -> zip_clip (repeat 1 k) e = repeat 0 k.
Proof. induction k as [|k IH]; intros [|i e] H; simpl in *; try discriminate; auto. now rewrite IH by lia. Qed.
Lemma proj_ones : forall k e, length e = k -> proj (repeat 1 k) e = repeat 0 k.
Proof. intros. rewrite proj_zip_clip. now apply zip_clip_ones. Qed.
Lemma broadcasts_self : forall ev, broadcasts ev ev ev.
Proof. induction ev; constructor; auto. Qed.
Lemma broadcasts_ones_r : forall ev, broadcasts ev (repeat 1 (length ev)) ev.
Proof. induction ev; simpl; constructor; auto. Qed.
Lemma broadcasts_ones_l : forall ev, broadcasts (repeat 1 (length ev)) ev ev.
Proof. induction ev; simpl; constructor; auto. Qed.
Lemma pad_self : forall ev, pad (length ev) ev = ev.
Proof. intros ev. unfold pad. rewrite Nat.sub_diag. simpl. apply app_nil_r. Qed.

Section OnePlate.
Context {V : Type}.
Variable veq : V -> V -> bool.
Variable anc_unwrap : plate V -> stensor V -> res (stensor V).
Variable o : sops V.
Hypothesis Hring : is_ring o.
Variable o_exp : V -> V.
Notation plate := (plate V).
Notation stensor := (stensor V).
Notation N l := (map (@pname V) l).
Let Hring' : ring_theory (o_zero o) (o_one o) (o_add o) (o_mul o) (o_sub o) (o_opp o) (@eq V) := Hring.
Add Ring o_ring : Hring'.
Notation op1 := (torch_op1 veq anc_unwrap top_ctx).
Notation op2 := (torch_op2 veq anc_unwrap top_ctx).

Variables (name : string) (n : nat) (w : ten V).
Hypothesis Hn : 2 <= n.
Hypothesis Hw : shape w = [] \/ shape w = [n].
(** The plate: n samples with one weight or a weight each. *)
Definition P : plate := mkPlate PlainPlate name n (WTorch w) [].
Definition wv (i : nat) : V := el w (match shape w with [] => [] | _ => [i] end).

Lemma P_wide : wide [P] = [P].
Proof. unfold wide. simpl. replace (1 <? n) with true by (symmetry; apply Nat.ltb_lt; lia). reflexivity. Qed.
Lemma P_sound : sound veq [P].
Proof. apply lone_sound; auto; [simpl; lia|]. unfold peq, plate_eq_base, P. cbn [pcls pname pn pweight]. rewrite String.eqb_refl, !Nat.eqb_refl. reflexivity. Qed.
Lemma P_fits : weight_fits [P] P.
Proof. destruct Hw as [H|H]; [left|right]; simpl; auto. Qed.
Lemma P_closed : closed [P].
Proof. intros p q [<-|[]] []. Qed.
Lemma den_P : forall (a : stensor) i e, splates a = [P] -> forall s, s name = i -> den a s e = el (st a) (i :: e).
Proof. intros a i e H s <-. unfold den. rewrite H, P_wide. reflexivity. Qed.
Definition at_ (i : nat) : assignment := fun _ => i.
Lemma at_range : forall i, i < n -> in_range (at_ i) [P].
Proof. intros i Hi p [<-|[]]. exact Hi. Qed.
Lemma P_range : forall s, in_range s [P] -> s name < n.
Proof. intros s H. exact (H P (or_introl eq_refl)). Qed.

(** [v] is a storch tensor over the plate whose event with index e of sample i is [f i e]. *)
Definition hold (v : pyval V) (ev : list nat) (f : nat -> list nat -> V) : Prop :=
  exists a, v = PT a /\ wf a /\ splates a = [P] /\ s_event_shape a = ev /\ forall i e, i < n -> valid e ev -> el (st a) (i :: e) = f i e.
(** [v] is a storch tensor without plates. *)
Definition free (v : pyval V) (ev : list nat) (f : list nat -> V) : Prop :=
  exists a, v = PT a /\ wf a /\ splates a = [] /\ s_event_shape a = ev /\ forall e, valid e ev -> el (st a) e = f e.

Lemma hold_ext : forall v ev f g, hold v ev f -> (forall i e, i < n -> valid e ev -> f i e = g i e) -> hold v ev g.
Proof. intros v ev f g [a [-> [W [Pl [E D]]]]] H. exists a. repeat split; auto; try apply W. intros i e Hi He. rewrite D by auto. auto. Qed.
Lemma free_ext : forall v ev f g, free v ev f -> (forall e, valid e ev -> f e = g e) -> free v ev g.
Proof. intros v ev f g [a [-> [W [Pl [E D]]]]] H. exists a. repeat split; auto; try apply W. intros e He. rewrite D by auto. auto. Qed.

Lemma P_callable : forall ts : list stensor, Forall wf ts -> (forall t, In t ts -> splates t = [P]) -> callable veq ts.
Proof. intros ts H1 H2. apply (over_callable veq [P] P_sound); auto. intros t Ht. rewrite (H2 t Ht). apply incl_refl. Qed.

Lemma hold_op1 : forall h v ev f base, hold v ev f -> exists r, op1 h v base = Ok r /\ hold r ev (fun i e => h (f i e)).
Proof.
  intros h v ev f base [a [-> [W [Pl [E D]]]]].
  destruct (op1_spec veq anc_unwrap h a base) as [r [R1 [R2 [R3 [R4 [_ [_ [_ R5]]]]]]]].
  { apply P_callable; [auto|]. intros t [<-|[]]. auto. }
  exists (PT r). split; [exact R1|]. exists r. split; [reflexivity|]. split; [exact R4|]. split; [congruence|]. split; [congruence|].
  intros i e Hi He. specialize (R5 (at_ i) e). rewrite Pl, E in R5. specialize (R5 (at_range i Hi) He).
  rewrite (den_P r i e) in R5 by (auto; congruence). rewrite (den_P a i e) in R5 by auto. rewrite R5, D; auto.
Qed.
Lemma hold_op2 : forall h v x ea eb ev f g base, hold v ea f -> hold x eb g ->
  broadcasts (pad (Nat.max (length ea) (length eb)) ea) (pad (Nat.max (length ea) (length eb)) eb) ev ->
  (forall e, valid e ev -> valid (proj ea e) ea /\ valid (proj eb e) eb) ->
  exists r, op2 h v x base = Ok r /\ hold r ev (fun i e => h (f i (proj ea e)) (g i (proj eb e))).
Proof.
  intros h v x ea eb ev f g base [a [-> [W [Pl [E D]]]]] [b [-> [W' [Pl' [E' D']]]]] Hb Hp.
  destruct (op2_spec veq anc_unwrap h a b base ev) as [r [R1 [R2 [R3 [R4 [_ [_ [_ R5]]]]]]]].
  { apply P_callable; [repeat constructor; apply W || apply W'|]. intros t [<-|[<-|[]]]; auto. }
  { unfold s_event_dims. rewrite E, E'. exact Hb. }
  assert (Er : splates r = [P]).
  { rewrite R2, Pl, Pl'. unfold union. simpl. rewrite String.eqb_refl. reflexivity. }
  exists (PT r). split; [exact R1|]. exists r. split; [reflexivity|]. split; [exact R4|]. split; [exact Er|]. split; [congruence|].
  intros i e Hi He. specialize (R5 (at_ i) e). rewrite Er in R5. specialize (R5 (at_range i Hi) He).
  rewrite (den_P r i e) in R5 by auto. rewrite R5, E, E'. destruct (Hp e He) as [H1 H2].
  rewrite (den_P a i) by auto. rewrite (den_P b i) by auto. rewrite D, D'; auto.
Qed.
Lemma hold_same : forall h v x ev f g base, hold v ev f -> hold x ev g -> exists r, op2 h v x base = Ok r /\ hold r ev (fun i e => h (f i e) (g i e)).
Proof.
  intros h v x ev f g base H1 H2. destruct (hold_op2 h v x ev ev ev f g base H1 H2) as [r [R1 R2]].
  - rewrite Nat.max_id, pad_self. apply broadcasts_self.
  - intros e He. rewrite proj_valid by auto. auto.
  - exists r. split; auto. apply (hold_ext _ _ _ _ R2). intros i e Hi He. now rewrite proj_valid by auto.
Qed.
(** The second operand is one number per sample, with or without dimensions of size one. *)
Lemma hold_row : forall h v x ev k f g base, hold v ev f -> hold x (repeat 1 k) (fun i _ => g i) -> k <= length ev ->
  exists r, op2 h v x base = Ok r /\ hold r ev (fun i e => h (f i e) (g i)).
Proof.
  intros h v x ev k f g base H1 H2 Hk. destruct (hold_op2 h v x ev (repeat 1 k) ev f (fun i _ => g i) base H1 H2) as [r [R1 R2]].
  - rewrite repeat_length. replace (Nat.max (length ev) k) with (length ev) by lia. rewrite pad_self. unfold pad. rewrite repeat_length, <- repeat_app.
    replace (k + (length ev - k)) with (length ev) by lia. apply broadcasts_ones_r.
  - intros e He. rewrite proj_valid by auto. split; auto.
    rewrite proj_zip_clip. assert (L : k <= length e) by (rewrite (valid_length _ _ He); exact Hk). clear -L. revert e L.
    induction k as [|k IH]; intros [|i e] L; simpl in *; try lia; constructor; [lia|apply IH; lia].
  - exists r. split; auto. apply (hold_ext _ _ _ _ R2). intros i e Hi He. now rewrite proj_valid by auto.
Qed.
Lemma hold_scalar : forall h (c : V) v ev f base, hold v ev f -> exists r, op2 h (PRaw (tscalar c)) v base = Ok r /\ hold r ev (fun i e => h c (f i e)).
Proof.
  intros h c v ev f base [a [-> [W [Pl [E D]]]]].
  destruct (op2_scalar veq anc_unwrap h c a base true) as [r [R1 [R2 [R3 [R4 [_ [_ [_ R5]]]]]]]].
  { apply P_callable; [auto|]. intros t [<-|[]]. auto. }
  exists (PT r). split; [exact R1|]. exists r. split; [reflexivity|]. split; [exact R4|]. split; [congruence|]. split; [congruence|].
  intros i e Hi He. specialize (R5 (at_ i) e). rewrite Pl, E in R5. specialize (R5 (at_range i Hi) He).
  rewrite (den_P r i e) in R5 by (auto; congruence). rewrite (den_P a i e) in R5 by auto. rewrite R5, D; auto.
Qed.
Lemma hold_box : forall v ev f base, hold v ev f -> exists r, magic_box veq anc_unwrap o o_exp v base = Ok r /\ hold r ev (fun i e => box o o_exp (f i e)).
Proof.
  intros v ev f base H. unfold magic_box.
  destruct (hold_op1 (o_det o) v ev f base H) as [d [D1 D2]]. rewrite D1. cbn [bind].
  destruct (hold_same (o_sub o) v d ev f _ (base + 2) H D2) as [x [X1 X2]]. rewrite X1. cbn [bind].
  destruct (hold_op1 o_exp x ev _ (base + 4) X2) as [r [R1 R2]]. exists r. split; [exact R1|exact R2].
Qed.
(** reduce_plates averages over the plate. *)
Lemma hold_reduce : forall v ev f base, hold v ev f -> exists a, reduce_plates veq anc_unwrap o top_ctx v [] false base = Ok a /\
  free (PT a) ev (fun e => osum o (map (fun i => o_mul o (wv i) (f i e)) (seq 0 n))).
Proof.
  intros v ev f base [a [-> [W [Pl [E D]]]]].
  destruct (reduce_plates_top veq anc_unwrap o Hring (PT a) [] a (splates a) false base) as [r [k [R1 [R2 [R3 [R4 [R5 R6]]]]]]].
  - constructor.
  - exact W.
  - rewrite Pl. exact P_sound.
  - apply (wf_names a W).
  - rewrite Pl. apply closed_no_gaps, P_closed.
  - rewrite Pl. apply lone_acyclic. reflexivity.
  - rewrite Pl. intros p [<-|[]]. exact P_fits.
  - assert (k = 0) as ->. { apply R5. rewrite Pl. intros p [<-|[]]. unfold padded. simpl. auto. }
    simpl in R3. rewrite app_nil_r in R3. assert (Er : splates r = []) by (rewrite R2, Pl; simpl; now rewrite String.eqb_refl).
    exists r. split; [exact R1|]. exists r. split; [reflexivity|]. split; [exact R4|]. split; [exact Er|]. split; [congruence|].
    intros e He. specialize (R6 (at_ 0) e). rewrite Er, E in R6. specialize (R6 (fun p (H : In p []) => match H with end) He).
    cbn [repeat] in R6. rewrite app_nil_r in R6. unfold den at 1 in R6. rewrite Er in R6. simpl in R6. rewrite R6.
    unfold weighted_sum. rewrite Pl. simpl sum_over. f_equal. apply map_ext_in. intros i Hi. apply in_seq in Hi.
    rewrite (den_P a i e) by (auto; unfold set_to; simpl; now rewrite String.eqb_refl). rewrite D by (auto; lia).
    unfold weight_at, wv. cbn [pweight P pname]. unfold set_to. rewrite String.eqb_refl. ring.
Qed.

(** Tensors without plates. *)
Lemma free_callable : forall ts : list stensor, Forall wf ts -> (forall t, In t ts -> splates t = []) -> callable veq ts.
Proof. intros. now apply no_plates_callable. Qed.
Lemma free_fn1 : forall g v ev f base t, free v ev f -> (forall u, shape u = ev -> (forall e, valid e ev -> el u e = f e) -> exists t', g u = Ok t' /\ teq t t') ->
  exists r, handle_deterministic veq anc_unwrap top_ctx (torch_fn1 g) [v] [] [] default_opts base = Ok r /\ free r (shape t) (el t).
Proof.
  intros g v ev f base t [a [-> [W [Pl [E D]]]]] H.
  assert (HC : callable veq [a]) by (apply free_callable; [auto|intros x [<-|[]]; auto]).
  destruct (prepare_single veq anc_unwrap a default_opts HC eq_refl eq_refl eq_refl eq_refl eq_refl) as [u [U1 [U2 U3]]].
  assert (Su : shape (st a) = ev) by (rewrite (wf_shape a W), Pl; exact E).
  destruct (H u) as [t' [T1 [T2 T3]]]; [congruence|intros e He; rewrite <- U3 by (rewrite Su; exact He); auto|].
  destruct (call_done veq anc_unwrap (torch_fn1 g) [PT a] [] [PRaw u] [] [a] default_opts base) as [_ [C _]]; [discriminate|exact HC|reflexivity|exact U1|].
  destruct (C t' (shape t)) as [r [R1 [R2 [R3 [R4 [R5 _]]]]]].
  - simpl. rewrite T1. reflexivity.
  - rewrite all_plates_single, Pl. simpl. congruence.
  - exists (PT r). split; [exact R1|]. exists r. rewrite all_plates_single, Pl in R2. repeat split; auto; try apply R5.
    intros e He. rewrite R3. symmetry. now apply T3.
Qed.
Lemma free_op2 : forall h v x ea eb ev f g base, free v ea f -> free x eb g ->
  broadcasts (pad (Nat.max (length ea) (length eb)) ea) (pad (Nat.max (length ea) (length eb)) eb) ev ->
  (forall e, valid e ev -> valid (proj ea e) ea /\ valid (proj eb e) eb) ->
  exists r, op2 h v x base = Ok r /\ free r ev (fun e => h (f (proj ea e)) (g (proj eb e))).
Proof.
  intros h v x ea eb ev f g base [a [-> [W [Pl [E D]]]]] [b [-> [W' [Pl' [E' D']]]]] Hb Hp.
  destruct (op2_spec veq anc_unwrap h a b base ev) as [r [R1 [R2 [R3 [R4 [_ [_ [_ R5]]]]]]]].
  { apply free_callable; [repeat constructor; apply W || apply W'|]. intros t [<-|[<-|[]]]; auto. }
  { unfold s_event_dims. rewrite E, E'. exact Hb. }
  assert (Er : splates r = []) by (rewrite R2, Pl, Pl'; reflexivity).
  exists (PT r). split; [exact R1|]. exists r. split; [reflexivity|]. split; [exact R4|]. split; [exact Er|]. split; [congruence|].
  intros e He. specialize (R5 (at_ 0) e). rewrite Er in R5. specialize (R5 (fun p (H : In p []) => match H with end) He).
  unfold den in R5. rewrite Er, Pl, Pl', E, E' in R5. simpl in R5. rewrite R5. destruct (Hp e He) as [H1 H2]. rewrite D, D'; auto.
Qed.
Lemma free_scalar : forall h (c : V) v ev f base, free v ev f -> exists r, op2 h (PRaw (tscalar c)) v base = Ok r /\ free r ev (fun e => h c (f e)).
Proof.
  intros h c v ev f base [a [-> [W [Pl [E D]]]]].
  destruct (op2_scalar veq anc_unwrap h c a base true) as [r [R1 [R2 [R3 [R4 [_ [_ [_ R5]]]]]]]].
  { apply free_callable; [auto|]. intros t [<-|[]]. auto. }
  exists (PT r). split; [exact R1|]. exists r. split; [reflexivity|]. split; [exact R4|]. split; [congruence|]. split; [congruence|].
  intros e He. specialize (R5 (at_ 0) e). rewrite Pl, E in R5. specialize (R5 (fun p (H : In p []) => match H with end) He).
  unfold den in R5. rewrite R2, Pl in R5. simpl in R5. rewrite R5, D; auto.
Qed.

(** squeeze(0) of a tensor with one dimension. *)
Lemma free_squeeze : forall v ev f base, free v ev f -> length ev = 1 ->
  exists r ev', squeeze_first veq anc_unwrap v base = Ok r /\ (ev' = ev \/ (ev = [1] /\ ev' = [])) /\ free r ev' (fun e => f (if list_eqb ev [1] then [0] else e)).
Proof.
  intros v ev f base H L. destruct ev as [|m [|? ?]]; try discriminate. unfold squeeze_first. destruct (Nat.eq_dec m 1) as [->|Hm].
  - destruct (free_fn1 (fun t => Ok (match shape t with 1 :: r => mkten r (fun i => el t (0 :: i)) | _ => t end)) v [1] f base (mkten [] (fun _ => f [0])) H) as [r [R1 R2]].
    + intros u Hu Hf. rewrite Hu. eexists. split; [reflexivity|]. split; [reflexivity|]. simpl. intros e He. inversion He; subst. symmetry. apply Hf. repeat constructor.
    + exists r, []. split; [exact R1|]. split; [auto|]. apply (free_ext _ _ _ _ R2). reflexivity.
  - destruct (free_fn1 (fun t => Ok (match shape t with 1 :: r => mkten r (fun i => el t (0 :: i)) | _ => t end)) v [m] f base (mkten [m] f) H) as [r [R1 R2]].
    + intros u Hu Hf. rewrite Hu. destruct m as [|[|m]]; try lia; eexists; (split; [reflexivity|]); split; simpl; auto; intros e He; symmetry; now apply Hf.
    + exists r, [m]. split; [exact R1|]. split; [auto|]. apply (free_ext _ _ _ _ R2). intros e He. simpl. destruct (Nat.eqb_spec m 1); [lia|]. reflexivity.
Qed.

(** torch.stack of one tensor, and the sum of everything. *)
Lemma free_total : forall x ev f base base', free x ev f ->
  exists v, handle_deterministic veq anc_unwrap top_ctx stack_fn [PList [x]] [] [] default_opts base = Ok v /\
  exists r, handle_deterministic veq anc_unwrap top_ctx (torch_fn1 (fun t => Ok (tsum o t))) [v] [] [] default_opts base' = Ok r /\
    free r [] (fun _ => osum o (map f (indices ev))).
Proof.
  intros x ev f base base' [a [-> [W [Pl [E D]]]]].
  assert (HC : callable veq [a]) by (apply free_callable; [auto|intros y [<-|[]]; auto]).
  destruct (prepare_args_laid_out veq anc_unwrap [PList [PT a]] [] default_opts [a]) as [args' [kwargs' [E0 [F1 F2]]]]; auto.
  { constructor; [|constructor]. simpl. auto. }
  inversion F1 as [|? x1 ? r1 U1 F1']; subst. inversion F1'; subst. inversion F2; subst.
  inversion U1 as [ | | | | |l l' FL| | |]; subst. inversion FL as [|? y ? l2 U2 FL']; subst. inversion FL'; subst.
  inversion U2 as [? u L1| | | | | | | |]; subst.
  rewrite all_plates_single in L1. change (max_event [a]) with (Nat.max 0 (s_event_dims a)) in L1. simpl Nat.max in L1.
  destruct (laid_out_self _ _ _ W L1) as [Hs Y].
  assert (Su : shape (st a) = s_event_shape a) by (rewrite (wf_shape a W), Pl; reflexivity).
  destruct (call_done veq anc_unwrap stack_fn [PList [PT a]] [] [PList [PRaw u]] [] [a] default_opts base) as [_ [C _]]; [discriminate|exact HC|reflexivity|exact E0|].
  destruct (C (mkten (1 :: shape u) (fun i => match i with [] => el u [] | k :: j => el (nth k [u] u) j end)) (1 :: s_event_shape a)) as [r [R1 [R2 [R3 [R4 [R5 _]]]]]].
  - reflexivity.
  - rewrite all_plates_single, Pl. simpl. congruence.
  - rewrite R1. exists (PT r). split; [reflexivity|]. rewrite all_plates_single, Pl in R2.
    destruct (free_fn1 (fun t => Ok (tsum o t)) (PT r) (1 :: s_event_shape a) (fun e => f (tl e)) base' (tscalar (osum o (map f (indices (s_event_shape a)))))) as [z [Z1 Z2]].
    + exists r. split; [reflexivity|]. split; [exact R5|]. split; [exact R2|]. split; [exact R4|]. intros e He. rewrite R3. inversion He as [|i ? e' ? Hi He']; subst.
      assert (i = 0) by lia. subst i. simpl. rewrite <- Y by (rewrite Su; auto). auto.
    + intros t Ht Hf. exists (tsum o t). split; [reflexivity|]. split; [reflexivity|]. simpl. intros e _. rewrite Ht. f_equal. simpl. rewrite app_nil_r, map_map.
      apply map_ext_in. intros e0 He0. apply in_indices in He0. rewrite Hf by (constructor; [lia|auto]). reflexivity.
    + exists z. split; [exact Z1|]. exact Z2.
Qed.
End OnePlate.
