(** Proofs about all_finished. *)
From Coq Require Import String List Arith Bool Lia.
From Verif Require Import Base Torch Plates Wrap Reduce SeqPlates Names Finished SpecTensor SpecWrap SpecFinished ListLemmas IndexLemmas
  AlignProofs CallProofs CallN CallV GetitemProofs CatProofs OpProofs.
Import ListNotations.
Open Scope string_scope.
Open Scope nat_scope.
Open Scope list_scope.

(** Counting. *)
Lemma sum_count : forall eos (x : nat -> nat) l, list_sum (map (fun j => if x j =? eos then 1 else 0) l) = length (filter (fun j => x j =? eos) l).
Proof. induction l as [|j l IH]; simpl; auto. destruct (x j =? eos); simpl; auto. Qed.
Lemma filter_le : forall {A} (f : A -> bool) l, length (filter f l) <= length l.
Proof. induction l as [|x l IH]; simpl; auto. destruct (f x); simpl; lia. Qed.
Lemma filter_full : forall {A} (f : A -> bool) l, length (filter f l) = length l <-> forall x, In x l -> f x = true.
Proof.
  induction l as [|x l IH]; simpl; [split; [intros _ x []|auto]|]. pose proof (filter_le f l). destruct (f x) eqn:E; simpl.
  - split; [intros H1 y [<-|Hy]; auto; apply IH; auto|intros H1; f_equal; apply IH; auto].
  - split; [lia|]. intros H1. rewrite (H1 x) in E by auto. discriminate.
Qed.
Lemma occ_le : forall eos m x, occurrences eos m x <= m.
Proof. intros. unfold occurrences. etransitivity; [apply filter_le|]. now rewrite seq_length. Qed.
Lemma occ_full : forall eos m x, occurrences eos m x = m <-> forall j, j < m -> x j = eos.
Proof.
  intros eos m x. unfold occurrences. rewrite <- (seq_length m 0) at 2. rewrite filter_full. split; intros H j Hj.
  - apply Nat.eqb_eq, H, in_seq. lia.
  - apply in_seq in Hj. apply Nat.eqb_eq, H. lia.
Qed.
Lemma valid_snoc : forall i j s n, valid i s -> j < n -> valid (i ++ [j]) (s ++ [n]).
Proof. intros. apply Forall2_app; auto. Qed.
Lemma valid_snoc_inv : forall i s n, valid i (s ++ [n]) -> exists i' j, i = i' ++ [j] /\ valid i' s /\ j < n.
Proof.
  intros i s n H. apply Forall2_app_inv_r in H. destruct H as [a [b [H1 [H2 ->]]]]. inversion H2 as [|j ? ? ? Hj H3]; subst. inversion H3; subst. eauto.
Qed.

(** Tensors. *)
Lemma sum_last_spec : forall (t : ten nat) s n, shape t = s ++ [n] ->
  exists r, sum_last [t] = Ok r /\ shape r = s /\ forall i, el r i = list_sum (map (fun j => el t (i ++ [j])) (seq 0 n)).
Proof.
  intros t s n H. unfold sum_last. rewrite H, rev_app_distr. cbn [rev app]. eexists. split; [reflexivity|]. cbn [shape el]. rewrite rev_involutive. auto.
Qed.
Lemma all_true_spec : forall t : ten nat, all_true t = true <-> forall i, valid i (shape t) -> el t i <> 0.
Proof.
  intros t. unfold all_true. rewrite forallb_forall. split; intros H i Hi.
  - apply in_indices in Hi. apply H in Hi. apply negb_true_iff in Hi. now apply Nat.eqb_neq.
  - apply in_indices in Hi. apply H in Hi. apply negb_true_iff. now apply Nat.eqb_neq.
Qed.
Lemma all_true_eq : forall k (t : ten nat), all_true (eq_to k t) = true <-> forall i, valid i (shape t) -> el t i = k.
Proof.
  intros k t. rewrite all_true_spec. unfold eq_to, tmap. cbn [shape el]. split; intros H i Hi; specialize (H i Hi); destruct (Nat.eqb_spec (el t i) k); congruence.
Qed.

Section Finished.
Variable veq : nat -> nat -> bool.
Variable anc_unwrap : plate nat -> stensor nat -> res (stensor nat).
Notation stensor := (stensor nat).

(** A wrapped function of one tensor that keeps the plate dimensions. *)
Lemma one_call : forall name f (a : stensor) base evc, callable veq [a] ->
  mem_name name exception_methods = false -> mem_name name excluded_methods = false -> mem_name name expand_methods = false ->
  (forall u, teq (st a) u -> exists t, f [u] = Ok t /\ shape t = map pn (wide (splates a)) ++ evc) ->
  exists u t r, torch_function veq anc_unwrap name (torch_fnN f) [PT a] [] base = Ok (PT r) /\ teq (st a) u /\ f [u] = Ok t /\ st r = t /\
    splates r = splates a /\ s_event_shape r = evc /\ callable veq [r].
Proof.
  intros name f a base evc HC N1 N2 N3 Hf. pose proof (proj1 HC) as Hw. inversion Hw as [|? ? Hw' _]; subst.
  destruct (prepare_single veq anc_unwrap a default_opts HC) as [u [E Hu]]; auto. destruct (Hf u Hu) as [t [T1 T2]].
  destruct (call_done veq anc_unwrap (torch_fnN f) _ _ _ _ [a] default_opts base ltac:(discriminate) HC eq_refl E) as [_ [K _]].
  rewrite all_plates_single in K. destruct (K t evc) as [r [R1 [R2 [R3 [R4 [R5 _]]]]]]; [unfold torch_fnN; simpl raws; cbv iota; rewrite T1; reflexivity|exact T2|].
  rewrite all_plates_single in R2. exists u, t, r. unfold torch_function. rewrite N1, N2, N3. split; [exact R1|]. split; [exact Hu|]. split; [exact T1|]. split; [exact R3|].
  split; [exact R2|]. split; [exact R4|]. destruct HC as [H1 [H2 H3]]. split; [constructor; auto|]. cbn [flat_map] in *. rewrite R2. auto.
Qed.

Lemma marked : forall e (a : stensor) old base, callable veq [a] ->
  exists f, mark veq anc_unwrap (Some (S e)) (DrawnStorch a) old base = Ok (Some (DrawnStorch f)) /\ splates f = splates a /\ s_event_shape f = s_event_shape a /\ callable veq [f] /\
    forall i, valid i (shape (st a)) -> el (st f) i = if el (st a) i =? S e then 1 else 0.
Proof.
  intros e a old base HC. pose proof (proj1 HC) as Hw. inversion Hw as [|? ? Hw' _]; subst.
  destruct (one_call "eq" (eq_fn (S e)) a base (s_event_shape a) HC eq_refl eq_refl eq_refl) as [u [t [r [R1 [[Hu1 Hu2] [R2 [R3 [R4 [R5 R6]]]]]]]]].
  { intros u [Hs _]. eexists. split; [reflexivity|]. cbn. rewrite <- Hs. apply wf_shape; auto. }
  exists r. unfold mark. rewrite R1. cbn [bind as_tensor]. split; [reflexivity|]. split; [exact R4|]. split; [exact R5|]. split; [exact R6|].
  intros i Hi. rewrite R3. injection R2 as <-. cbn. now rewrite Hu2.
Qed.

Theorem storch_finished : forall k e (a : stensor) old base ev m, callable veq [a] -> s_event_shape a = ev ++ [m] ->
  exists f b, mark veq anc_unwrap (Some (S e)) (DrawnStorch a) old base = Ok f /\ all_finished veq anc_unwrap k (Some (S e)) f (base + 2) = Ok b /\
    (b = true <-> forall s i, in_range s (splates a) -> valid i ev -> occurrences (S e) m (fun j => den a s (i ++ [j])) = k).
Proof.
  intros k e a old base ev m HC Hev. pose proof (proj1 HC) as Hw. inversion Hw as [|? ? Hw' _]; subst.
  destruct (marked e a old base HC) as [f [F1 [F2 [F3 [F4 F5]]]]]. pose proof (proj1 F4) as Fw. inversion Fw as [|? ? Fw' _]; subst.
  destruct (one_call "sum" sum_last f (base + 2) ev F4 eq_refl eq_refl eq_refl) as [u [t [r [R1 [[Hu1 Hu2] [R2 [R3 [R4 [R5 R6]]]]]]]]].
  { intros u [Hs _]. destruct (sum_last_spec u (map pn (wide (splates f)) ++ ev) m) as [t [T1 [T2 _]]]; [|eauto].
    rewrite <- Hs, (wf_shape f Fw'), F3, Hev. apply app_assoc. }
  pose proof (proj1 R6) as Rw. inversion Rw as [|? ? Rw' _]; subst.
  destruct (one_call "eq" (eq_fn k) r (base + 2 + 2) (s_event_shape r) R6 eq_refl eq_refl eq_refl) as [v [t2 [q [Q1 [[Hv1 Hv2] [Q2 [Q3 [Q4 [Q5 Q6]]]]]]]]].
  { intros v [Hs _]. eexists. split; [reflexivity|]. cbn. rewrite <- Hs. apply wf_shape; auto. }
  exists (Some (DrawnStorch f)), (all_true (st q)). split; [exact F1|]. split.
  { unfold all_finished, get_amt_finished. rewrite R1. cbn [bind as_tensor]. rewrite Q1. reflexivity. }
  rewrite Q3. injection Q2 as <-. rewrite all_true_eq.
  assert (Sf : shape u = (map pn (wide (splates a)) ++ s_event_shape r) ++ [m]) by (rewrite <- Hu1, (wf_shape f Fw'), F2, F3, Hev; apply app_assoc).
  destruct (sum_last_spec u _ m Sf) as [t' [T1 [T2 T3]]]. rewrite R2 in T1. injection T1 as <-.
  assert (C : forall s i, in_range s (splates a) -> valid i (s_event_shape r) ->
    el v (map (fun p => s (pname p)) (wide (splates a)) ++ i) = occurrences (S e) m (fun j => den a s (i ++ [j]))).
  { intros s i Hs Hi. assert (Vi : valid (map (fun p => s (pname p)) (wide (splates a)) ++ i) (map pn (wide (splates a)) ++ s_event_shape r)).
    { apply Forall2_app; auto. apply valid_choice. now apply in_range_wide_all. }
    rewrite <- Hv2 by now rewrite T2. rewrite T3. unfold occurrences. rewrite <- sum_count. f_equal. apply map_ext_in. intros j Hj. apply in_seq in Hj.
    assert (Vj : valid ((map (fun p => s (pname p)) (wide (splates a)) ++ i) ++ [j]) (shape (st f))) by (rewrite Hu1, Sf; apply valid_snoc; auto; lia).
    rewrite <- Hu2 by auto. rewrite F5. { unfold den. now rewrite <- app_assoc. }
    rewrite (wf_shape a Hw'), Hev. rewrite (wf_shape f Fw'), F2, F3, Hev in Vj. exact Vj. }
  split.
  - intros H s i Hs Hi. rewrite <- C by auto. apply H. rewrite <- Hv1, T2. apply Forall2_app; auto. apply valid_choice. now apply in_range_wide_all.
  - intros H i Hi. rewrite <- Hv1, T2 in Hi. apply Forall2_app_inv_r in Hi. destruct Hi as [i1 [i2 [V1 [V2 ->]]]].
    destruct (choice_exists anc_unwrap (splates a) i1 (wf_names a Hw') (wf_pos a Hw') V1) as [s [Hs ->]]. rewrite C by auto. auto.
Qed.

Theorem torch_finished : forall k e (t : ten nat) old base sh m, shape t = sh ++ [m] ->
  exists f b, mark veq anc_unwrap (Some (S e)) (DrawnTorch t) old base = Ok f /\ all_finished veq anc_unwrap k (Some (S e)) f (base + 2) = Ok b /\
    (b = true <-> forall i, valid i sh -> occurrences (S e) m (fun j => el t (i ++ [j])) = k).
Proof.
  intros k e t old base sh m Hs. destruct (sum_last_spec (eq_to (S e) t) sh m) as [r [R1 [R2 R3]]]; [exact Hs|].
  eexists _, _. split; [reflexivity|]. unfold all_finished, get_amt_finished. rewrite R1. cbn [bind]. split; [reflexivity|]. rewrite all_true_eq, R2.
  assert (C : forall i, el r i = occurrences (S e) m (fun j => el t (i ++ [j]))).
  { intros i. rewrite R3. unfold occurrences. rewrite <- sum_count. reflexivity. }
  split; intros H i Hi; specialize (H i Hi); rewrite C in *; exact H.
Qed.

(** As many samples as the method keeps. *)
Theorem storch_all : forall k e (a : stensor) old base, callable veq [a] -> s_event_shape a = [k] ->
  exists f b, mark veq anc_unwrap (Some (S e)) (DrawnStorch a) old base = Ok f /\ all_finished veq anc_unwrap k (Some (S e)) f (base + 2) = Ok b /\
    (b = true <-> all_ended (S e) a).
Proof.
  intros k e a old base HC Hev. destruct (storch_finished k e a old base [] k HC Hev) as [f [b [F1 [F2 F3]]]]. exists f, b. split; [exact F1|]. split; [exact F2|].
  rewrite F3. unfold all_ended. rewrite Hev. split.
  - intros H s i Hs Hi. inversion Hi as [|j ? r ? Hj Hr]; subst. inversion Hr; subst. specialize (H s [] Hs ltac:(constructor)). rewrite occ_full in H. apply (H j Hj).
  - intros H s i Hs Hi. inversion Hi; subst. apply occ_full. intros j Hj. apply H; auto. repeat constructor; auto.
Qed.
Theorem torch_all : forall k e (t : ten nat) old base, shape t = [k] ->
  exists f b, mark veq anc_unwrap (Some (S e)) (DrawnTorch t) old base = Ok f /\ all_finished veq anc_unwrap k (Some (S e)) f (base + 2) = Ok b /\
    (b = true <-> all_ended_torch (S e) t).
Proof.
  intros k e t old base Hs. destruct (torch_finished k e t old base [] k Hs) as [f [b [F1 [F2 F3]]]]. exists f, b. split; [exact F1|]. split; [exact F2|].
  rewrite F3. unfold all_ended_torch. rewrite Hs. split.
  - intros H i Hi. inversion Hi as [|j ? r ? Hj Hr]; subst. inversion Hr; subst. specialize (H [] ltac:(constructor)). rewrite occ_full in H. apply (H j Hj).
  - intros H i Hi. inversion Hi; subst. apply occ_full. intros j Hj. apply H. repeat constructor; auto.
Qed.

(** A last dimension smaller than k. *)
Lemma some_valid : forall sh, Forall (fun n => 1 <= n) sh -> exists i, valid i sh.
Proof. induction 1 as [|n sh H _ [i IH]]; [exists []; constructor|]. exists (0 :: i). constructor; auto. Qed.
Theorem storch_short : forall k e (a : stensor) old base ev m, callable veq [a] -> s_event_shape a = ev ++ [m] -> Forall (fun n => 1 <= n) ev -> m < k ->
  exists f, mark veq anc_unwrap (Some (S e)) (DrawnStorch a) old base = Ok f /\ all_finished veq anc_unwrap k (Some (S e)) f (base + 2) = Ok false.
Proof.
  intros k e a old base ev m HC Hev Hp Hm. destruct (storch_finished k e a old base ev m HC Hev) as [f [b [F1 [F2 F3]]]]. exists f. split; [exact F1|]. rewrite F2. f_equal.
  destruct b; auto. exfalso. destruct F3 as [F3 _]. specialize (F3 eq_refl). destruct (some_valid ev Hp) as [i Hi].
  pose proof (proj1 HC) as Hw. inversion Hw as [|? ? Hw' _]; subst.
  assert (R : in_range (fun _ => 0) (splates a)) by (intros p Hq; pose proof (wf_pos a Hw' p Hq); lia).
  specialize (F3 _ i R Hi). pose proof (occ_le (S e) m (fun j => den a (fun _ => 0) (i ++ [j]))). lia.
Qed.
Theorem torch_short : forall k e (t : ten nat) old base sh m, shape t = sh ++ [m] -> Forall (fun n => 1 <= n) sh -> m < k ->
  exists f, mark veq anc_unwrap (Some (S e)) (DrawnTorch t) old base = Ok f /\ all_finished veq anc_unwrap k (Some (S e)) f (base + 2) = Ok false.
Proof.
  intros k e t old base sh m Hs Hp Hm. destruct (torch_finished k e t old base sh m Hs) as [f [b [F1 [F2 F3]]]]. exists f. split; [exact F1|]. rewrite F2. f_equal.
  destruct b; auto. exfalso. destruct F3 as [F3 _]. specialize (F3 eq_refl). destruct (some_valid sh Hp) as [i Hi].
  specialize (F3 i Hi). pose proof (occ_le (S e) m (fun j => el t (i ++ [j]))). lia.
Qed.
End Finished.
