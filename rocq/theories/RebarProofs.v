(** The samples that REBAR draws. *)
From Coq Require Import Reals String List Arith ZArith Lia Lra Bool.
From Verif Require Import Base Torch Plates Wrap TensorFns Sampling Relaxed SpecTensor SpecWrap SpecReduce SpecSampling SpecRelaxed SpecRebar RelaxedProofs SamplingProofs WrapProofs OpProofs CallProofs RebarSample ListLemmas IndexLemmas.
Import ListNotations.
Open Scope nat_scope.
Open Scope list_scope.

Lemma row_by_rows : forall m front K f x, length (f x) = K -> row K (by_rows m front K f) x = f x.
Proof.
  intros m front K f x H. unfold row, by_rows. cbn [el]. apply nth_ext with (d := 0%R) (d' := 0%R); [now rewrite map_length, seq_length|].
  intros n Hn. rewrite map_length, seq_length in Hn. rewrite (nth_indep _ 0%R (nth (last (x ++ [0]) 0) (f (removelast (x ++ [0]))) 0%R)) by (rewrite map_length, seq_length; lia).
  rewrite (map_nth (fun j => nth (last (x ++ [j]) 0) (f (removelast (x ++ [j]))) 0%R)). rewrite seq_nth by lia. now rewrite last_last, removelast_last.
Qed.
Lemma row_length : forall K t x, length (row K t x) = K.
Proof. intros. unfold row. now rewrite map_length, seq_length. Qed.
Lemma softmax_length : forall l, length (softmax l) = length l.
Proof. intros. unfold softmax. now rewrite map_length. Qed.
Lemma relaxed_length : forall eps tau p u, length u = length p -> length (relaxed_categorical eps tau p u) = length p.
Proof. intros. unfold relaxed_categorical. rewrite softmax_length, map_length, combine_length. lia. Qed.
Lemma relaxed_inside : forall eps tau p u, length u = length p -> p <> [] -> inside_simplex (relaxed_categorical eps tau p u).
Proof. intros eps tau [|a p] [|b u] H N; try discriminate; [contradiction|]. unfold relaxed_categorical. apply softmax_inside. discriminate. Qed.
Lemma discretize_length : forall l, length (discretize_categorical l) = length l.
Proof. intros. unfold discretize_categorical. now rewrite map_length, seq_length. Qed.
Lemma discretize_one_hot : forall l, discretize_categorical l = one_hot (length l) (argmax l).
Proof. reflexivity. Qed.

Lemma list_eqb_self : forall l, list_eqb l l = true.
Proof. induction l as [|x l IH]; [reflexivity|]. simpl. now rewrite Nat.eqb_refl, IH. Qed.

(** torch.cat of three tensors of the same shape along the first dimension. *)
Lemma cat_three : forall (m : nat) (sh : list nat) (f g h : list nat -> R),
  exists T, torch_cat [mkten (m :: sh) f; mkten (m :: sh) g; mkten (m :: sh) h] 0 = Ok T /\ shape T = 3 * m :: sh /\
    forall i x, i < m -> el T (i :: x) = f (i :: x) /\ el T (m + i :: x) = g (i :: x) /\ el T (2 * m + i :: x) = h (i :: x).
Proof.
  intros m sh f g h. unfold torch_cat. cbn [ndim shape length]. unfold norm_dim. change (0 <? 0)%Z with false. cbv iota.
  replace ((0 <=? 0) && (0 <? Z.of_nat (S (length sh))))%Z with true by (symmetry; apply andb_true_iff; split; [reflexivity|apply Z.ltb_lt; lia]). cbn [bind]. change (Z.to_nat 0) with 0.
  replace (forallb _ _) with true.
  2:{ symmetry. apply forallb_forall. intros t Ht. assert (E : shape t = m :: sh) by (destruct Ht as [<-|[<-|[<-|[]]]]; reflexivity). unfold ndim. rewrite E. apply andb_true_iff. split; [apply Nat.eqb_refl|].
      unfold ndim. cbn [shape]. apply list_eqb_self. }
  eexists. split; [reflexivity|]. split.
  - cbn [shape map nth list_sum]. unfold Ancestral.set_at. cbn. f_equal.
  - intros i x Hi. cbn [el nth cat_at shape]. unfold Ancestral.set_at. cbn [firstn skipn app].
    assert (A : (i <? m) = true) by now apply Nat.ltb_lt. rewrite A. split; [reflexivity|].
    assert (B : (m + i <? m) = false) by (apply Nat.ltb_ge; lia). rewrite B. replace (m + i - m) with i by lia. rewrite A. split; [reflexivity|].
    assert (C : (2 * m + i <? m) = false) by (apply Nat.ltb_ge; lia). rewrite C. replace (2 * m + i - m) with (m + i) by lia. rewrite B. replace (m + i - m) with i by lia. now rewrite A.
Qed.

Lemma row_discretize : forall K t x, row K (discretize_rows K t) x = discretize_categorical (row K t x).
Proof.
  intros K t x. set (f := fun y => discretize_categorical (row K t y)). change (discretize_categorical (row K t x)) with (f x).
  rewrite <- (row_by_rows 0 [] K f x) by (unfold f; now rewrite discretize_length, row_length). reflexivity.
Qed.

Section Rebar.
Variables (eps tau : R) (front : list nat) (K : nat) (probs : ten R).
Hypothesis Heps : (0 < eps < 1 / 2)%R.
Hypothesis Htau : (0 < tau)%R.
Hypothesis HK : 1 <= K.

Lemma row_head : forall (T t : ten R) (a b : nat) x, (forall y, el T (a :: y) = el t (b :: y)) -> row K T (a :: x) = row K t (b :: x).
Proof. intros T t a b x H. unfold row. apply map_ext. intros j. apply H. Qed.

Theorem rebar_rows : forall m u v, exists T, sample_gumbel eps tau front K probs true m u v = Ok T /\ shape T = 3 * m :: front ++ [K] /\
  forall i x, i < m -> exists b, b < K /\
    row K T (m + i :: x) = relaxed_categorical eps tau (row K probs x) (row K u (i :: x)) /\
    row K T (i :: x) = one_hot K b /\
    inside_simplex (row K T (m + i :: x)) /\ discretize_categorical (row K T (m + i :: x)) = one_hot K b /\
    row K T (2 * m + i :: x) = cond_categorical eps tau (one_hot K b) (row K probs x) (row K v (i :: x)) /\
    inside_simplex (row K T (2 * m + i :: x)) /\ strictly_largest (row K T (2 * m + i :: x)) b /\
    discretize_categorical (row K T (2 * m + i :: x)) = one_hot K b.
Proof.
  intros m u v. unfold sample_gumbel. set (rel := draw_relaxed eps tau front K probs m u). set (hard := discretize_rows K rel). set (cond := draw_cond eps tau front K probs m hard v).
  destruct (cat_three m (front ++ [K]) (el hard) (el rel) (el cond)) as [T [E [S1 S2]]]. exists T. split; [exact E|]. split; [exact S1|].
  intros i x Hi.
  assert (R0 : row K T (i :: x) = row K hard (i :: x)) by (apply row_head; intros y; apply (proj1 (S2 i y Hi))).
  assert (R1 : row K T (m + i :: x) = row K rel (i :: x)) by (apply row_head; intros y; apply (proj1 (proj2 (S2 i y Hi)))).
  assert (R2 : row K T (2 * m + i :: x) = row K cond (i :: x)) by (apply row_head; intros y; apply (proj2 (proj2 (S2 i y Hi)))).
  assert (Q1 : row K rel (i :: x) = relaxed_categorical eps tau (row K probs x) (row K u (i :: x))).
  { unfold rel, draw_relaxed. rewrite row_by_rows; [reflexivity|]. rewrite relaxed_length; now rewrite ?row_length. }
  assert (Q0 : row K hard (i :: x) = discretize_categorical (row K rel (i :: x))).
  { apply row_discretize. }
  set (r := row K rel (i :: x)) in *. assert (Lr : length r = K) by apply row_length.
  assert (Nr : r <> []) by (intros Z; rewrite Z in Lr; simpl in Lr; lia).
  exists (argmax r). assert (HB : argmax r < K) by (rewrite <- Lr; apply argmax_spec; exact Nr). split; [exact HB|].
  assert (D : discretize_categorical r = one_hot K (argmax r)) by (rewrite discretize_one_hot, Lr; reflexivity).
  destruct (cond_categorical_ok eps tau K (argmax r) (row K probs x) (row K v (i :: x)) Heps Htau HB (row_length _ _ _) (row_length _ _ _)) as [C1 [C2 [C3 C4]]].
  assert (Q2 : row K cond (i :: x) = cond_categorical eps tau (one_hot K (argmax r)) (row K probs x) (row K v (i :: x))).
  { unfold cond, draw_cond. rewrite row_by_rows; cbn [tl]; rewrite Q0, D; [reflexivity|exact C1]. }
  assert (I : inside_simplex r).
  { rewrite Q1. apply relaxed_inside; [now rewrite !row_length|]. intros Z. apply (f_equal (@length R)) in Z. rewrite row_length in Z. simpl in Z. lia. }
  rewrite R0, R1, R2, Q2, Q0. exact (conj Q1 (conj D (conj I (conj D (conj eq_refl (conj C2 (conj C3 C4))))))).
Qed.

(** Without rebar only the relaxed samples are drawn. *)
Theorem relax_rows : forall m u v, exists T, sample_gumbel eps tau front K probs false m u v = Ok T /\ shape T = m :: front ++ [K] /\
  forall i x, row K T (i :: x) = relaxed_categorical eps tau (row K probs x) (row K u (i :: x)).
Proof.
  intros m u v. eexists. split; [reflexivity|]. split; [reflexivity|]. intros i x. unfold draw_relaxed. rewrite row_by_rows; [reflexivity|]. rewrite relaxed_length; now rewrite ?row_length.
Qed.
End Rebar.

(** As storch tensors. *)
Section Samples.
Variable veq : R -> R -> bool.
Variables (eps tau : R) (K : nat) (probs u v : ten R) (name : string) (n : nat) (params : list (@param R)) (ev : list nat).
Notation ts := (param_tensors params).
Notation front := (map pn (wide (all_plates ts)) ++ ev).
Hypothesis Hc : callable veq ts.
Hypothesis Hn : forall t, In t ts -> ~ In name (map pname (splates t)).
Hypothesis Heps : (0 < eps < 1 / 2)%R.
Hypothesis Htau : (0 < tau)%R.
Hypothesis HK : 1 <= K.
Hypothesis Hs : 1 <= n.

Lemma fresh : forall q, In q (all_plates ts) -> pname q <> name.
Proof.
  clear Heps Htau HK Hs. intros q Hq E. destruct (all_plates_facts veq (fun _ a => Ok a) ts Hc) as [I _]. apply I in Hq. apply in_flat_map in Hq. destruct Hq as [t [Ht Hq]].
  apply (Hn t Ht). rewrite <- E. now apply in_map.
Qed.
Lemma set_others : forall (s : assignment) k, map (fun q => set_to s name k (pname q)) (wide (all_plates ts)) = map (fun q => s (pname q)) (wide (all_plates ts)).
Proof.
  clear Heps Htau HK Hs. intros s k. apply map_ext_in. intros q Hq. unfold set_to. destruct (String.eqb (pname q) name) eqn:E; [|reflexivity].
  apply String.eqb_eq in E. exfalso. apply (fresh q); auto. unfold wide in Hq. now apply filter_In in Hq.
Qed.

(** A sample drawn as [T] and then put through [post], which acts row by row. *)
Lemma sample_rows : forall mc weighting post g size T id, mc n = Ok T -> 1 <= size -> shape T = size :: front ++ [K] ->
  (forall t, shape (post t) = shape t) -> (forall t x, row K (post t) x = g (row K t x)) ->
  exists y, method_sample veq (fun n => (/ INR n)%R) name n mc weighting (Some post) params [] [] id = Ok (y, false) /\ wf y /\
    splates y = mkPlate PlainPlate name size (match weighting with Some f => WTorch (f size) | None => WTorch (tscalar (/ INR size)%R) end) (all_plates ts) :: all_plates ts /\
    s_event_shape y = ev ++ [K] /\
    forall s e k, in_range s (all_plates ts) -> k < size ->
      option_row K y (set_to s name k) e = g (row K T (k :: map (fun q => s (pname q)) (wide (all_plates ts)) ++ e)).
Proof.
  clear Heps Htau HK Hs. intros mc weighting post g size T id E1 E2 E3 P1 P2.
  destruct (sample_spec veq (fun _ a => Ok a) (fun n => (/ INR n)%R) name n mc weighting params id T size (ev ++ [K]) Hc Hn E1 E2) as [x [A1 [A2 [A3 [A4 [A5 [A6 [A7 [A8 A9]]]]]]]]].
  { now rewrite E3, <- app_assoc. }
  destruct (sample_post veq (fun n => (/ INR n)%R) name n mc weighting post params [] [] id x _ A1 A3 P1) as [y [B1 [B2 [B3 [B4 [B5 [B6 [B7 B8]]]]]]]].
  exists y. split; [exact B1|]. split; [exact B3|]. split; [now rewrite B4|]. split; [now rewrite B6|].
  intros s e k Hr Hk.
  transitivity (g (option_row K x (set_to s name k) e)).
  - unfold option_row, den. rewrite B8, B4.
    transitivity (row K (post (st x)) (map (fun p => set_to s name k (pname p)) (wide (splates x)) ++ e)).
    { unfold row. apply map_ext. intros j. now rewrite app_assoc. }
    rewrite P2. f_equal. unfold row. apply map_ext. intros j. now rewrite app_assoc.
  - f_equal. unfold option_row, row. apply map_ext. intros j. rewrite A9.
    + rewrite set_others. unfold set_to at 1. rewrite String.eqb_refl. cbn [app]. now rewrite app_assoc.
    + rewrite A4. intros p [<-|Hp]; cbn [pname pn].
      * unfold set_to. now rewrite String.eqb_refl.
      * unfold set_to. destruct (String.eqb (pname p) name) eqn:Z; [apply String.eqb_eq in Z; exfalso; now apply (fresh p)|]. now apply Hr.
Qed.

Theorem rebar_drawn : forall id, exists y, rebar_sample veq eps tau front K probs u v name n params id = Ok (y, false) /\ wf y /\
    splates y = mkPlate PlainPlate name (3 * n) (WTorch (true_samples (fun n => (/ INR n)%R) 0%R 3 (3 * n))) (all_plates ts) :: all_plates ts /\
    s_event_shape y = ev ++ [K] /\
    forall s e i, in_range s (all_plates ts) -> i < n -> exists b, b < K /\
      option_row K y (set_to s name i) e = one_hot K b /\
      inside_simplex (option_row K y (set_to s name (n + i)) e) /\
      discretize_categorical (option_row K y (set_to s name (n + i)) e) = one_hot K b /\
      inside_simplex (option_row K y (set_to s name (2 * n + i)) e) /\ strictly_largest (option_row K y (set_to s name (2 * n + i)) e) b /\
      discretize_categorical (option_row K y (set_to s name (2 * n + i)) e) = one_hot K b.
Proof.
  intros id. destruct (rebar_rows eps tau front K probs Heps Htau HK n u v) as [T [E [S1 S2]]].
  destruct (sample_rows (fun m => sample_gumbel eps tau front K probs true m u v) (Some (true_samples (fun n => (/ INR n)%R) 0%R 3)) (fun t => t) (fun r => r) (3 * n) T id E) as [y [A1 [A2 [A3 [A4 A5]]]]]; auto; [lia|].
  exists y. split; [exact A1|]. split; [exact A2|]. split; [exact A3|]. split; [exact A4|].
  intros s e i Hr Hi. destruct (S2 i (map (fun q => s (pname q)) (wide (all_plates ts)) ++ e) Hi) as [b [B [_ [B1 [B2 [B3 [_ [B4 [B5 B6]]]]]]]]].
  exists b. rewrite !A5 by (auto; lia). auto 10.
Qed.

Theorem relax_drawn : forall id, exists y, relax_sample veq eps tau front K probs u v name n params id = Ok (y, false) /\ wf y /\
    splates y = mkPlate PlainPlate name n (WTorch (tscalar (/ INR n)%R)) (all_plates ts) :: all_plates ts /\
    s_event_shape y = ev ++ [K] /\
    forall s e i, in_range s (all_plates ts) -> i < n -> exists b, b < K /\
      option_row K y (set_to s name i) e = one_hot K b /\
      let x := map (fun q => s (pname q)) (wide (all_plates ts)) ++ e in
      inside_simplex (relaxed_categorical eps tau (row K probs x) (row K u (i :: x))) /\
      first_largest (relaxed_categorical eps tau (row K probs x) (row K u (i :: x))) b.
Proof.
  clear Heps Htau. intros id. destruct (relax_rows eps tau front K probs n u v) as [T [E [S1 S2]]].
  destruct (sample_rows (fun m => sample_gumbel eps tau front K probs false m u v) None (discretize_rows K) discretize_categorical n T id E) as [y [A1 [A2 [A3 [A4 A5]]]]]; auto.
  { intros t x. apply row_discretize. }
  exists y. split; [exact A1|]. split; [exact A2|]. split; [exact A3|]. split; [exact A4|].
  intros s e i Hr Hi. rewrite A5 by auto. rewrite S2. set (x := map (fun q => s (pname q)) (wide (all_plates ts)) ++ e).
  set (r := relaxed_categorical eps tau (row K probs x) (row K u (i :: x))).
  assert (Lr : length r = K) by (unfold r; rewrite relaxed_length; now rewrite ?row_length).
  assert (Nr : r <> []) by (intros Z; rewrite Z in Lr; simpl in Lr; lia).
  exists (argmax r). destruct (argmax_spec r Nr) as [M1 M2]. split; [now rewrite <- Lr|]. split; [now rewrite discretize_one_hot, Lr|].
  split; [|exact (conj M1 M2)].
  apply relaxed_inside; [now rewrite !row_length|]. intros Z. apply (f_equal (@List.length R)) in Z. rewrite row_length in Z. simpl in Z. lia.
Qed.
End Samples.
