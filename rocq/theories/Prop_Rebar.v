(** C94: the samples of REBAR and RELAX. *)
From Coq Require Import Reals String List Arith ZArith Bool Lia Lra.
From Verif Require Import Base Torch Plates Wrap Sampling TensorFns Relaxed SpecTensor SpecWrap SpecReduce SpecSampling SpecRelaxed SpecRebar SamplingProofs OpProofs RebarProofs RebarSample.
Import ListNotations.
Open Scope string_scope.
Open Scope nat_scope.
Open Scope list_scope.

(** C94 for the tensor that is drawn: with rebar its first m rows are one-hot, the next m relaxed samples that round to them, and the last m
    relaxed samples drawn given them. [x] is an index of all other dimensions. *)
Theorem C94_rows : forall eps tau front K (probs : ten R), (0 < eps < 1 / 2)%R -> (0 < tau)%R -> 1 <= K ->
  forall m u v, exists T, sample_gumbel eps tau front K probs true m u v = Ok T /\ shape T = 3 * m :: front ++ [K] /\
  forall i x, i < m -> exists b, b < K /\
    row K T (m + i :: x) = relaxed_categorical eps tau (row K probs x) (row K u (i :: x)) /\
    row K T (i :: x) = one_hot K b /\
    inside_simplex (row K T (m + i :: x)) /\ discretize_categorical (row K T (m + i :: x)) = one_hot K b /\
    row K T (2 * m + i :: x) = cond_categorical eps tau (one_hot K b) (row K probs x) (row K v (i :: x)) /\
    inside_simplex (row K T (2 * m + i :: x)) /\ strictly_largest (row K T (2 * m + i :: x)) b /\
    discretize_categorical (row K T (2 * m + i :: x)) = one_hot K b.
Proof. exact rebar_rows. Qed.
Print Assumptions C94_rows.

(** C94 for the tensor that RELAX draws: only the relaxed samples. *)
Theorem C94_relaxed : forall eps tau front K (probs : ten R) m u v, exists T,
  sample_gumbel eps tau front K probs false m u v = Ok T /\ shape T = m :: front ++ [K] /\
  forall i x, row K T (i :: x) = relaxed_categorical eps tau (row K probs x) (row K u (i :: x)).
Proof. exact relax_rows. Qed.
Print Assumptions C94_relaxed.

(** C94 for REBAR: asked for [n] samples of a variable whose parameters have any plates, the storch tensor has a plate of size 3n with weight
    1/n for the first n; at the i-th, (n+i)-th and (2n+i)-th place are a one-hot sample, the relaxed sample it is the discretization of, and
    a relaxed sample drawn given it. *)
Theorem C94_rebar : forall veq eps tau K (probs u v : ten R) name n (params : list (@param R)) ev,
  callable veq (param_tensors params) -> (forall t, In t (param_tensors params) -> ~ In name (map pname (splates t))) ->
  (0 < eps < 1 / 2)%R -> (0 < tau)%R -> 1 <= K -> 1 <= n ->
  let up := all_plates (param_tensors params) in
  forall id, exists y, rebar_sample veq eps tau (map pn (wide up) ++ ev) K probs u v name n params id = Ok (y, false) /\ wf y /\
    splates y = mkPlate PlainPlate name (3 * n) (WTorch (true_samples (fun n => (/ INR n)%R) 0%R 3 (3 * n))) up :: up /\
    s_event_shape y = ev ++ [K] /\
    forall s e i, in_range s up -> i < n -> exists b, b < K /\
      option_row K y (set_to s name i) e = one_hot K b /\
      inside_simplex (option_row K y (set_to s name (n + i)) e) /\
      discretize_categorical (option_row K y (set_to s name (n + i)) e) = one_hot K b /\
      inside_simplex (option_row K y (set_to s name (2 * n + i)) e) /\ strictly_largest (option_row K y (set_to s name (2 * n + i)) e) b /\
      discretize_categorical (option_row K y (set_to s name (2 * n + i)) e) = one_hot K b.
Proof. exact rebar_drawn. Qed.
Print Assumptions C94_rebar.

(** C94 for RELAX: a plate of the n samples asked for with equal weights, and at the i-th place the one-hot vector of the first of the largest
    options of the i-th relaxed sample. *)
Theorem C94_relax : forall veq eps tau K (probs u v : ten R) name n (params : list (@param R)) ev,
  callable veq (param_tensors params) -> (forall t, In t (param_tensors params) -> ~ In name (map pname (splates t))) ->
  1 <= K -> 1 <= n ->
  let up := all_plates (param_tensors params) in
  forall id, exists y, relax_sample veq eps tau (map pn (wide up) ++ ev) K probs u v name n params id = Ok (y, false) /\ wf y /\
    splates y = mkPlate PlainPlate name n (WTorch (tscalar (/ INR n)%R)) up :: up /\
    s_event_shape y = ev ++ [K] /\
    forall s e i, in_range s up -> i < n -> exists b, b < K /\
      option_row K y (set_to s name i) e = one_hot K b /\
      let x := map (fun q => s (pname q)) (wide up) ++ e in
      inside_simplex (relaxed_categorical eps tau (row K probs x) (row K u (i :: x))) /\
      first_largest (relaxed_categorical eps tau (row K probs x) (row K u (i :: x))) b.
Proof. exact relax_drawn. Qed.
Print Assumptions C94_relax.

(** Two samples of a variable with three options, whose parameters have a plate of size two. *)
Definition g_x : plate R := mkPlate PlainPlate "x" 2 (WTorch (tscalar (1 / 2)%R)) [].
Definition g_probs : stensor R := mkS 3 (mkten [2; 3] (fun _ => (1 / 3)%R)) [g_x] 1 [3] [] false.
Definition g_eq (a b : R) : bool := if Req_EM_T a b then true else false.
Example C94_witness : callable g_eq (param_tensors [ParS g_probs true]) /\
  (forall t, In t (param_tensors [ParS g_probs true]) -> ~ In "z" (map pname (splates t))) /\
  (0 < 1 / 10 < 1 / 2)%R /\ (0 < 1)%R /\ all_plates (param_tensors [ParS g_probs true]) = [g_x] /\
  in_range (fun _ => 1) [g_x] /\ exists y, rebar_sample g_eq (1 / 10) 1 [2] 3 (st g_probs) (mkten [2; 2; 3] (fun _ => (1 / 2)%R)) (mkten [2; 2; 3] (fun _ => (1 / 2)%R)) "z" 2
    [ParS g_probs true] 9 = Ok (y, false) /\ shape (st y) = [6; 2; 3].
Proof.
  assert (C : callable g_eq (param_tensors [ParS g_probs true])).
  { refine (conj _ (conj _ _)).
    - repeat constructor; simpl; try reflexivity; try (intuition discriminate); intros p H; intuition (subst; simpl; lia).
    - intros p q Hp Hq E. simpl in Hp, Hq. intuition (subst; simpl in *; try discriminate; auto).
    - intros p Hp. simpl in Hp. intuition (subst; try reflexivity). }
  assert (F : forall t, In t (param_tensors [ParS g_probs true]) -> ~ In "z" (map pname (splates t))).
  { intros t Ht. simpl in Ht. intuition (subst; simpl in *; intuition discriminate). }
  split; [exact C|]. split; [exact F|]. split; [lra|]. split; [lra|]. split; [reflexivity|]. split; [intros p [<-|[]]; simpl; lia|].
  destruct (C94_rebar g_eq (1 / 10) 1 3 (st g_probs) (mkten [2; 2; 3] (fun _ => (1 / 2)%R)) (mkten [2; 2; 3] (fun _ => (1 / 2)%R)) "z" 2 [ParS g_probs true] [] C F ltac:(lra) ltac:(lra) ltac:(lia) ltac:(lia) 9) as [y [E [W [P [V _]]]]].
  exists y. split; [exact E|]. rewrite (wf_shape y W), P, V. reflexivity.
Qed.
