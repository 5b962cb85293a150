(** Samples drawn from a proposal, and their weights. *)
From Coq Require Import String List Arith Bool ZArith Lia Permutation.
From Verif Require Import Base Torch Plates Wrap OrderPlates Scalar Reduce Graph Inference Sampling Surrogate Relax Reparam ImportanceMethod ListLemmas IndexLemmas SpecTensor SpecWrap
  SpecOrder SpecReduce SpecGraph SpecSampling SpecSurrogate WrapProofs AlignProofs CallProofs CallProofs2 OpProofs OrderProofs ReduceProofs ReduceProofs2
  VarianceProofs PlateEqProofs GraphProofs SurrogateProofs SurrogateProofs2 SurrogateProofs3 CallN SamplingProofs SpecExact ExactProofs.
Import ListNotations.
Open Scope string_scope.
Open Scope nat_scope.
Open Scope list_scope.

Section ImportanceProofs.
Context {V : Type}.
Variable veq : V -> V -> bool.
Variable anc_unwrap : plate V -> stensor V -> res (stensor V).
Variable o : sops V.
Variable o_exp : V -> V.
Variable o_div : V -> V -> V.
Variable o_num : nat -> V.
Variable recip : nat -> V.
Notation plate := (plate V).
Notation stensor := (stensor V).
Notation N l := (map (@pname V) l).
Notation weighting := (importance_weighting veq anc_unwrap o o_exp o_div o_num).

Lemma importance_weighting_spec : forall (x : stensor) lp lq n f g base, wf x -> plain (splates x) -> has_log_prob x lp [] f -> has_log_prob x lq [] g ->
  exists w, weighting lp lq n x base = Ok (WStorch (sid w) (st w) (N (splates w))) /\
    wf w /\ Permutation (splates w) (splates x) /\ s_event_shape w = [] /\
    forall s, in_range s (splates x) -> den w s [] = o_det o (o_div (o_exp (f s [])) (o_mul o (o_num n) (o_exp (g s [])))).
Proof.
  intros x lp lq n f g base Wx Px Hp Hq.
  assert (Hr : relabelled x x) by (constructor; auto).
  assert (One : forall t : stensor, wf t -> Permutation (splates t) (splates x) -> callable veq [t]).
  { intros t Wt Pt. apply one_callable; auto. intros q Hq'. apply Px. eapply Permutation_in; eauto. }
  assert (Rg : forall (t : stensor) s, Permutation (splates t) (splates x) -> in_range s (splates x) -> in_range s (splates t)).
  { intros t s Pt Hs. eapply in_range_perm; [|exact Hs]. now apply Permutation_sym. }
  destruct (Hp x base Hr) as [a [A1 [A2 [A3 [A4 A5]]]]].
  destruct (op1_spec veq anc_unwrap o_exp a (base + 1) (One a A2 A3)) as [b [B1 [B2 [B3 [B4 [_ [_ [_ B5]]]]]]]].
  destruct (Hq x (base + 2) Hr) as [c [C1 [C2 [C3 [C4 C5]]]]].
  destruct (op1_spec veq anc_unwrap o_exp c (base + 3) (One c C2 C3)) as [d [D1 [D2 [D3 [D4 [_ [_ [_ D5]]]]]]]].
  assert (Pd : Permutation (splates d) (splates x)) by now rewrite D2.
  destruct (op1_spec veq anc_unwrap (o_mul o (o_num n)) d (base + 4) (One d D4 Pd)) as [e [E1 [E2 [E3 [E4 [_ [_ [_ E5]]]]]]]].
  assert (Pb : Permutation (splates b) (splates x)) by now rewrite B2.
  assert (Pe : Permutation (splates e) (splates x)) by now rewrite E2.
  assert (HC : callable veq [b; e]).
  { split; [constructor; [exact B4|constructor; [exact E4|constructor]]|]. change (flat_map splates [b; e]) with (splates b ++ splates e ++ []). rewrite app_nil_r. split.
    - assert (G : forall q, In q (splates b ++ splates e) -> In q (splates x)).
      { intros q Hq'. apply in_app_or in Hq'. destruct Hq' as [Hq'|Hq']; [exact (Permutation_in _ Pb Hq')|exact (Permutation_in _ Pe Hq')]. }
      pose proof (proj1 (proj2 (one_callable veq x Wx Px))) as HA. change (flat_map splates [x]) with (splates x ++ []) in HA. rewrite app_nil_r in HA.
      intros p q Hp' Hq'. exact (HA p q (G p Hp') (G q Hq')).
    - intros q Hq'. apply Px. apply in_app_or in Hq'. destruct Hq' as [Hq'|Hq']; [exact (Permutation_in _ Pb Hq')|exact (Permutation_in _ Pe Hq')]. }
  destruct (op2_same veq anc_unwrap o_div b e (base + 5) HC) as [h [H1 [H2 [H3 [H4 H5]]]]]; [congruence|].
  assert (Eu : splates h = splates b).
  { rewrite H2. unfold union. replace (filter _ (splates e)) with (@nil plate); [apply app_nil_r|].
    symmetry. apply filter_nil_in. intros q Hq'. apply negb_false_iff. apply existsb_exists. exists q. split; [|apply String.eqb_refl].
    apply (Permutation_in _ (Permutation_sym Pb)), (Permutation_in _ Pe Hq'). }
  assert (Ph : Permutation (splates h) (splates x)) by now rewrite Eu.
  destruct (op1_spec veq anc_unwrap (o_det o) h (base + 6) (One h H4 Ph)) as [w [W1 [W2 [W3 [W4 [_ [_ [_ W5]]]]]]]].
  exists w. unfold importance_weighting. rewrite A1. cbn [bind]. rewrite B1. cbn [bind]. rewrite C1. cbn [bind]. rewrite D1. cbn [bind]. rewrite E1. cbn [bind].
  rewrite H1. cbn [bind]. rewrite W1. cbn [bind as_tensor]. split; [reflexivity|]. split; [exact W4|]. split; [now rewrite W2|]. split; [congruence|].
  intros s Hs. rewrite W5; [|auto|rewrite H3, B3, A4; constructor]. f_equal. rewrite H5; [|auto|rewrite B3, A4; constructor]. f_equal.
  - rewrite B5; [|auto|rewrite A4; constructor]. f_equal. apply A5; [exact Hs|constructor].
  - rewrite E5; [|auto|rewrite D3, C4; constructor]. f_equal. rewrite D5; [|auto|rewrite C4; constructor]. f_equal. apply C5; [exact Hs|constructor].
Qed.

(** The sample: drawn as with Monte Carlo, then weighted. *)
Lemma importance_sample_mc : forall name n mc lp lq params qparams id base,
  importance_sample veq anc_unwrap o o_exp o_div o_num recip name n mc lp lq params qparams [] [] id base =
  do (x, rg) <- method_sample veq recip name n mc None None params [] [] id;
  match splates x with
  | q :: _ =>
    let x := set_plates x (add_prop_plates veq qparams (splates x)) in
    do w <- weighting lp lq (pn q) x base;
    Ok (set_plates x (match splates x with q :: l => reweigh w q :: l | [] => [] end), rg)
  | [] => Err IndexError
  end.
Proof.
  intros. unfold importance_sample, method_sample. destruct (collect_params veq params [] [] false) as [[parents plates] rg].
  destruct (existsb _ plates) eqn:Ex; [reflexivity|]. unfold monte_carlo.
  assert (Ef : find (fun p : plate => String.eqb (pname p) name) plates = None).
  { destruct (find _ plates) as [p|] eqn:E; [|reflexivity]. apply find_some in E. assert (existsb (fun p : plate => String.eqb (pname p) name) plates = true) by (apply existsb_exists; eauto). congruence. }
  rewrite Ef. destruct (mc n) as [t|e]; [|reflexivity]. cbn [bind]. destruct (shape t) as [|size sh]; [reflexivity|].
  unfold mk_tensor. destruct (check_plates _ _ _ _) as [bd|e]; [|reflexivity]. reflexivity.
Qed.

Lemma insert_plates_in : forall l plates, incl l plates -> fold_left (insert_plate veq) l plates = plates.
Proof.
  induction l as [|p l IH]; intros plates H; [reflexivity|]. cbn [fold_left]. unfold insert_plate at 2.
  replace (pin veq p plates) with true; [apply IH; intros q Hq; apply H; now right|]. symmetry. unfold pin, inb. apply existsb_exists. exists p.
  split; [apply H; now left|apply (peq_refl veq)].
Qed.
Lemma add_prop_in : forall qparams plates, (forall u, In u (param_tensors qparams) -> incl (splates u) plates) -> add_prop_plates veq qparams plates = plates.
Proof.
  intros qparams plates. unfold add_prop_plates. induction qparams as [|[a r|r] l IH]; intros H; [reflexivity| |].
  - cbn [fold_left]. rewrite insert_plates_in by (apply H; now left). apply IH. intros u Hu. apply H. now right.
  - cbn [fold_left]. apply IH. exact H.
Qed.

Lemma importance_sample_spec : forall name n mc lp lq params qparams id base t f g,
  let Q := all_plates (param_tensors params) in
  callable veq (param_tensors params) -> (forall u, In u (param_tensors params) -> ~ In name (N (splates u))) ->
  (forall u, In u (param_tensors qparams) -> incl (splates u) Q) ->
  mc n = Ok t -> 2 <= n -> shape t = n :: map pn (wide Q) ->
  let drawn (x : stensor) (p : plate) := wf x /\ splates x = p :: Q /\ pname p = name /\ pn p = n /\ pcls p = PlainPlate /\ pparents p = Q /\ s_event_shape x = [] /\
    forall s, in_range s (splates x) -> den x s [] = el t (s name :: map (fun q => s (pname q)) (wide Q)) in
  (forall x p, drawn x p -> has_log_prob x lp [] f /\ has_log_prob x lq [] g) ->
  exists x p, importance_sample veq anc_unwrap o o_exp o_div o_num recip name n mc lp lq params qparams [] [] id base = Ok (x, existsb needs_grad params) /\
    drawn x p /\
    weighs p (fun s => o_det o (o_div (o_exp (f s [])) (o_mul o (o_num n) (o_exp (g s []))))).
Proof.
  intros name n mc lp lq params qparams id base t f g Q Hc Hfresh Hqp Hmc Hn Hsh drawn Hlp. rewrite importance_sample_mc.
  destruct (sample_spec veq anc_unwrap recip name n mc None params id t n [] Hc Hfresh Hmc ltac:(lia)) as [x0 [X1 [X2 [X3 [X4 [X5 [X6 [_ [_ X7]]]]]]]]].
  { rewrite app_nil_r. exact Hsh. }
  fold Q in X4, X7. rewrite X1. cbn [bind]. set (p0 := mkPlate PlainPlate name n (WTorch (tscalar (recip n))) Q) in *. rewrite X4.
  rewrite (add_prop_in qparams (p0 :: Q)) by (intros u Hu q Hq; right; exact (Hqp u Hu q Hq)).
  assert (Es : set_plates x0 (p0 :: Q) = x0) by (destruct x0; cbn in X4 |- *; now subst).
  cbv zeta. change (pn p0) with n. rewrite !Es.
  assert (Hd0 : drawn x0 p0).
  { split; [exact X3|]. split; [exact X4|]. split; [reflexivity|]. split; [reflexivity|]. split; [reflexivity|]. split; [reflexivity|]. split; [exact X6|].
    intros s Hs. rewrite X7 by auto. now rewrite app_nil_r. }
  destruct (Hlp x0 p0 Hd0) as [Hp Hq].
  assert (Hpl : plain (splates x0)).
  { rewrite X4. intros q [<-|Hq']; [reflexivity|]. destruct (all_plates_facts veq anc_unwrap (param_tensors params) Hc) as [AI _]. destruct Hc as [_ [_ Hpl]]. apply Hpl. now apply AI. }
  destruct (importance_weighting_spec x0 lp lq n f g base X3 Hpl Hp Hq) as [w [W1 [W2 [W3 [W4 W5]]]]].
  rewrite W1. cbn [bind]. rewrite X4.
  set (p := reweigh (WStorch (sid w) (st w) (N (splates w))) p0). set (x := set_plates x0 (p :: Q)).
  assert (Wide0 : forall q : plate, pn q = n -> wide (q :: Q) = q :: wide Q).
  { intros q Eq. unfold wide. simpl. rewrite Eq. replace (1 <? n) with true by (symmetry; apply Nat.ltb_lt; lia). reflexivity. }
  exists x, p. split; [reflexivity|]. split.
  - split.
    { destruct X3 as [B1 B2 B3 B4]. rewrite X4 in *. constructor; [exact B1| | |].
      + intros q [<-|Hq']; [simpl; lia|]. apply B2. now right.
      + unfold x. cbn [set_plates splates st s_event_shape]. rewrite B3. rewrite !Wide0 by reflexivity. reflexivity.
      + unfold x. cbn [set_plates splates s_plate_dims]. rewrite B4. now rewrite !Wide0. }
    split; [reflexivity|]. split; [reflexivity|]. split; [reflexivity|]. split; [reflexivity|]. split; [reflexivity|]. split; [exact X6|].
    intros s Hs. rewrite <- (proj2 (proj2 (proj2 (proj2 (proj2 (proj2 (proj2 Hd0))))))).
    + unfold den, x. cbn [set_plates splates st]. rewrite X4. rewrite !Wide0 by reflexivity. reflexivity.
    + rewrite X4. intros q [<-|Hq']; [exact (Hs p (or_introl eq_refl))|apply Hs; now right].
  - intros L HL Hpar. change (pparents p) with Q in *.
    assert (Psz : forall q, In q (splates w) -> size_in L (pname q) = pn q).
    { intros q Hq'. apply (Permutation_in _ W3) in Hq'. rewrite X4 in Hq'. destruct Hq' as [<-|Hq']; [exact (HL p (or_introl eq_refl))|apply HL; now right]. }
    assert (Hwn : wide_names L (N (splates w)) = N (wide (splates w))) by now apply wide_names_map.
    assert (Hnm : forall y, In y (N (splates w)) <-> In y (name :: N Q)).
    { intros y. rewrite X4 in W3. assert (Pn := Permutation_map (@pname V) W3). split; apply Permutation_in; [exact Pn|now apply Permutation_sym]. }
    split.
    + unfold weight_fits. change (pweight p) with (WStorch (V:=V) (sid w) (st w) (N (splates w))). cbn iota.
      split; [simpl; lia|]. split; [exact (wf_names w W2)|]. split; [apply Hnm; left; reflexivity|]. split.
      { intros y Hy. apply Hnm in Hy. destruct Hy as [<-|Hy]; [left; reflexivity|right; exact Hy]. }
      split; [exact Hpar|]. rewrite Hwn. rewrite (wf_shape w W2), W4, app_nil_r, map_map. apply map_ext_in. intros q Hq'. symmetry. apply Psz. unfold wide in Hq'. apply filter_In in Hq'. tauto.
    + intros s Hs. unfold weight_at. change (pweight p) with (WStorch (V:=V) (sid w) (st w) (N (splates w))). cbn iota. rewrite Hwn.
      rewrite <- W5.
      * unfold den. rewrite app_nil_r, map_map. reflexivity.
      * rewrite X4. intros q [<-|Hq']; [exact (Hs p (or_introl eq_refl))|apply Hs; now right].
Qed.
End ImportanceProofs.
