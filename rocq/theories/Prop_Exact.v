(** C79: a program whose variables are all sampled with Expect computes the expectation of its cost, and its gradient. *)
From Coq Require Import Reals String List Arith Bool ZArith Lia Permutation FunctionalExtensionality.
From Coquelicot Require Import Coquelicot.
From Verif Require Import Base Torch Plates Wrap Scalar Reduce Graph Inference Sampling Surrogate ExpectMethod IndexLemmas SpecTensor SpecWrap SpecOrder SpecReduce SpecSampling
  SpecSurrogate SpecEnumerate SpecExact Curves CallProofs CallProofs2 OpProofs OrderProofs ReduceProofs2 VarianceProofs PlateEqProofs SurrogateProofs SurrogateProofs2 SurrogateProofs3 ExactProofs.
Import ListNotations.
Open Scope string_scope.
Open Scope nat_scope.
Open Scope list_scope.

(** C79. Whatever the cost and the distributions are, what backward returns is the sum over all outcomes of the first variable, all outcomes of the second
    given the first, and so on, of the cost times the probabilities. This is an equation between values of [V], so it includes their dependence on the
    parameters. *)
Theorem C79_exact : forall (V : Type) (veq : V -> V -> bool) anc_unwrap (o : sops V) (o_exp : V -> V) recip, is_ring o -> evaluates o o_exp ->
  (forall x y, o_exp (o_add o x y) = o_mul o (o_exp x) (o_exp y)) ->
  forall (vl : list (evar * (list (list nat) -> list nat -> nat -> V))) cost F base,
  NoDup (map (fun p => ev_name (fst p)) vl) ->
  (forall pre v lp post, vl = pre ++ (v, lp) :: post -> var_ok v /\ conditional veq (map fst pre) v lp) ->
  cost_ok (map fst vl) cost F ->
  exists enough, forall fuel, enough <= fuel ->
  exists t, expect_program veq anc_unwrap o o_exp recip fuel (map fst vl) cost base = Ok t /\ shape t = [] /\ el t [] = exact o o_exp vl [] F.
Proof. exact (fun V veq anc o ex recip H He Ha => @expect_exact V veq anc o H ex recip Ha (ev_exp0 _ _ He) He). Qed.
Print Assumptions C79_exact.

(** With numbers that are functions of a parameter: the derivative of the loss is the derivative of the expectation, at every value of the parameter. *)
Theorem C79_gradient : forall t0 (veq : (R -> R) -> (R -> R) -> bool) anc_unwrap recip
  (vl : list (evar * (list (list nat) -> list nat -> nat -> R -> R))) cost F base,
  NoDup (map (fun p => ev_name (fst p)) vl) ->
  (forall pre v lp post, vl = pre ++ (v, lp) :: post -> var_ok v /\ conditional veq (map fst pre) v lp) ->
  cost_ok (map fst vl) cost F ->
  exists enough, forall fuel, enough <= fuel ->
  exists t, expect_program veq anc_unwrap (curve_ops t0) curve_exp recip fuel (map fst vl) cost base = Ok t /\
    forall x l, is_derive (exact (curve_ops t0) curve_exp vl [] F) x l -> is_derive (el t []) x l.
Proof.
  intros t0 veq anc recip vl cost F base ND Hok Hc.
  destruct (C79_exact (R -> R) veq anc (curve_ops t0) curve_exp recip (curve_ring t0) (curve_evaluates t0)) with (vl := vl) (cost := cost) (F := F) (base := base) as [en H]; auto.
  { intros x y. apply functional_extensionality. intros t. apply exp_plus. }
  exists en. intros fuel Hf. destruct (H fuel Hf) as [t [T1 [_ T2]]]. exists t. split; [exact T1|]. rewrite T2. auto.
Qed.
Print Assumptions C79_gradient.

(** ** A case: two coins x with logit theta, two coins y with logits theta + x, cost theta * (x1 * y1 + x2 * y2) *)
Section Witness.
Variable t0 : R.
Notation C := (R -> R).
Variable veq : C -> C -> bool.
Variable anc_unwrap : plate C -> stensor C -> res (stensor C).
Variable recip : nat -> C.
Let ops : sops C := curve_ops t0.
Notation op1 f x base := (torch_op1 veq anc_unwrap top_ctx f (PT x) base).
Notation op2 f x y base := (torch_op2 veq anc_unwrap top_ctx f (PT x) (PT y) base).

Definition coin (k : nat) : C := fun _ => INR k.
Definition lp_x (x : C) : C := fun t => (x t * t - ln (1 + exp t))%R.
Definition lp_y (y x : C) : C := fun t => (y t * (t + x t) - ln (1 + exp (t + x t)))%R.
Definition price (x y : C) : C := fun t => (t * (x t * y t))%R.
Definition var_x : @evar C := mkVar "x" 2 4 [2] coin (fun _ => []) (fun _ x base => op1 lp_x x base).
Definition var_y : @evar C := mkVar "y" 2 4 [2] coin (fun xs => map (fun x => ParS x true) xs)
  (fun xs y base => match xs with x :: _ => op2 lp_y y x base | [] => Err ValueError end).
Definition logp_x (us : list (list nat)) (e : list nat) (k : nat) : C := lp_x (coin k).
Definition logp_y (us : list (list nat)) (e : list nat) (k : nat) : C := lp_y (coin k) (coin (nth (last e 0) (nth 0 us []) 0)).
Definition cost (xs : list (stensor C)) : stensor C :=
  match xs with
  | [x; y] => match op2 price x y 100 with
              | Ok (PT r) => match sum_dims veq anc_unwrap ops top_ctx (seq (s_plate_dims r) 1) (PT r) 110 with Ok (PT c) => c | _ => x end
              | _ => x
              end
  | _ => mkS 0 (mkten [] (fun _ => coin 0)) [] 0 [] [] false
  end.
Definition cost_of (us : list (list nat)) : C :=
  osum ops (map (fun i => price (coin (nth i (nth 0 us []) 0)) (coin (nth i (nth 1 us []) 0))) [0; 1]).

Lemma together : forall a b : stensor C, wf a -> wf b -> plain (splates a) -> plain (splates b) ->
  (forall p q, In p (splates a) -> In q (splates b) -> pname p = pname q -> p = q) -> callable veq [a; b].
Proof.
  intros a b Wa Wb Pa Pb H. split; [fwf|]. unfold agree, plain. cbn [flat_map]. rewrite app_nil_r. split.
  - intros p q Hp Hq E. assert (p = q) as ->; [|split; auto; apply peq_refl]. apply in_app_iff in Hp, Hq. destruct Hp as [Hp|Hp], Hq as [Hq|Hq].
    + exact (same_name_NoDup _ p q (wf_names a Wa) Hp Hq E).
    + auto.
    + symmetry. auto.
    + exact (same_name_NoDup _ p q (wf_names b Wb) Hp Hq E).
  - intros p Hp. apply in_app_iff in Hp. destruct Hp; auto.
Qed.

(** Samples of x; samples of y. *)
Lemma sample_x : forall x p Q, new_sample var_x [] x p Q -> splates x = [p] /\ Q = [].
Proof.
  intros x p Q H. pose proof (ns_incl _ _ _ _ _ H) as I. assert (Q = []) as -> by (destruct Q as [|q Q]; auto; destruct (I q (or_introl eq_refl))).
  split; [exact (ns_plates _ _ _ _ _ H)|reflexivity].
Qed.
Lemma plain_sample : forall v xs (x : stensor C) p Q, new_sample v xs x p Q -> plain (plates_of xs) -> plain (splates x).
Proof. intros v xs x p Q H P. rewrite (ns_plates _ _ _ _ _ H). intros q [<-|Hq]; [exact (ns_class _ _ _ _ _ H)|apply P; exact (ns_incl _ _ _ _ _ H q Hq)]. Qed.
Lemma drawn_x : forall xs, drawn [var_x] xs -> exists x p, xs = [x] /\ new_sample var_x [] x p [] /\ splates x = [p].
Proof.
  intros xs [HL H]. destruct xs as [|x [|? ?]]; try discriminate. destruct (H [] var_x x [] eq_refl) as [p [Q Hn]].
  destruct (sample_x x p Q Hn) as [E ->]. eauto.
Qed.
Lemma drawn_xy : forall xs, drawn [var_x; var_y] xs -> exists x p y q Q, xs = [x; y] /\ new_sample var_x [] x p [] /\ splates x = [p] /\ new_sample var_y [x] y q Q.
Proof.
  intros xs [HL H]. destruct xs as [|x [|y [|? ?]]]; try discriminate. destruct (H [] var_x x [(var_y, y)] eq_refl) as [p [Q Hn]].
  destruct (sample_x x p Q Hn) as [E ->]. destruct (H [(var_x, x)] var_y y [] eq_refl) as [q [Q' Hn']]. exists x, p, y, q, Q'. auto.
Qed.

Lemma wit_x : var_ok var_x /\ conditional veq [] var_x logp_x.
Proof.
  split; [constructor; simpl; [lia|right; exists 2; auto|lia]|]. intros xs [HL _]. destruct xs; [|discriminate].
  cbn [var_x ev_params param_tensors]. split; [split; [constructor|split; [intros ? ? []|intros ? []]]|]. split; [intros q []|]. split; [intros p q []|].
  intros x p Hn. exists (fun s e => lp_x (den x s e)). split.
  - intros b base [Wb Pb Eb Db]. cbn [var_x ev_lp]. destruct (sample_x x p _ Hn) as [Ex _].
    assert (Pl : plain (splates b)).
    { intros q Hq. apply (plain_sample _ _ _ _ _ Hn); [intros ? []|]. exact (Permutation_in _ (Permutation_sym Pb) Hq). }
    destruct (op1_spec veq anc_unwrap lp_x b base (one_callable veq b Wb Pl)) as [r [R1 [R2 [R3 [R4 [_ [_ [_ R5]]]]]]]].
    exists r. split; [exact R1|]. split; [exact R4|]. split; [rewrite R2; now apply Permutation_sym|]. split; [rewrite R3, Eb; exact (ns_event _ _ _ _ _ Hn)|].
    intros s e Hs He. rewrite R5.
    + f_equal. apply Db; auto. rewrite (ns_event _ _ _ _ _ Hn). exact He.
    + apply (in_range_perm s (splates x)); auto.
    + rewrite Eb, (ns_event _ _ _ _ _ Hn). exact He.
  - intros s us t e _ _ [_ Ht] He. rewrite Ht by auto. reflexivity.
Qed.
Lemma wit_y : var_ok var_y /\ conditional veq [var_x] var_y logp_y.
Proof.
  split; [constructor; simpl; [lia|right; exists 2; auto|lia]|]. intros xs Hd. destruct (drawn_x xs Hd) as [x [p [-> [Hx Ex]]]].
  change (param_tensors (ev_params var_y [x])) with [x]. rewrite all_plates_single.
  pose proof (ns_wf _ _ _ _ _ Hx) as Wx.
  assert (Px : plain (splates x)) by (apply (plain_sample _ _ _ _ _ Hx); intros ? []).
  split; [now apply one_callable|]. split; [apply incl_refl|]. split.
  { rewrite Ex. intros a b [<-|[]] Hb. rewrite (ns_parents _ _ _ _ _ Hx) in Hb. destruct Hb. }
  intros y q Hn. pose proof (ns_wf _ _ _ _ _ Hn) as Wy. pose proof (ns_plates _ _ _ _ _ Hn) as Ey.
  exists (fun s e => lp_y (den y s e) (den x s e)). split.
  - intros b base [Wb Pb Eb Db]. cbn [var_y ev_lp].
    assert (Py : plain (splates y)) by (apply (plain_sample _ _ _ _ _ Hn); unfold plates_of; cbn [flat_map]; now rewrite app_nil_r).
    assert (HC : callable veq [b; x]).
    { apply together; auto.
      - intros a Ha. apply Py. exact (Permutation_in _ (Permutation_sym Pb) Ha).
      - intros a a' Ha Ha' E. apply (same_name_NoDup (splates y) a a' (wf_names y Wy)); auto.
        + exact (Permutation_in _ (Permutation_sym Pb) Ha).
        + rewrite Ey. now right. }
    assert (Exy : s_event_shape x = s_event_shape b) by (rewrite Eb, (ns_event _ _ _ _ _ Hx), (ns_event _ _ _ _ _ Hn); reflexivity).
    destruct (op2_same veq anc_unwrap lp_y b x base HC Exy) as [r [R1 [R2 [R3 [R4 R5]]]]].
    rewrite union_sub in R2.
    2: { intros a Ha. eapply Permutation_in; [apply Permutation_map, Pb|]. apply in_map. rewrite Ey. now right. }
    exists r. split; [exact R1|]. split; [exact R4|]. split; [rewrite R2; now apply Permutation_sym|]. split; [rewrite R3, Eb; exact (ns_event _ _ _ _ _ Hn)|].
    intros s e Hs He. rewrite R5.
    + f_equal. apply Db; auto. rewrite (ns_event _ _ _ _ _ Hn). exact He.
    + rewrite R2. apply (in_range_perm s (splates y)); auto.
    + rewrite Eb, (ns_event _ _ _ _ _ Hn). exact He.
  - intros s us t e _ Hus [_ Ht] He. rewrite Ht by auto. destruct us as [|u [|? ?]]; cbn [all_show] in Hus; try tauto. destruct Hus as [[_ Hu] _].
    rewrite Hu by exact He. reflexivity.
Qed.
Lemma wit_cost : cost_ok [var_x; var_y] cost cost_of.
Proof.
  intros xs Hd. destruct (drawn_xy xs Hd) as [x [p [y [q [Q [-> [Hx [Ex Hy]]]]]]]].
  pose proof (ns_wf _ _ _ _ _ Hx) as Wx. pose proof (ns_wf _ _ _ _ _ Hy) as Wy. pose proof (ns_plates _ _ _ _ _ Hy) as Ey.
  assert (Px : plain (splates x)) by (apply (plain_sample _ _ _ _ _ Hx); intros ? []).
  assert (Py : plain (splates y)) by (apply (plain_sample _ _ _ _ _ Hy); unfold plates_of; cbn [flat_map]; now rewrite app_nil_r).
  assert (HQ : incl Q [p]) by (intros a Ha; pose proof (ns_incl _ _ _ _ _ Hy a Ha) as H; unfold plates_of in H; cbn [flat_map] in H; rewrite Ex in H; exact H).
  assert (Npq : pname p <> pname q) by (rewrite (ns_name _ _ _ _ _ Hx), (ns_name _ _ _ _ _ Hy); discriminate).
  assert (HC : callable veq [x; y]).
  { apply together; auto. rewrite Ex, Ey. intros a b [<-|[]] [<-|Hb] E; [congruence|]. now destruct (HQ b Hb) as [<-|[]]. }
  assert (Exy : s_event_shape y = s_event_shape x) by (rewrite (ns_event _ _ _ _ _ Hx), (ns_event _ _ _ _ _ Hy); reflexivity).
  destruct (op2_same veq anc_unwrap price x y 100 HC Exy) as [r [R1 [R2 [R3 [R4 R5]]]]].
  assert (Er : splates r = [p; q]).
  { rewrite R2. unfold union. rewrite Ex, Ey. cbn [filter]. unfold has at 1. cbn [existsb].
    destruct (String.eqb_spec (pname p) (pname q)); [congruence|]. cbn [orb negb]. cbn [app]. f_equal. f_equal.
    clear -HQ. induction Q as [|a Q IH]; auto. cbn [filter]. destruct (HQ a (or_introl eq_refl)) as [<-|[]]. unfold has at 1. cbn [existsb].
    rewrite String.eqb_refl. apply IH. intros b Hb. apply HQ. now right. }
  assert (HCr : callable veq [r]).
  { apply one_callable; auto. rewrite Er. intros a [<-|[<-|[]]]; [exact (ns_class _ _ _ _ _ Hx)|exact (ns_class _ _ _ _ _ Hy)]. }
  destruct (sum_dims_spec veq anc_unwrap ops r [2] 0 110 HCr) as [c [C1 [C2 [C3 [C4 C5]]]]].
  { rewrite R3. exact (ns_event _ _ _ _ _ Hx). } { discriminate. }
  cbn [cost]. rewrite R1. change (length [2]) with 1 in C1. rewrite C1.
  assert (Hpl : plates_of [x; y] = p :: q :: Q) by (unfold plates_of; cbn [flat_map]; now rewrite Ex, Ey, app_nil_r).
  split; [exact C4|]. split; [rewrite C2, Er, Hpl; intros a [<-|[<-|[]]]; [now left|right; now left]|].
  split; [rewrite C2, Er, Hpl; intros a [<-|[<-|Ha]]; [now left|right; now left|]; destruct (HQ a Ha) as [<-|[]]; now left|]. split; [exact C3|].
  intros s us Hs Hus. rewrite Hpl in Hs. destruct us as [|u [|w [|? ?]]]; cbn [all_show] in Hus; try tauto. destruct Hus as [[_ Hu] [[_ Hw] _]].
  cbn [repeat] in C5. rewrite C5 by (rewrite Er; intros a [<-|[<-|[]]]; apply Hs; [now left|right; now left]).
  unfold cost_of. change (indices [2]) with [[0]; [1]]. cbn [map repeat app].
  assert (D : forall i, i < 2 -> den r s [i] = price (coin (nth i u 0)) (coin (nth i w 0))).
  { intros i Hi. assert (Vi : valid [i] [2]) by (constructor; [exact Hi|constructor]). rewrite R5.
    - rewrite (Hu [i]), (Hw [i]) by exact Vi. reflexivity.
    - rewrite Er. intros a [<-|[<-|[]]]; apply Hs; [now left|right; now left].
    - rewrite (ns_event _ _ _ _ _ Hx). exact Vi. }
  rewrite !D by lia. reflexivity.
Qed.

Example C79_witness :
  exists enough, forall fuel, enough <= fuel ->
  exists t, expect_program veq anc_unwrap ops curve_exp recip fuel [var_x; var_y] cost 200 = Ok t /\
    el t [] = exact ops curve_exp [(var_x, logp_x); (var_y, logp_y)] [] cost_of.
Proof.
  destruct (C79_exact C veq anc_unwrap ops curve_exp recip (curve_ring t0) (curve_evaluates t0)) with (vl := [(var_x, logp_x); (var_y, logp_y)]) (cost := cost) (F := cost_of) (base := 200) as [en H].
  - intros x y. apply functional_extensionality. intros t. apply exp_plus.
  - repeat constructor; simpl; intuition discriminate.
  - intros pre v lp post E. destruct pre as [|a [|b [|? ?]]]; inversion E; subst; [exact wit_x|exact wit_y].
  - exact wit_cost.
  - exists en. intros fuel Hf. destruct (H fuel Hf) as [t [T1 [_ T2]]]. exists t. auto.
Qed.
End Witness.

(** C41 for Expect: a plate of the name on a parameter, or in the surrounding stochastic context, is an error. *)
Theorem C41_expect_taken : forall (V : Type) (veq : V -> V -> bool) anc_unwrap (o : sops V) (o_exp : V -> V) recip
  name e budget value sizes lp params parents0 (plates0 : list (plate V)) id base,
  (In name (map pname plates0) \/ exists t, In t (param_tensors params) /\ In name (map pname (splates t))) ->
  expect_sample veq anc_unwrap o o_exp recip name e budget value sizes lp params parents0 plates0 id base = Err ValueError.
Proof.
  intros V veq anc o ex recip name e budget value sizes lp params parents0 plates0 id base H. unfold expect_sample.
  pose proof (SamplingProofs.sample_name_taken veq recip name 1 (fun _ => Err KeyError) None None params parents0 plates0 id H) as T.
  unfold method_sample in T. destruct (collect_params veq params parents0 plates0 false) as [[parents plates] rg].
  destruct (existsb _ plates) eqn:E; [reflexivity|]. exfalso. unfold monte_carlo in T.
  destruct (find _ plates) as [q|]; discriminate T.
Qed.
Print Assumptions C41_expect_taken.
