(** C81: variables sampled from a proposal, with the score function as gradient estimator. *)
From Coq Require Import String List Arith Bool ZArith Lia Permutation Reals Lra FunctionalExtensionality.
From Verif Require Import Base Torch Plates Wrap OrderPlates Scalar Reduce Graph Inference Sampling Surrogate Relax Reparam ImportanceMethod SpecTensor SpecWrap SpecOrder SpecReduce SpecGraph
  SpecSampling SpecSurrogate SpecProgram SpecImportanceMethod Curves OrderProofs ReduceProofs2 SurrogateProofs SurrogateProofs2 SurrogateProofs3 ExactProofs ProgramWitness
  ImportanceMethodProofs ImportanceProgram ImportanceLoss ImportanceWitness.
Import ListNotations.
Open Scope string_scope.
Open Scope nat_scope.
Open Scope list_scope.

(** C81. Sampling [n] times from a proposal whose plates the distribution has too: the sample holds what the proposal drew, over a new plate and the plates
    of the parameters, and the weight of the new plate is, at every choice of samples, the detached ratio of the two probabilities over [n]. *)
Theorem C81_weights : forall (V : Type) (veq : V -> V -> bool) anc_unwrap (o : sops V) (o_exp : V -> V) (o_div : V -> V -> V) (o_num recip : nat -> V)
  name n mc lp lq params qparams id base t f g,
  let Q := all_plates (param_tensors params) in
  callable veq (param_tensors params) -> (forall u, In u (param_tensors params) -> ~ In name (map pname (splates u))) ->
  (forall u, In u (param_tensors qparams) -> incl (splates u) Q) ->
  mc n = Ok t -> 2 <= n -> shape t = n :: map pn (wide Q) ->
  let drawn (x : stensor V) (p : plate V) := wf x /\ splates x = p :: Q /\ pname p = name /\ pn p = n /\ pcls p = PlainPlate /\ pparents p = Q /\ s_event_shape x = [] /\
    forall s, in_range s (splates x) -> den x s [] = el t (s name :: map (fun q => s (pname q)) (wide Q)) in
  (forall x p, drawn x p -> has_log_prob x lp [] f /\ has_log_prob x lq [] g) ->
  exists x p, importance_sample veq anc_unwrap o o_exp o_div o_num recip name n mc lp lq params qparams [] [] id base = Ok (x, existsb needs_grad params) /\
    drawn x p /\
    forall L, (forall q, In q (p :: Q) -> size_in L (pname q) = pn q) -> (forall q, In q Q -> In (pname q) (map pname L)) ->
      weight_fits L p /\ forall s, in_range s (p :: Q) -> weight_at L p s = ratio o o_exp o_div o_num n (f s []) (g s []).
Proof.
  intros V veq anc o ex dv nu rc name n mc lp lq params qparams id base t f g Q H1 H2 H3 H4 H5 H6 drawn H7.
  destruct (importance_sample_spec veq anc o ex dv nu rc name n mc lp lq params qparams id base t f g H1 H2 H3 H4 H5 H6 H7) as [x [p [X1 [X2 X3]]]].
  exists x, p. split; [exact X1|]. split; [exact X2|]. assert (E : pparents p = Q) by apply X2. unfold weighs in X3. rewrite E in X3. exact X3.
Qed.
Print Assumptions C81_weights.

(** A program of one variable with [m] options and [n] samples of it from a proposal: sampling, the cost of each sample and backward succeed whatever was
    drawn, and the loss, averaged over the [n] draws, is the expected cost as a function of the parameters, so all its derivatives are those of the
    expected cost. *)
Theorem C81_single_variable : forall (V : Type) (veq : V -> V -> bool) anc_unwrap (o : sops V), is_ring o -> forall (o_exp : V -> V), evaluates o o_exp ->
  (forall x y, o_exp (o_add o x y) = o_mul o (o_exp x) (o_exp y)) ->
  forall (o_div : V -> V -> V) (o_num recip : nat -> V), divides o o_exp o_div o_num recip ->
  forall name n m (L M : list nat -> V -> V) (F : (list nat -> V) -> V) (value : nat -> V) base, 2 <= n ->
  (forall b b', b [] = b' [] -> F b = F b') ->
  osum o (map (fun k => o_det o (o_exp (M [] (value k)))) (seq 0 m)) = o_one o ->
  exists loss : list nat -> V,
    (forall ks mc, length ks = n -> (exists t, mc n = Ok t /\ shape t = [n] /\ forall i, i < n -> el t [i] = value (nth i ks 0)) -> exists enough, forall fuel, enough <= fuel ->
      exists t, importance_program veq anc_unwrap o o_exp o_div o_num recip fuel name n mc (components_log_prob veq anc_unwrap L) (components_log_prob veq anc_unwrap M) F [ParT true] [ParT false] base = Ok t /\
        shape t = [] /\ el t [] = loss ks) /\
    mean_draws o m (fun k => o_det o (o_exp (M [] (value k)))) n loss = osum o (map (fun k => o_mul o (o_exp (L [] (value k))) (F (fun _ => value k))) (seq 0 m)).
Proof. exact (fun V veq anc o H ex He Hx dv nu rc Hd => @importance_expected V veq anc o H ex He Hx dv nu rc Hd). Qed.
Print Assumptions C81_single_variable.

(** The variable of 0 and 1 with probability sigmoid(t) for 1; a fair coin is the proposal, 3 samples; the cost is (1 + x) t. *)
Definition coin_log_prob (u : C) (_ : list nat) (x : C) : C := bern x u.
Definition coin (k : nat) : C := fun _ => INR k.
Definition coin_cost (b : list nat -> C) : C := fun t => ((1 + b [] t) * t)%R.
Example C81_single_witness : forall t0, exists loss : list nat -> C,
  (forall ks, length ks = 3 -> exists enough, forall fuel, enough <= fuel ->
    exists t, importance_program c_eq c_anc (curve_ops t0) curve_exp curve_div curve_num curve_recip fuel "x" 3 (fun n => Ok (mkten [n] (fun i => coin (nth (hd 0 i) ks 0))))
        (components_log_prob c_eq c_anc (coin_log_prob (fun t => t))) (components_log_prob c_eq c_anc (coin_log_prob (fun _ => 0%R))) coin_cost [ParT true] [ParT false] 50 = Ok t /\
      shape t = [] /\ el t [] = loss ks) /\
  forall t, mean_draws (curve_ops t0) 2 (fun _ _ => (/ 2)%R) 3 loss t = ((1 - sig t) * t + sig t * (2 * t))%R.
Proof.
  intros t0.
  assert (S0 : (sig 0 = / 2)%R) by (unfold sig; rewrite Ropp_0, exp_0; f_equal; ring).
  assert (E : forall k u t, k < 2 -> exp (bern (coin k) u t) = if k =? 1 then sig (u t) else (1 - sig (u t))%R).
  { intros k u t Hk. unfold bern, coin. destruct (sig_pos (u t)). destruct k as [|[|k]]; [..|lia]; cbn [Nat.eqb INR].
    - replace (0 * ln (sig (u t)) + (1 - 0) * ln (1 - sig (u t)))%R with (ln (1 - sig (u t))) by ring. apply exp_ln. lra.
    - replace (1 * ln (sig (u t)) + (1 - 1) * ln (1 - sig (u t)))%R with (ln (sig (u t))) by ring. apply exp_ln. lra. }
  assert (Q : forall k, k < 2 -> o_det (curve_ops t0) (curve_exp (coin_log_prob (fun _ => 0%R) [] (coin k))) = (fun _ => (/ 2)%R)).
  { intros k Hk. apply functional_extensionality. intros t. cbn. unfold curve_exp, coin_log_prob. rewrite E by auto. rewrite S0. destruct (k =? 1); lra. }
  destruct (C81_single_variable C c_eq c_anc (curve_ops t0) (curve_ring t0) curve_exp (curve_evaluates t0)
    (fun f g => functional_extensionality _ _ (fun t => exp_plus (f t) (g t))) curve_div curve_num curve_recip (curve_divides t0) "x" 3 2
    (coin_log_prob (fun t => t)) (coin_log_prob (fun _ => 0%R)) coin_cost coin 50) as [loss [H1 H2]].
  - lia.
  - intros b b' Hb. unfold coin_cost. now rewrite Hb.
  - cbn [seq map]. rewrite !Q by lia. apply functional_extensionality. intros t. cbn. field.
  - exists loss. split.
    + intros ks Hks. apply H1; [exact Hks|]. eexists. split; [reflexivity|]. split; [reflexivity|]. intros i Hi. reflexivity.
    + intros t. transitivity (mean_draws (curve_ops t0) 2 (fun k => o_det (curve_ops t0) (curve_exp (coin_log_prob (fun _ => 0%R) [] (coin k)))) 3 loss t).
      * cbn [mean_draws seq map]. rewrite !Q by lia. reflexivity.
      * etransitivity; [exact (f_equal (fun g : C => g t) H2)|]. cbn [seq map]. cbn. unfold curve_exp, coin_log_prob, coin_cost. rewrite !E by lia. unfold coin. cbn. ring.
Qed.

(** One sample: the loss is the ratio of the probabilities times the cost and the score-function term, and it is unbiased too. *)
Theorem C81_one_sample : forall (V : Type) (veq : V -> V -> bool) anc_unwrap (o : sops V), is_ring o -> forall (o_exp : V -> V), evaluates o o_exp ->
  (forall x y, o_exp (o_add o x y) = o_mul o (o_exp x) (o_exp y)) ->
  forall (o_div : V -> V -> V) (o_num recip : nat -> V), divides o o_exp o_div o_num recip ->
  forall m (L M : list nat -> V -> V) (F : (list nat -> V) -> V) (value : nat -> V),
  (forall b b', b [] = b' [] -> F b = F b') ->
  exists loss : nat -> V,
    (forall k fuel, exists t, importance_program veq anc_unwrap o o_exp o_div o_num recip (20 + fuel) "x" 1 (fun _ => Ok (mkten [1] (fun _ => value k)))
        (components_log_prob veq anc_unwrap L) (components_log_prob veq anc_unwrap M) F [ParT true] [ParT false] 50 = Ok t /\ shape t = [] /\ el t [] = loss k) /\
    osum o (map (fun k => o_mul o (o_det o (o_exp (M [] (value k)))) (loss k)) (seq 0 m)) = osum o (map (fun k => o_mul o (o_exp (L [] (value k))) (F (fun _ => value k))) (seq 0 m)).
Proof. exact (fun V veq anc o H ex He Hx dv nu rc Hd => @importance_once V veq anc o H ex He Hx dv nu rc Hd). Qed.
Print Assumptions C81_one_sample.

(** Programs of any number of variables, each with its own plate and its own proposal, and plates whose weights are the ratios, which C81_weights gives:
    the loss exists and its expectation over what the proposals draw is the expected cost under the distributions themselves, averaged over the samples.
    Missing: the programs are described by their graph and their tensors, not by the calls that make them. *)
Theorem C81_program_partial : forall (V S X : Type) (veq : V -> V -> bool) anc_unwrap (o : sops V), is_ring o -> forall (o_exp : V -> V), evaluates o o_exp ->
  (forall x y, o_exp (o_add o x y) = o_mul o (o_exp x) (o_exp y)) ->
  forall (o_div : V -> V -> V) (o_num recip : nat -> V), divides o o_exp o_div o_num recip ->
  forall (pg : program V X) lq, program_ok o o_exp pg -> program_ok o o_exp (proposed pg lq) ->
  forall (cnt : nat -> nat) (nodes : @world X -> nat -> @snode V S) h univ costs FP FPw T own anc cost sg base,
  costs <> [] ->
  (forall w, closed_under (h_parents (h w)) (univ w) /\ incl costs (univ w)) ->
  (forall w c, In c costs -> score_setup veq anc_unwrap o o_exp (nodes w) (h w) c (FPw c w) (anc c) (fun _ => None) (fun a s => pg_logp pg a s (along pg w s)) /\
     (forall s, in_range s (FP c) -> den (nd_t (nodes w c)) s [] = cost c s (along pg w s)) /\
     ratio_weights (fun a s => ratio o o_exp o_div o_num (cnt a) (pg_logp pg a s (along pg w s)) (lq a s (along pg w s))) (FP c) (FPw c w) (T c) own cnt) ->
  (forall c, In c costs -> depends_on o o_exp pg (FP c) (T c) (anc c) (cost c) /\ forall p, In p (FP c) -> 1 <= pn p) ->
  exists loss : @world X -> V,
    (forall w, exists enough, forall fuel, enough <= fuel ->
       exists t, backward_value veq anc_unwrap o o_exp fuel (h w) (nodes w) costs sg base = Ok t /\ shape t = [] /\ el t [] = loss w) /\
    forall w r, sampled o o_exp (proposed pg lq) w loss = osum o (map (fun c => average_over o recip (FP c) (fun s => mean o o_exp pg s r (cost c s))) costs).
Proof. exact (fun V S X veq anc o H ex He Hx dv nu rc Hd pg lq H1 H2 => @importance_unbiased V S X veq anc o H ex He Hx dv nu rc Hd pg lq H1 H2). Qed.
Print Assumptions C81_program_partial.

(** If the program treats its samples alike, that average is the expected cost. *)
Theorem C81_alike_partial : forall (V S X : Type) (veq : V -> V -> bool) anc_unwrap (o : sops V), is_ring o -> forall (o_exp : V -> V), evaluates o o_exp ->
  (forall x y, o_exp (o_add o x y) = o_mul o (o_exp x) (o_exp y)) ->
  forall (o_div : V -> V -> V) (o_num recip : nat -> V), divides o o_exp o_div o_num recip ->
  forall (pg : program V X) lq, program_ok o o_exp pg -> program_ok o o_exp (proposed pg lq) ->
  forall (cnt : nat -> nat) (nodes : @world X -> nat -> @snode V S) h univ costs FP FPw T own anc cost sg base,
  costs <> [] ->
  (forall w, closed_under (h_parents (h w)) (univ w) /\ incl costs (univ w)) ->
  (forall w c, In c costs -> score_setup veq anc_unwrap o o_exp (nodes w) (h w) c (FPw c w) (anc c) (fun _ => None) (fun a s => pg_logp pg a s (along pg w s)) /\
     (forall s, in_range s (FP c) -> den (nd_t (nodes w c)) s [] = cost c (along pg w s)) /\
     ratio_weights (fun a s => ratio o o_exp o_div o_num (cnt a) (pg_logp pg a s (along pg w s)) (lq a s (along pg w s))) (FP c) (FPw c w) (T c) own cnt) ->
  (forall c, In c costs -> depends_on o o_exp pg (FP c) (T c) (anc c) (fun _ => cost c) /\ forall p, In p (FP c) -> 1 <= pn p) ->
  (forall a s s' r, In a (pg_vars pg) -> pg_support pg a s r = pg_support pg a s' r /\ pg_logp pg a s r = pg_logp pg a s' r) ->
  exists loss : @world X -> V,
    (forall w, exists enough, forall fuel, enough <= fuel ->
       exists t, backward_value veq anc_unwrap o o_exp fuel (h w) (nodes w) costs sg base = Ok t /\ shape t = [] /\ el t [] = loss w) /\
    forall w r s, sampled o o_exp (proposed pg lq) w loss = osum o (map (fun c => mean o o_exp pg s r (cost c)) costs).
Proof. exact (fun V S X veq anc o H ex He Hx dv nu rc Hd pg lq H1 H2 => @importance_alike V S X veq anc o H ex He Hx dv nu rc Hd pg lq H1 H2). Qed.
Print Assumptions C81_alike_partial.

(** Both on the program of two variables, one nested in the samples of the other, with fair coins as proposals: the expected loss is the expected cost of
    C23_witness. *)
Example C81_witness : forall t0, exists loss : @world bool -> C,
  (forall w, exists enough, forall fuel, enough <= fuel ->
     exists t, backward_value c_eq c_anc (curve_ops t0) curve_exp fuel c_heap (v_nodes t0 w) [2] tt 100 = Ok t /\ shape t = [] /\ el t [] = loss w) /\
  forall w t, sampled (curve_ops t0) curve_exp (proposed c_prog v_logq) w loss t =
    ((1 - sig t) * ((1 - sig (t * 1)) * t + sig (t * 1) * (4 * t)) + sig t * ((1 - sig (t * 2)) * (2 * t) + sig (t * 2) * (5 * t)))%R.
Proof.
  intros t0.
  destruct (C81_alike_partial C unit bool c_eq c_anc (curve_ops t0) (curve_ring t0) curve_exp (curve_evaluates t0)
    (fun f g => functional_extensionality _ _ (fun t => exp_plus (f t) (g t))) curve_div curve_num curve_recip (curve_divides t0) c_prog v_logq (c_program_ok t0) (v_proposed_ok t0)
    v_count (v_nodes t0) (fun _ => c_heap) (fun _ => [0; 1; 2]) [2] (fun _ => c_plates) (fun _ => v_plates t0) (fun _ => [0; 1]) v_own (fun _ => [0; 1]) c_cost tt 100) as [loss [H1 H2]].
  - discriminate.
  - intros w. split; [apply c_closed|]. intros x [<-|[]]. simpl. auto.
  - intros w c [<-|[]]. split; [apply v_setup|]. split; [intros s _; apply v_den|apply v_weights].
  - intros c [<-|[]]. split; [exact (c_depends t0)|]. intros p [<-|[<-|[]]]; cbn; lia.
  - intros a s s' r Ha. split; reflexivity.
  - exists loss. split; [exact H1|]. intros w t. etransitivity; [exact (f_equal (fun g : C => g t) (H2 w (fun _ => true) (fun _ => 0)))|]. clear.
    assert (E : forall b u, exp (bern (fun _ => num b) u t) = if b then sig (u t) else (1 - sig (u t))%R).
    { intros b u. unfold bern. destruct (sig_pos (u t)). destruct b; cbn [num].
      - replace (1 * ln (sig (u t)) + (1 - 1) * ln (1 - sig (u t)))%R with (ln (sig (u t))) by ring. apply exp_ln. lra.
      - replace (0 * ln (sig (u t)) + (1 - 0) * ln (1 - sig (u t)))%R with (ln (1 - sig (u t))) by ring. apply exp_ln. lra. }
    cbn -[bern num]. unfold SpecProgram.prob, curve_exp, c_cost, put. cbn -[bern num]. rewrite !E. cbn [num].
    replace (t * (1 + 1))%R with (t * 2)%R by ring. replace (t * (1 + 0))%R with (t * 1)%R by ring. ring.
Qed.

(** The code is wrong about proposals with plates of their own: they are added to the plates of the sample after it is made, so that the sample counts one
    plate dimension where it has two, and an operation on it and a tensor with that plate, such as the parameter of the proposal, raises. *)
Theorem C81_proposal_plates_refuted : forall (V : Type) (veq : V -> V -> bool) anc_unwrap (o : sops V) (o_exp : V -> V) (o_div : V -> V -> V) (o_num recip : nat -> V)
  (u v : list nat -> V) (L M : list nat -> V -> V) (f : V -> V -> V),
  let k := mkPlate PlainPlate "k" 3 (WTorch (tscalar (recip 3))) [] in
  let q := mkS 7 (mkten [3] u) [k] 1 [] [] false in
  exists x, importance_sample veq anc_unwrap o o_exp o_div o_num recip "x" 2 (fun n => Ok (mkten [n; 3] v)) (components_log_prob veq anc_unwrap L) (components_log_prob veq anc_unwrap M)
      [ParT true] [ParS q false] [] [] 0 100 = Ok (x, true) /\
    map pname (splates x) = ["x"; "k"] /\ shape (st x) = [2; 3] /\ s_plate_dims x = 1 /\ s_event_shape x = [3] /\ ~ wf x /\
    torch_op2 veq anc_unwrap top_ctx f (PT x) (PT q) 200 = Err RuntimeError.
Proof.
  intros. eexists. split; [vm_compute; reflexivity|]. split; [reflexivity|]. split; [reflexivity|]. split; [reflexivity|]. split; [reflexivity|]. split; [|vm_compute; reflexivity].
  intros W. discriminate (wf_dims _ W).
Qed.
Print Assumptions C81_proposal_plates_refuted.

(** Two such plates are added in the reverse order: with plates of one size, the value at samples (j, k) is taken for the value at (k, j). *)
Theorem C81_two_plates_refuted : forall (V : Type) (veq : V -> V -> bool) anc_unwrap (o : sops V) (o_exp : V -> V) (o_div : V -> V -> V) (o_num recip : nat -> V)
  (u v : list nat -> V) (L M : list nat -> V -> V) (f : V -> V),
  let j := mkPlate PlainPlate "j" 3 (WTorch (tscalar (recip 3))) [] in
  let k := mkPlate PlainPlate "k" 3 (WTorch (tscalar (recip 3))) [] in
  let q := mkS 7 (mkten [3; 3] u) [j; k] 2 [] [] false in
  exists x, importance_sample veq anc_unwrap o o_exp o_div o_num recip "x" 2 (fun n => Ok (mkten [n; 3; 3] (fun i => v i))) (components_log_prob veq anc_unwrap L) (components_log_prob veq anc_unwrap M)
      [ParT true] [ParS q false] [] [] 0 100 = Ok (x, true) /\
    exists y, torch_op1 veq anc_unwrap top_ctx f (PT x) 200 = Ok (PT y) /\ wf y /\ s_event_shape y = [] /\ map pname (splates y) = ["x"; "k"; "j"] /\
    forall s, in_range s (splates y) -> den y s [] = f (v [s "x"; s "k"; s "j"]).
Proof.
  intros. eexists. split; [vm_compute; reflexivity|]. eexists. split; [vm_compute; reflexivity|]. split.
  - constructor; try reflexivity; cbn; [repeat constructor; simpl; intuition discriminate|intros p H; intuition (subst; simpl; lia)].
  - split; [reflexivity|]. split; [reflexivity|]. intros s Hs. reflexivity.
Qed.
Print Assumptions C81_two_plates_refuted.

(** C41 for importance sampling: a plate of the name on a parameter, or in the surrounding stochastic context, is an error. *)
Theorem C41_importance_taken : forall (V : Type) (veq : V -> V -> bool) anc_unwrap (o : sops V) (o_exp : V -> V) (o_div : V -> V -> V) (o_num : nat -> V) recip
  name n mc lp lq params qparams parents0 (plates0 : list (plate V)) id base,
  (In name (map pname plates0) \/ exists t, In t (param_tensors params) /\ In name (map pname (splates t))) ->
  importance_sample veq anc_unwrap o o_exp o_div o_num recip name n mc lp lq params qparams parents0 plates0 id base = Err ValueError.
Proof.
  intros V veq anc o ex di nu recip name n mc lp lq params qparams parents0 plates0 id base H. unfold importance_sample.
  pose proof (SamplingProofs.sample_name_taken veq recip name 1 (fun _ => Err KeyError) None None params parents0 plates0 id H) as T.
  unfold method_sample in T. destruct (collect_params veq params parents0 plates0 false) as [[parents plates] rg].
  destruct (existsb _ plates) eqn:E; [reflexivity|]. exfalso. unfold monte_carlo in T.
  destruct (find _ plates) as [q|]; discriminate T.
Qed.
Print Assumptions C41_importance_taken.
