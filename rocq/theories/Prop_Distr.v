(** C69, C70: distributions as arguments and results of wrapped functions. *)
From Coq Require Import String List Arith Bool Lia.
From Verif Require Import Base Torch Plates Wrap SpecTensor SpecWrap WrapProofs AlignProofs CallProofs CallProofs2 DistrProofs Prop_Wrap.
Import ListNotations.
Open Scope string_scope.
Open Scope nat_scope.
Open Scope list_scope.

(** C69 when the parameters have no plates and no more event dimensions than the other arguments and the class of each distribution takes
    its parameters: the function gets distributions of the same classes with the parameters laid out as the other arguments are. Missing:
    the other cases (false, below), and that the result depends on the parameters (false, below). *)
Theorem C69_aligned_partial : forall (V : Type) (veq : V -> V -> bool) anc_unwrap args kwargs o (ts ds : list (stensor V)),
  ts = call_tensors args kwargs -> ds = call_params args kwargs -> callable veq (ts ++ ds) -> covered ts ds ->
  o_unwrap o = true -> o_align o = true -> o_lbroadcast o = true -> o_flatten o = false -> o_dim o = None -> o_dims o = None ->
  Forall rebuildable args -> Forall (fun kv => rebuildable (snd kv)) kwargs ->
  let R := laid_out (wide (all_plates ts)) (o_expand o) (max_event ts) in
  exists args' kwargs',
    prepare_args veq anc_unwrap args kwargs o = Ok (args', kwargs', ts, all_plates ts) /\
    Forall2 (unwrapped R) args args' /\
    Forall2 (fun x y => fst x = fst y /\ unwrapped R (snd x) (snd y)) kwargs kwargs'.
Proof. exact (fun V veq au => @distr_aligned V veq au). Qed.
Print Assumptions C69_aligned_partial.

(** A tensor with plates x and y, and a normal distribution with a mean with plates y and x and an event, and a deviation with plate x. *)
Definition n_scale : stensor nat := mkS 12 (mkten [2] (fun i => 70 + num i)) [w_x] 1 [] [] false.
Definition n_call : list (pyval nat) := [PT w_b; PList [PDistr DPlain [("loc", PT w_b); ("scale", PT n_scale)]]].
Example C69_witness : call_tensors n_call [] = [w_b] /\ call_params n_call [] = [w_b; n_scale] /\ callable Nat.eqb ([w_b] ++ [w_b; n_scale]) /\
  covered [w_b] [w_b; n_scale] /\ Forall rebuildable n_call.
Proof.
  split; [reflexivity|]. split; [reflexivity|]. split; [|split].
  - split; [|split].
    + repeat constructor; simpl; try (intros p Hp; intuition (subst; simpl; lia)); try (intuition congruence); auto.
    + intros p q Hp Hq E. simpl in Hp, Hq. intuition (subst; simpl in *; try discriminate; try (split; reflexivity)).
    + intros p Hp. simpl in Hp. intuition (subst; reflexivity).
  - intros d Hd. split.
    + intros p Hp. exists w_b. split; [now left|]. simpl in Hd. destruct Hd as [<-|[<-|[]]]; simpl in Hp; intuition (subst; simpl; auto).
    + exists w_b. split; [now left|]. simpl in Hd. destruct Hd as [<-|[<-|[]]]; simpl; unfold s_event_dims; simpl; lia.
  - repeat constructor; simpl; auto.
Qed.
Example C69_example : exists u m s, prepare_args Nat.eqb no_anc n_call [] default_opts
  = Ok ([PRaw u; PList [PDistr DPlain [("loc", PRaw m); ("scale", PRaw s)]]], [], [w_b], [w_y; w_x]) /\
  shape m = [3; 2; 2] /\ shape s = [1; 2; 1] /\ el m [2; 1; 0] = 5000 + num [2; 1; 0] /\ el s [0; 1; 0] = 70 + num [1].
Proof. do 3 eexists. repeat split; reflexivity. Qed.

(** C69 is false as to dependencies and plates: whatever the function and the distributions, the parents and plates of a result are those of
    the tensors outside distributions. *)
Theorem C69_forgotten_refuted : forall (V : Type) (veq : V -> V -> bool) anc_unwrap fn args kwargs o base (r : stensor V), call_tensors args kwargs <> [] -> o_flatten o = false ->
  handle_deterministic veq anc_unwrap top_ctx fn args kwargs [] o base = Ok (PT r) ->
  (forall a k out, fn a k = Ok out -> no_storch out) ->
  (forall i, In i (sparents r) -> exists t, In t (call_tensors args kwargs) /\ sid t = i) /\
  (forall p, In p (splates r) -> exists t, In t (call_tensors args kwargs) /\ In p (splates t)).
Proof. exact (fun V veq au => @distr_forgotten V veq au). Qed.
Print Assumptions C69_forgotten_refuted.

(** The mean of a distribution with plates x and v (two samples each) added to a tensor with plate x: the result has plate x only, v is an
    event dimension, and the tensor's samples of x are added along v. *)
Definition w_v : plate nat := mkPlate PlainPlate "v" 2 (WTorch (tscalar 1)) [].
Definition m_x : stensor nat := mkS 20 (mkten [2] (fun i => 100 * num i)) [w_x] 1 [] [] false.
Definition m_loc : stensor nat := mkS 21 (mkten [2; 2] num) [w_x; w_v] 2 [] [] false.
Definition add_mean (args : list (pyval nat)) (kwargs : list (string * pyval nat)) : res (pyval nat) :=
  match args with [PRaw t; PDistr _ [(_, PRaw m)]] => do r <- elementwise2 Nat.add t m; Ok (PRaw r) | _ => Err TypeError end.
Theorem C69_mixed_refuted : exists r, handle_deterministic Nat.eqb no_anc top_ctx add_mean [PT m_x; PDistr DPlain [("loc", PT m_loc)]] [] [] default_opts 50 = Ok (PT r) /\
  sparents r = [20] /\ splates r = [w_x] /\ s_event_shape r = [2] /\ el (st r) [0; 1] = 100 * num [1] + num [0; 1].
Proof. eexists. repeat split; reflexivity. Qed.
Print Assumptions C69_mixed_refuted.

(** C69 is false for parameters with fewer event dimensions than another argument: the events are padded on the right, so that the last
    dimension, the one with the categories of a categorical distribution, has size one. *)
Theorem C69_categories_refuted : forall (V : Type) (ps : list (plate V)) expand ed d u, laid_out ps expand ed d u -> s_event_dims d < ed -> last (shape u) 0 = 1.
Proof.
  intros V ps expand ed d u [Hs _] H. rewrite Hs. unfold pad. unfold s_event_dims in H. destruct (ed - length (s_event_shape d)) as [|k] eqn:E; [lia|].
  replace (S k) with (k + 1) by lia. rewrite repeat_app, !app_assoc. apply last_last.
Qed.
Print Assumptions C69_categories_refuted.
(** A categorical distribution with three categories next to a tensor with an event of two dimensions. *)
Example C69_categories_example :
  let x := mkS 30 (mkten [2; 4; 3] num) [w_x] 1 [4; 3] [] false in let lg := mkS 31 (mkten [2; 3] num) [w_x] 1 [3] [] false in
  exists u m, prepare_args Nat.eqb no_anc [PT x; PDistr DDiscrete [("logits", PT lg)]] [] default_opts
    = Ok ([PRaw u; PDistr DDiscrete [("logits", PRaw m)]], [], [x], [w_x]) /\ shape m = [2; 3; 1].
Proof. cbv zeta. do 2 eexists. split; reflexivity. Qed.

(** C69 is false for relaxed and nested distributions: they are passed on with storch tensors as parameters. *)
Theorem C69_as_is_refuted : forall (V : Type) (veq : V -> V -> bool) anc_unwrap args kwargs o args' kwargs' ps pl i c (l : list (string * pyval V)), o_unwrap o = true ->
  prepare_args veq anc_unwrap args kwargs o = Ok (args', kwargs', ps, pl) ->
  nth_error args i = Some (PDistr c l) -> c = DRelaxed \/ c = DNested -> nth_error args' i = Some (PDistr c l).
Proof. exact (fun V veq au => @distr_as_is V veq au). Qed.
Print Assumptions C69_as_is_refuted.
Example C69_as_is_example : exists u, prepare_args Nat.eqb no_anc [PT w_b; PDistr DNested [("loc", PT w_b)]] [] default_opts
    = Ok ([PRaw u; PDistr DNested [("loc", PT w_b)]], [], [w_b], [w_y; w_x]).
Proof. eexists. reflexivity. Qed.

(** C70 for discrete distributions: the result is a distribution whose parameters are storch tensors with the plates and the parents of the
    call ([rewrapped] covers results that contain distributions too). *)
Theorem C70_discrete_partial : forall (V : Type) (veq : V -> V -> bool) anc_unwrap fn args kwargs o base l t v, @call_tensors V args kwargs <> [] -> o_flatten o = false ->
  handle_deterministic veq anc_unwrap top_ctx fn args kwargs [] o base = Ok v ->
  (forall a k, fn a k = Ok (PDistr DDiscrete [(l, PRaw t)])) ->
  exists a, v = PDistr DDiscrete [(l, PT a)] /\ st a = t /\ sparents a = map sid (call_tensors args kwargs) /\
    exists args' kwargs', prepare_args veq anc_unwrap args kwargs o = Ok (args', kwargs', call_tensors args kwargs, splates a).
Proof.
  intros V veq au fn args kwargs o base l t v Hne Hf H Hfn.
  destruct (dependencies_recorded veq au fn args kwargs o base v Hne Hf H) as [a [k [pl [out [P1 [P2 P3]]]]]].
  { intros a k out E. rewrite Hfn in E. injection E as <-. simpl. auto. }
  rewrite Hfn in P2. injection P2 as <-. inversion P3 as [| | | | |l0 l' F E1 E2]; subst. inversion F as [|? [k' y] ? l2 [K Y] F']; subst. inversion F'; subst. simpl in K, Y. subst k'.
  inversion Y as [t' b S1 S2 S3 S4| | | | |]; subst. exists b. split; [reflexivity|]. split; [reflexivity|]. split; [exact S3|]. eauto.
Qed.
Print Assumptions C70_discrete_partial.
Example C70_witness : exists a, handle_deterministic Nat.eqb no_anc top_ctx (fun _ _ => Ok (PDistr DDiscrete [("probs", PRaw (mkten [2; 3; 4] num))]))
  [PT w_a] [] [] default_opts 50 = Ok (PDistr DDiscrete [("probs", PT a)]) /\ splates a = [w_x; w_y; w_z] /\ s_event_shape a = [4] /\ sparents a = [10].
Proof. eexists. repeat split; reflexivity. Qed.

(** C70 is false for all other distributions: no call returns. *)
Theorem C70_others_refuted : forall (V : Type) (veq : V -> V -> bool) anc_unwrap fn args kwargs o base c l, @call_tensors V args kwargs <> [] ->
  (forall a k, fn a k = Ok (PDistr c l)) -> c <> DDiscrete ->
  forall v, handle_deterministic veq anc_unwrap top_ctx fn args kwargs [] o base <> Ok v.
Proof. exact (fun V veq au => @distr_output_fails V veq au). Qed.
Print Assumptions C70_others_refuted.
(** A relaxed distribution: its class is called with the probabilities in the place of the temperature. *)
Example C70_relaxed_example : handle_deterministic Nat.eqb no_anc top_ctx (fun _ _ => Ok (PDistr DRelaxed [("probs", PRaw (mkten [2; 3; 4] num))]))
  [PT w_a] [] [] default_opts 50 = Err ValueError.
Proof. reflexivity. Qed.
