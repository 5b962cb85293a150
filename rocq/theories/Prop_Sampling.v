(** C30, C41: samples, their plates and weightings. *)
From Coq Require Import String List Arith Bool ZArith Lia.
From Verif Require Import Base Torch Plates Wrap OrderPlates Scalar Reduce Inference Sampling SpecTensor SpecWrap SpecOrder SpecReduce
  SpecSampling ListLemmas OrderProofs OpProofs ReduceProofs2 SamplingProofs Prop_Reduce.
Import ListNotations.
Open Scope string_scope.
Open Scope nat_scope.
Open Scope list_scope.

(** C41. The sample of a method without post_sample: its plates are a new plate of the method followed by the union of the
    plates of the parameters, its parents are the storch parameters, each once, and it holds the drawn values. Missing for
    the full claim: methods with a post_sample, whose result has the sample as its only parent (C41_post_partial). *)
Theorem C41_sample_partial : forall (V : Type) (veq : V -> V -> bool) (recip : nat -> V)
  name n mc weighting params id t size ev,
  callable veq (param_tensors params) ->
  (forall u, In u (param_tensors params) -> ~ In name (map pname (splates u))) ->
  mc n = Ok t -> 1 <= size -> shape t = size :: map pn (wide (all_plates (param_tensors params))) ++ ev ->
  let w := match weighting with Some f => WTorch (f size) | None => WTorch (tscalar (recip size)) end in
  let p := mkPlate PlainPlate name size w (all_plates (param_tensors params)) in
  exists x, method_sample veq recip name n mc weighting None params [] [] id = Ok (x, existsb needs_grad params) /\
    sid x = id /\ wf x /\ splates x = p :: all_plates (param_tensors params) /\ s_stochastic x = true /\
    s_event_shape x = ev /\
    NoDup (sparents x) /\ (forall i, In i (sparents x) <-> In i (map sid (param_tensors params))) /\
    forall s e, in_range s (splates x) ->
      den x s e = el t (s name :: map (fun q => s (pname q)) (wide (all_plates (param_tensors params))) ++ e).
Proof. exact (fun V veq recip => @sample_spec V veq (fun _ a => Ok a) recip). Qed.
Print Assumptions C41_sample_partial.

(** With post_sample: the same plates, but the parent is the sample before post_sample. *)
Theorem C41_post_partial : forall (V : Type) (veq : V -> V -> bool) (recip : nat -> V)
  name n mc weighting f params parents0 plates0 id (x : stensor V) rg,
  method_sample veq recip name n mc weighting None params parents0 plates0 id = Ok (x, rg) -> wf x ->
  (forall u, shape (f u) = shape u) ->
  exists y, method_sample veq recip name n mc weighting (Some f) params parents0 plates0 id = Ok (y, false) /\
    sid y = id + 1 /\ wf y /\ splates y = splates x /\ s_stochastic y = true /\ s_event_shape y = s_event_shape x /\
    sparents y = [sid x] /\ st y = f (st x).
Proof. exact (fun V veq recip => @sample_post V veq recip). Qed.
Print Assumptions C41_post_partial.

(** A plate of the name on a parameter, or in the surrounding stochastic context, is an error. *)
Theorem C41_name_taken : forall (V : Type) (veq : V -> V -> bool) (recip : nat -> V)
  name n mc weighting post params parents0 (plates0 : list (plate V)) id,
  (In name (map pname plates0) \/ exists t, In t (param_tensors params) /\ In name (map pname (splates t))) ->
  method_sample veq recip name n mc weighting post params parents0 plates0 id = Err ValueError.
Proof. exact (fun V veq recip => @sample_name_taken V veq recip). Qed.
Print Assumptions C41_name_taken.

(** MonteCarlo.sample itself, when a plate has its name already: it draws one sample, of which it drops the first dimension,
    and gives it the same plates, none of them new. *)
Theorem C41_repeated : forall (V : Type) (recip : nat -> V) name n (mc : nat -> res (ten V)) parents plates p id t ev,
  In p plates -> pname p = name -> NoDup (map pname plates) -> (forall q, In q plates -> 1 <= pn q) ->
  mc 1 = Ok t -> shape t = 1 :: map pn (wide plates) ++ ev ->
  exists x, monte_carlo recip name n mc parents plates id = Ok (x, p) /\ wf x /\ splates x = plates /\ sparents x = parents /\
    s_event_shape x = ev /\ forall s e, den x s e = el t (0 :: map (fun q => s (pname q)) (wide plates) ++ e).
Proof.
  intros V recip name n mc parents plates p id t ev Hp Hn Nd Pos Hmc Hs. unfold monte_carlo.
  assert (F : find (fun q => String.eqb (pname q) name) plates = Some p).
  { destruct (find (fun q => String.eqb (pname q) name) plates) as [q|] eqn:E.
    - apply find_some in E. destruct E as [Hq E]. apply String.eqb_eq in E. f_equal. apply (NoDup_map_inj (@pname V) plates); auto. congruence.
    - exfalso. apply (List.find_none _ _) with (x := p) in E; auto. cbv beta in E. rewrite Hn, String.eqb_refl in E. discriminate. }
  rewrite F, Hmc. cbn [bind]. rewrite Hs. cbn [Nat.eqb].
  destruct (mk_tensor_good id (squeeze0 t) parents plates true ev) as [x [X1 [X2 [X3 [X4 [X5 [X6 [X7 X8]]]]]]]]; auto.
  { unfold squeeze0. cbn [shape]. rewrite Hs. reflexivity. }
  rewrite X1. cbn [bind]. exists x. repeat split; auto; try apply X8. intros s e. unfold den. rewrite X3, X4. unfold squeeze0. rewrite Hs. reflexivity.
Qed.
Print Assumptions C41_repeated.

(** Two parameters, one of them given twice, with plates x (size 2) and y (size 3); four samples of two numbers. *)
Definition m_x : plate Z := mkPlate PlainPlate "x" 2 (WTorch (tscalar 1%Z)) [].
Definition m_y : plate Z := mkPlate PlainPlate "y" 3 (WTorch (tscalar 1%Z)) [].
Definition m_mu : stensor Z := mkS 3 (mkten [2] (fun i => Z.of_nat (nth 0 i 0))) [m_x] 1 [] [] false.
Definition m_sd : stensor Z := mkS 5 (mkten [3; 2] (fun i => Z.of_nat (nth 0 i 0))) [m_y; m_x] 2 [] [] false.
Definition m_params : list (@param Z) := [ParS m_mu true; ParT false; ParS m_sd false; ParS m_mu true].
Definition m_t : ten Z := mkten [4; 2; 3; 2] (fun i => fold_left (fun n d => (10 * n + Z.of_nat d)%Z) i 0%Z).
Definition m_mc (n : nat) : res (ten Z) := if n =? 4 then Ok m_t else Err RuntimeError.
Definition m_recip (n : nat) : Z := Z.of_nat (100 + n).
Lemma m_callable : callable Z.eqb (param_tensors m_params).
Proof.
  refine (conj _ (conj _ _)).
  - repeat constructor; simpl; try reflexivity; try (intuition discriminate); intros p H; intuition (subst; simpl; lia).
  - intros p q Hp Hq E. simpl in Hp, Hq. intuition (subst; simpl in *; try discriminate; auto).
  - intros p Hp. simpl in Hp. intuition (subst; reflexivity).
Qed.
Example C41_witness : callable Z.eqb (param_tensors m_params) /\
  (forall u, In u (param_tensors m_params) -> ~ In "z" (map pname (splates u))) /\
  m_mc 4 = Ok m_t /\ shape m_t = 4 :: map pn (wide (all_plates (param_tensors m_params))) ++ [2] /\
  match method_sample Z.eqb m_recip "z" 4 m_mc None None m_params [] [] 9 with
  | Ok (x, rg) => map pname (splates x) = ["z"; "x"; "y"] /\ sparents x = [3; 5] /\ rg = true /\ s_event_shape x = [2] /\
                  map (fun p => pn p) (splates x) = [4; 2; 3]
  | Err _ => False
  end /\
  method_sample Z.eqb m_recip "y" 4 m_mc None None m_params [] [] 9 = Err ValueError.
Proof.
  split; [exact m_callable|]. split; [intros u Hu; simpl in Hu; intuition (subst; simpl in *; intuition discriminate)|].
  repeat split; reflexivity.
Qed.
Example C41_repeated_witness :
  match monte_carlo m_recip "x" 4 (fun n => if n =? 1 then Ok (mkten [1; 2; 3; 2] (el m_t)) else Err RuntimeError) [3] [m_x; m_y] 9 with
  | Ok (x, p) => p = m_x /\ splates x = [m_x; m_y] /\ s_event_shape x = [2] /\ el (st x) [1; 2; 1] = 121%Z
  | Err _ => False
  end.
Proof. repeat split; reflexivity. Qed.
(** With post_sample the parents of the result are not the parameters. *)
Theorem C41_post_refuted :
  match method_sample Z.eqb m_recip "z" 4 m_mc None (Some (tmap Z.sgn)) m_params [] [] 9 with
  | Ok (y, _) => sparents y = [9] /\ forall i, In i (map sid (param_tensors m_params)) -> ~ In i (sparents y)
  | Err _ => False
  end.
Proof. split; [reflexivity|]. intros i Hi. simpl in *. intuition (subst; discriminate). Qed.
Print Assumptions C41_post_refuted.

(** C30. Drawing with the weighting of ARM (k = 2) or REBAR (k = 3): the plate of the sample has weight 1/m for the first
    m = n/k samples and weight 0 for the others. *)
Theorem C30_weights : forall (V : Type) (veq : V -> V -> bool) (recip : nat -> V)
  (zero : V) name n mc params id t k m ev,
  callable veq (param_tensors params) ->
  (forall u, In u (param_tensors params) -> ~ In name (map pname (splates u))) ->
  mc n = Ok t -> 2 <= k -> 1 <= m -> shape t = k * m :: map pn (wide (all_plates (param_tensors params))) ++ ev ->
  exists x p, method_sample veq recip name n mc (Some (true_samples recip zero k)) None params [] [] id
              = Ok (x, existsb needs_grad params) /\
    hd_error (splates x) = Some p /\ pname p = name /\ pn p = k * m /\
    forall s, weight_at (splates x) p s = (if s name <? m then recip m else zero).
Proof.
  intros V veq recip zero name n mc params id t k m ev Hc Hf Hmc Hk Hm Hs.
  destruct (sample_spec veq (fun _ a => Ok a) recip name n mc (Some (true_samples recip zero k)) params id t (k * m) ev Hc Hf Hmc) as [x [E [A1 [A2 [A3 _]]]]];
    auto; [nia|].
  exists x. eexists. rewrite A3. split; [exact E|]. split; [reflexivity|]. split; [reflexivity|]. split; [reflexivity|].
  intros s. unfold weight_at. cbn. rewrite Nat.mul_comm, Nat.div_mul by lia. reflexivity.
Qed.
Print Assumptions C30_weights.

(** Any tensor with such a plate: reducing it gives the mean over the first m samples, whatever the others are. *)
Theorem C30_mean : forall (V : Type) (veq : V -> V -> bool) anc_unwrap (recip : nat -> V) (o : sops V), is_ring o ->
  forall (a : stensor V) (p : plate V) detach k m base,
  wf a -> sound veq (splates a) -> In p (splates a) -> (forall q, above q p -> pname q <> pname p) ->
  2 <= k -> 1 <= m -> pn p = k * m -> pweight p = WTorch (true_samples recip (o_zero o) k (pn p)) ->
  o_det o (o_zero o) = o_zero o ->
  exists r, reduce_plates veq anc_unwrap o top_ctx (PT a) [ByName (pname p)] detach base = Ok r /\
    splates r = filter (fun q => negb (String.eqb (pname q) (pname p))) (splates a) /\ wf r /\
    s_event_shape r = s_event_shape a /\
    forall s e, in_range s (splates r) -> valid e (s_event_shape a) ->
      den r s e = o_mul o (if detach then o_det o (recip m) else recip m)
                          (osum o (map (fun i => den a (set_to s (pname p) i) e) (seq 0 m))).
Proof. exact (fun V veq anc recip o H => @true_samples_mean V veq anc recip o H). Qed.
Print Assumptions C30_mean.

(** Four samples (two true ones) of a value that depends on another plate. *)
Definition v_p : plate Z := mkPlate PlainPlate "z" 4 (WTorch (true_samples m_recip 0%Z 2 4)) [m_x].
Definition v_a : stensor Z := mkS 0 (mkten [4; 2] (fun i => Z.add (1 + 10 * Z.of_nat (nth 0%nat i 0%nat))%Z (Z.of_nat (nth 1 i 0)))) [v_p; m_x] 2 [] [] false.
Example C30_witness : wf v_a /\ sound Z.eqb (splates v_a) /\ In v_p (splates v_a) /\ (forall q, above q v_p -> pname q <> pname v_p) /\
  pn v_p = 2 * 2 /\
  match reduce_plates Z.eqb no_anc zops top_ctx (PT v_a) [ByName "z"] true 100 with
  | Ok r => splates r = [m_x] /\ el (st r) [1] = (102 * (2 + 12))%Z
  | Err _ => False
  end.
Proof.
  assert (A : forall p, ancestry (splates v_a) p -> In p (splates v_a)).
  { intros p Hp. apply ancestry_ups in Hp. simpl in Hp. simpl. intuition. }
  split.
  { constructor; try reflexivity; simpl.
    - repeat constructor; simpl; intuition discriminate.
    - intros p H. intuition (subst; simpl; lia). }
  split.
  { constructor.
    - split; [|split].
      + repeat constructor; simpl; intuition discriminate.
      + intros p Hp. simpl in Hp. destruct Hp as [<-|[<-|[]]]; repeat constructor; simpl; intuition discriminate.
      + intros p q Hp Hq E. apply A in Hp. apply A in Hq. simpl in Hp, Hq. intuition (subst; simpl in *; try discriminate; reflexivity).
    - intros p q Hp Hq E. apply A in Hp. apply A in Hq. simpl in Hp, Hq. intuition (subst; simpl in *; try discriminate; reflexivity).
    - intros p Hp. apply A in Hp. simpl in Hp. intuition (subst; reflexivity).
    - intros p Hp. apply A in Hp. simpl in Hp. intuition (subst; simpl; lia). }
  split; [simpl; auto|]. split.
  { intros q H. inversion H as [? ? Hq|? q' ? Hq Hab]; subst; simpl in Hq; destruct Hq as [<-|[]]; [discriminate|].
    inversion Hab as [? ? Hq|? q' ? Hq]; subst; destruct Hq. }
  split; [reflexivity|]. repeat split; reflexivity.
Qed.
