(** C97: deterministic functions cannot hand out samples. *)
From Coq Require Import String List Arith Bool Lia.
From Verif Require Import Base Torch Plates Wrap Inference SpecTensor SpecWrap SpecLeak WrapProofs CallProofs CallProofs2 CallN LeakProofs.
Import ListNotations.
Open Scope string_scope.
Open Scope nat_scope.
Open Scope list_scope.

(** C97. Every storch tensor anywhere in the result of a deterministic call is deterministic and has the arguments as parents. *)
Theorem C97_results : forall (V : Type) (veq : V -> V -> bool) anc_unwrap c fn args kwargs red o base v, @call_tensors V args kwargs <> [] -> c_ignore c = false ->
  handle_deterministic veq anc_unwrap c fn args kwargs red o base = Ok v ->
  forall x, within x v -> s_stochastic x = false /\ sparents x = map sid (call_tensors args kwargs).
Proof. exact (fun V veq au => @results_clean V veq au). Qed.
Print Assumptions C97_results.

(** A call does not return if its function puts a sample anywhere in its output. *)
Theorem C97_rejected : forall (V : Type) (veq : V -> V -> bool) anc_unwrap c fn args kwargs red o base, @call_tensors V args kwargs <> [] -> c_ignore c = false ->
  (forall a k out, fn a k = Ok out -> exists x, within x out /\ s_stochastic x = true) ->
  exists e, handle_deterministic veq anc_unwrap c fn args kwargs red o base = Err e.
Proof. exact (fun V veq au => @samples_rejected V veq au). Qed.
Print Assumptions C97_rejected.

(** If the output is a sample, the error is RuntimeError; if it is another tensor with the plates of the arguments, it is returned. *)
Theorem C97_itself_partial : forall (V : Type) (veq : V -> V -> bool) anc_unwrap fn (ts : list (stensor V)) base o r, ts <> [] -> callable veq ts ->
  o_unwrap o = false -> o_dim o = None -> o_dims o = None -> fn (map PT ts) [] = Ok (PT r) ->
  (s_stochastic r = true -> handle_deterministic veq anc_unwrap top_ctx fn (map PT ts) [] [] o base = Err RuntimeError) /\
  (s_stochastic r = false -> wf r -> (forall p, In p (all_plates ts) -> In (pname p) (map (@pname V) (splates r))) ->
   exists r', handle_deterministic veq anc_unwrap top_ctx fn (map PT ts) [] [] o base = Ok (PT r') /\
     splates r' = splates r /\ st r' = st r /\ sparents r' = map sid ts).
Proof.
  intros V veq au fn ts base o r Hne HC H1 H2 H3 Hf. split; intros Hs.
  - exact (sample_itself veq au fn ts base o r Hne HC H1 H2 H3 Hf Hs).
  - intros Hw Hp. destruct (keep_good veq au fn ts base o r Hne HC H1 H2 H3 Hf Hs Hw Hp) as (r' & A & B & D & _ & _ & F & _). eauto 6.
Qed.
Print Assumptions C97_itself_partial.

(** What is not true: that only samples are rejected. What denote_independent and gather_samples make counts as a sample, because its method
    stochastic is no property, so that a deterministic function cannot return it. *)
Theorem C97_independent_refuted : forall (V : Type) (veq : V -> V -> bool) anc_unwrap (recip : nat -> V) (c : wctx) (r : stensor V) dim name w id,
  (exists t, denote_independent_raw recip c t dim name w id = Ok r) \/ (exists a, snd (denote_independent recip c a dim name w id) = Ok r) \/
  (exists l, gather_samples recip c l name w id = Ok r) ->
  forall fn (ts : list (stensor V)) base o, ts <> [] -> callable veq ts -> o_unwrap o = false -> o_dim o = None -> o_dims o = None ->
  fn (map PT ts) [] = Ok (PT r) -> handle_deterministic veq anc_unwrap top_ctx fn (map PT ts) [] [] o base = Err RuntimeError.
Proof.
  intros V veq au recip c r dim name w id H fn ts base o H0 H1 H2 H3 H4 H5.
  exact (sample_itself veq au fn ts base o r H0 H1 H2 H3 H4 H5 (made_independent recip c r dim name w id H)).
Qed.
Print Assumptions C97_independent_refuted.

(** A minibatch of three: the function that returns its argument. The same for a sample deep in the output, and for a tensor that is neither. *)
Definition lk_t : ten nat := mkten [3] (fun i => hd 0 i).
Definition lk_plate : plate nat := mkPlate PlainPlate "b" 3 (WTorch (tscalar 1)) [].
Definition lk_a (stoch : bool) : stensor nat := mkS 7 lk_t [lk_plate] 1 [] [] stoch.
Definition lk_keep : wopts := mkW false false false false false None None.
Definition lk_id (args : list (pyval nat)) (_ : list (string * pyval nat)) : res (pyval nat) := Ok (hd PNone args).
Example C97_witness : forall au,
  (exists r, denote_independent_raw (fun _ => 1) top_ctx lk_t 0 "b" None 7 = Ok r /\ callable Nat.eqb [r] /\
     handle_deterministic Nat.eqb au top_ctx lk_id [PT r] [] [] lk_keep 50 = Err RuntimeError) /\
  handle_deterministic Nat.eqb au top_ctx (fun a _ => Ok (PList [PNone; PTuple a])) [PT (lk_a true)] [] [] lk_keep 50 = Err RuntimeError /\
  (callable Nat.eqb [lk_a false] /\ wf (lk_a false) /\ exists v, handle_deterministic Nat.eqb au top_ctx (fun a _ => Ok (PList [PNone; PTuple a])) [PT (lk_a false)] [] [] lk_keep 50 = Ok v /\
     exists x, within x v /\ sparents x = [7]).
Proof.
  assert (W : forall b, wf (lk_a b)) by (intros b; constructor; cbn; repeat constructor; cbn; auto; intros p [<-|[]]; cbn; lia).
  assert (C : forall b, callable Nat.eqb [lk_a b]).
  { intros b. split; [constructor; [apply W|constructor]|]. split.
    - intros p q [<-|[]] [<-|[]] _. split; reflexivity.
    - intros p [<-|[]]. reflexivity. }
  intros au. split; [|split; [reflexivity|split; [apply C|split; [apply W|]]]].
  - exists (lk_a true). split; [reflexivity|]. split; [apply C|reflexivity].
  - eexists. split; [reflexivity|]. eexists. split; [|].
    + eapply W_list; [right; left; reflexivity|]. eapply W_tuple; [left; reflexivity|]. constructor.
    + reflexivity.
Qed.
