(** C47, C49: sequence methods, storch.stochastic. *)
From Coq Require Import String List Arith Bool ZArith Lia.
From Verif Require Import Base Torch Plates Wrap Scalar Reduce Graph Surrogate SeqMethod Stochastic SpecTensor SpecWrap SpecSeq
  SeqMethodProofs StochasticProofs Prop_Wrap.
Import ListNotations.
Open Scope string_scope.
Open Scope nat_scope.
Open Scope list_scope.

(** C47. In the loop over the ancestors of a cost that has a plate [name], the samples of a sequence method with that plate
    that do not carry the very plate object of the cost are skipped: the loop does what it does without them. If every
    sample of the sequence has its own plate object, at most one sample is left, the one with the plate object of the cost.
    Samples of other methods are not affected. *)
Theorem C47_one_term : forall (V S : Type) (veq : V -> V -> bool) anc_unwrap (o : sops V) o_exp name isseq plates
  (nodes : nat -> @snode V S) c obj base order s,
  (forall p n lp req m, In p order -> isseq p = true -> nd_sto (nodes p) = Some (n, lp, req, Some m) ->
     forall c, me_pathwise m p c = seq_is_pathwise name (plates p) (plates c)) ->
  plate_object name (plates c) = Some obj ->
  foldM (add_parent veq anc_unwrap o o_exp nodes c base) order s
  = foldM (add_parent veq anc_unwrap o o_exp nodes c base)
          (filter (fun p => negb (isseq p) || carries name obj (plates p)) order) s.
Proof. exact (fun V S veq au o e => @one_term V S veq au o e). Qed.
Print Assumptions C47_one_term.

Theorem C47_unique : forall name (isseq : nat -> bool) (plates : nat -> list plateref) obj order, NoDup order ->
  (forall (p q x : nat), In p order -> In q order -> isseq p = true -> isseq q = true ->
     plate_object name (plates p) = Some x -> plate_object name (plates q) = Some x -> p = q) ->
  length (filter (fun p => isseq p && carries name obj (plates p)) order) <= 1 /\
  (forall p, In p order -> isseq p = true -> plate_object name (plates p) = Some obj ->
     filter (fun p => isseq p && carries name obj (plates p)) order = [p]).
Proof. exact at_most_one. Qed.
Print Assumptions C47_unique.

(** The sample with the plate object of the cost is not skipped; all others are. *)
Theorem C47_pathwise : forall name tensor cost obj, plate_object name cost = Some obj ->
  (seq_is_pathwise name tensor cost = Ok false <-> plate_object name tensor = Some obj) /\
  (seq_is_pathwise name tensor cost = Ok true <-> plate_object name tensor <> Some obj).
Proof.
  intros name tensor cost obj H. rewrite seq_pathwise_spec, H. destruct (plate_object name tensor) as [x|].
  - destruct (x =? obj) eqn:E; [apply Nat.eqb_eq in E; subst|apply Nat.eqb_neq in E]; simpl; split; split; intros A; try congruence; auto.
  - split; split; intros A; congruence.
Qed.
Print Assumptions C47_pathwise.

(** A cost without the plate, below a sample of the sequence: ValueError. *)
Theorem C47_plate_lost : forall (V S : Type) (veq : V -> V -> bool) anc_unwrap (o : sops V) o_exp name plates
  (nodes : nat -> @snode V S) c base p n lp m s x,
  nd_sto (nodes p) = Some (n, lp, true, Some m) -> me_pathwise m p c = seq_is_pathwise name (plates p) (plates c) ->
  plate_object name (plates p) = Some x -> plate_object name (plates c) = None ->
  add_parent veq anc_unwrap o o_exp nodes c base s p = Err ValueError.
Proof. exact (fun V S veq au o e => @cost_lacks_plate V S veq au o e). Qed.
Print Assumptions C47_plate_lost.

(** Samples 4, 3, 2 of a sequence with plate objects 14, 13, 12 called z; 1 is a sample of another method. The cost 9 has
    the plate of sample 3. *)
Definition q_plates (i : nat) : list plateref :=
  match i with
  | 4 => [(20, "x"); (14, "z")] | 3 => [(13, "z"); (20, "x")] | 2 => [(12, "z")] | 1 => [(20, "x")] | 9 => [(20, "x"); (13, "z")]
  | _ => []
  end.
Example C47_witness :
  plate_object "z" (q_plates 9) = Some 13 /\
  filter (fun p => negb (1 <? p) || carries "z" 13 (q_plates p)) [4; 3; 1; 2] = [3; 1] /\
  map (fun p => seq_is_pathwise "z" (q_plates p) (q_plates 9)) [4; 3; 2] = [Ok true; Ok false; Ok true] /\
  seq_is_pathwise "z" (q_plates 4) (q_plates 1) = Err ValueError.
Proof. repeat split. Qed.

(** C49. Refuted: whatever tensors (or other values that are not dicts) a function wrapped in storch.stochastic is called
    with, positionally or by keyword, the call fails before the function is reached: _prepare_args is called with
    [*args, **kwargs] instead of [args, kwargs]. *)
Theorem C49_call_refuted : forall (V : Type) (veq : V -> V -> bool) anc_unwrap iterate options args kwargs r,
  (forall v d, In v (args ++ map snd kwargs) -> v <> PDict d) ->
  @stochastic_args V veq anc_unwrap iterate options args kwargs <> Ok r.
Proof. exact (fun V => @no_dict_no_call V). Qed.
Print Assumptions C49_call_refuted.

(** A keyword argument not named like a parameter of _prepare_args is always an error. *)
Theorem C49_keyword_refuted : forall (V : Type) (veq : V -> V -> bool) anc_unwrap iterate options args kwargs k v,
  In (k, v) kwargs -> ~ In k prepare_params ->
  @stochastic_args V veq anc_unwrap iterate options args kwargs = Err TypeError.
Proof. exact (fun V => @unknown_keyword V). Qed.
Print Assumptions C49_keyword_refuted.

(** So is leaving out the second of these parameters (or both), or giving more than nine. *)
Theorem C49_missing : forall (V : Type) (veq : V -> V -> bool) anc_unwrap iterate options args kwargs,
  (length args <= 1 /\ (forall kv, In kv kwargs -> fst kv <> "fn_kwargs")) \/ (args = [] /\ (forall kv, In kv kwargs -> fst kv <> "fn_args")) \/ 9 < length args ->
  @stochastic_args V veq anc_unwrap iterate options args kwargs = Err TypeError.
Proof. exact (fun V => @missing_args V). Qed.
Print Assumptions C49_missing.

(** What works is to call the wrapped function with a list and a dict: it then receives their contents, unwrapped. *)
Theorem C49_pair_partial : forall (V : Type) (veq : V -> V -> bool) anc_unwrap iterate options l d (ts : list (stensor V)),
  ts = call_tensors l d -> callable veq ts ->
  options [("fn_args", PList l); ("fn_kwargs", PDict d)] = Ok default_opts ->
  Forall no_distr l -> Forall (fun kv => no_distr (snd kv)) d ->
  let R := laid_out (wide (all_plates ts)) false (max_event ts) in
  exists args' kwargs',
    stochastic_args veq anc_unwrap iterate options [PList l; PDict d] [] = Ok (args', kwargs', ts, all_plates ts) /\
    Forall2 (unwrapped R) l args' /\
    Forall2 (fun x y => fst x = fst y /\ unwrapped R (snd x) (snd y)) d kwargs'.
Proof. exact (fun V => @pair_call V). Qed.
Print Assumptions C49_pair_partial.

Definition st_opts (l : list (string * pyval nat)) : res wopts := if length l <=? 2 then Ok default_opts else Err TypeError.
Example C49_witness :
  stochastic_args Nat.eqb no_anc (fun _ => Err TypeError) st_opts [PT w_a; PT w_b] [] = Err TypeError /\
  (exists u v, stochastic_args Nat.eqb no_anc (fun _ => Err TypeError) st_opts [PList [PT w_a]; PDict [("k", PT w_b)]] []
     = Ok ([PRaw u], [("k", PRaw v)], [w_a; w_b], [w_x; w_y; w_z]) /\ shape v = [2; 3; 2]) /\
  callable Nat.eqb [w_a; w_b].
Proof. split; [reflexivity|]. split; [eexists; eexists; split; reflexivity|exact w_callable]. Qed.

(** C86. Of functions that return torch tensors whose first dimensions are the plates of the arguments: the call gives a list of
    tensors with these values and plates, and all tensors passed as parents. It is stated for calls with a list and a dict, as other calls do
    not reach the function (C49_call_refuted). Missing: storch tensors that are not samples (below). *)
Theorem C86_outputs_partial : forall (V : Type) (veq : V -> V -> bool) anc_unwrap iterate options fn l d (ts : list (stensor V)) outs id,
  ts = call_tensors l d -> callable veq ts ->
  options [("fn_args", PList l); ("fn_kwargs", PDict d)] = Ok default_opts ->
  Forall no_distr l -> Forall (fun kv => no_distr (snd kv)) d ->
  (forall a k, fn a k = Ok (PTuple (map (@PRaw V) outs))) -> (forall t, In t outs -> exists ev, shape t = map pn (wide (all_plates ts)) ++ ev) ->
  exists rs, stochastic_call veq anc_unwrap iterate options fn [PList l; PDict d] [] id = Ok (PList (map (@PT V) rs)) /\
    Forall2 (fun t r => st r = t /\ sparents r = map sid ts /\ splates r = all_plates ts /\ s_stochastic r = false /\ wf r) outs rs.
Proof. exact (fun V => @stochastic_outputs V). Qed.
Print Assumptions C86_outputs_partial.

(** C86 is false of functions that return a storch tensor created by a deterministic call, alone or among other outputs: no call
    succeeds, as Tensor has no method _add_parents. *)
Theorem C86_deterministic_refuted : forall (V : Type) (veq : V -> V -> bool) anc_unwrap iterate options fn args kwargs id r,
  (forall a k, (exists t, fn a k = Ok (PT t) /\ s_stochastic t = false) \/
               (exists l t, (fn a k = Ok (PList l) \/ fn a k = Ok (PTuple l)) /\ In (PT t) l /\ s_stochastic t = false)) ->
  @stochastic_call V veq anc_unwrap iterate options fn args kwargs id <> Ok r.
Proof. exact (fun V => @stochastic_deterministic V). Qed.
Print Assumptions C86_deterministic_refuted.
(** Every other kind of output: values that are no tensors are rejected, samples pass, a torch tensor is wrapped by the constructor of Tensor. *)
Theorem C86_kinds : forall (V : Type) (veq : V -> V -> bool) anc_unwrap iterate options fn args kwargs a k ps pl out id,
  @stochastic_args V veq anc_unwrap iterate options args kwargs = Ok (a, k, ps, pl) -> fn a k = Ok out ->
  let r := stochastic_call veq anc_unwrap iterate options fn args kwargs id in
  (no_tensor out -> ~ collection out -> r = Err TypeError) /\
  (forall key v d, out = PDict ((key, v) :: d) -> r = Err TypeError) /\
  (forall t, out = PT t -> r = if s_stochastic t then Ok (PT t) else Err AttributeError) /\
  (forall t, out = PRaw t -> r = (do x <- mk_tensor id t (map sid ps) pl false; Ok (PT x))) /\
  (forall ss x rest, out = PList (map (@PT V) ss ++ x :: rest) \/ out = PTuple (map (@PT V) ss ++ x :: rest) -> Forall (fun t => s_stochastic t = true) ss -> no_tensor x -> r = Err TypeError).
Proof. exact (fun V => @output_kinds V). Qed.
Print Assumptions C86_kinds.
Example C86_kinds_witness :
  stochastic_call Nat.eqb no_anc (fun _ => Err TypeError) st_opts (fun _ _ => Ok (PTuple [PRaw (mkten [2; 3] (fun _ => 1)); PInt 3])) [PList [PT w_a]; PDict []] [] 70 = Err TypeError /\
  stochastic_call Nat.eqb no_anc (fun _ => Err TypeError) st_opts (fun _ _ => Ok (PDict [("y", PRaw (mkten [2; 3] (fun _ => 1)))])) [PList [PT w_a]; PDict []] [] 70 = Err TypeError /\
  stochastic_args Nat.eqb no_anc (fun _ => Err TypeError) st_opts [PList [PT w_a]] [] = Err TypeError.
Proof. repeat split. Qed.
Example C86_witness : exists r1 r2,
  stochastic_call Nat.eqb no_anc (fun _ => Err TypeError) st_opts (fun _ _ => Ok (PTuple [PRaw (mkten [2; 3; 2; 4] (fun _ => 1)); PRaw (mkten [2; 3; 2] (fun _ => 2))]))
    [PList [PT w_a]; PDict [("k", PT w_b)]] [] 70 = Ok (PList [PT r1; PT r2]) /\ sparents r1 = map sid [w_a; w_b] /\ splates r2 = [w_x; w_y; w_z] /\
  stochastic_call Nat.eqb no_anc (fun _ => Err TypeError) st_opts (fun _ _ => Ok (PT w_a)) [PList [PT w_a]; PDict []] [] 70 = Err AttributeError.
Proof. do 2 eexists. split; [reflexivity|]. split; [reflexivity|]. split; reflexivity. Qed.
