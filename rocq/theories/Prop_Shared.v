(** C62 and C63: torch tensors as operands and broadcasting of storch and torch tensors. *)
From Coq Require Import String List Arith Lia.
From Verif Require Import Base Torch Plates Wrap TensorFns SpecTensor SpecWrap SpecSample SharedProofs BroadcastProofs.
Import ListNotations.
Open Scope nat_scope.
Open Scope list_scope.

(** C62, in part: a torch tensor of no more dimensions than the event of the storch tensor. For every choice of samples the result is
    the torch result for that sample; if torch raises for a sample, the call raises. Missing: torch tensors of more dimensions (below). *)
Theorem C62_shared_partial : forall (V : Type) (veq : V -> V -> bool) anc_unwrap f (flip : bool) (a : stensor V) (w : ten V) base,
  callable veq [a] -> ndim w <= s_event_dims a ->
  let call := torch_op2 veq anc_unwrap top_ctx f (if flip then PRaw w else PT a) (if flip then PT a else PRaw w) base in
  let one s := if flip then elementwise2 f w (at_sample s a) else elementwise2 f (at_sample s a) w in
  (exists r, call = Ok (PT r) /\ splates r = splates a /\ wf r /\ sparents r = [sid a] /\
     forall s, in_range s (splates a) -> exists t, one s = Ok t /\ teq t (at_sample s r)) \/
  (call = Err RuntimeError /\ forall s, one s = Err RuntimeError).
Proof. exact (fun V veq au => @shared_spec V veq au). Qed.
Print Assumptions C62_shared_partial.

(** C62 is false for a torch vector next to numbers: instead of a vector for every sample, the call raises; if the length of the vector is
    the number of samples of the last plate, it silently gives sample number i the number at position i. *)
Theorem C62_vector_refuted : forall (V : Type) (veq : V -> V -> bool) anc_unwrap f (flip : bool) (a : stensor V) (w : ten V) base p k,
  callable veq [a] -> s_event_shape a = [] -> last (wide (splates a)) p = p -> wide (splates a) <> [] -> shape w = [k] -> k <> 1 ->
  let call := torch_op2 veq anc_unwrap top_ctx f (if flip then PRaw w else PT a) (if flip then PT a else PRaw w) base in
  (k <> pn p -> call = Err RuntimeError) /\
  (k = pn p -> exists r, call = Ok (PT r) /\ splates r = splates a /\ s_event_shape r = [] /\
     forall s, in_range s (splates a) -> den r s [] = if flip then f (el w [s (pname p)]) (den a s []) else f (den a s []) (el w [s (pname p)])).
Proof. exact (fun V veq au => @shared_vector V veq au). Qed.
Print Assumptions C62_vector_refuted.

(** C63, in part: storch tensors with any plates and torch tensors of no more dimensions than the largest event. Every output holds for
    every choice of samples what torch.broadcast_tensors makes of the inputs of that choice. Missing: torch tensors of more dimensions
    (below); the events of storch tensors are padded on the right before they are broadcast. *)
Theorem C63_broadcast_partial : forall (V : Type) (veq : V -> V -> bool) anc_unwrap (args : list (operand V)) base,
  storch_of args <> [] -> callable veq (storch_of args) ->
  let M := max_event (storch_of args) in ranks_fit M args ->
  let one s := broadcast_tensors (map (operand_at M s) args) in
  (exists rs, st_broadcast veq anc_unwrap (map as_value args) base = Ok (PTuple (map PT rs)) /\
     Forall (fun r => splates r = all_plates (storch_of args) /\ wf r /\ sparents r = map sid (storch_of args)) rs /\
     forall s, in_range s (all_plates (storch_of args)) -> exists us, one s = Ok us /\ Forall2 (fun u r => teq u (at_sample s r)) us rs) \/
  (st_broadcast veq anc_unwrap (map as_value args) base = Err RuntimeError /\ forall s, one s = Err RuntimeError).
Proof. exact (fun V veq au => @broadcast_spec V veq au). Qed.
Print Assumptions C63_broadcast_partial.

(** C63 is false for numbers and a torch vector, for example Normal(loc, scale) with one loc per sample and a vector of scales: it raises,
    or, for as many scales as samples of the last plate, silently uses one scale for each sample. *)
Theorem C63_vector_refuted : forall (V : Type) (veq : V -> V -> bool) anc_unwrap (a : stensor V) (w : ten V) base p k, callable veq [a] -> s_event_shape a = [] ->
  last (wide (splates a)) p = p -> wide (splates a) <> [] -> shape w = [k] -> k <> 1 ->
  let call := st_broadcast veq anc_unwrap [PT a; PRaw w] base in
  (k <> pn p -> call = Err RuntimeError) /\
  (k = pn p -> exists r1 r2, call = Ok (PTuple [PT r1; PT r2]) /\ splates r2 = splates a /\ s_event_shape r2 = [] /\
     forall s, in_range s (splates a) -> den r2 s [] = el w [s (pname p)]).
Proof. exact (fun V veq au => @broadcast_vector V veq au). Qed.
Print Assumptions C63_vector_refuted.

Section Witness.
Let no_anc : plate nat -> stensor nat -> res (stensor nat) := fun _ _ => Err NotImplementedError.
Let digits (l : list nat) : nat := fold_left (fun n i => 2 * n + i) l 1.
Let px : plate nat := mkPlate PlainPlate "x" 2 (WTorch (tscalar 1)) [].
Let py : plate nat := mkPlate PlainPlate "y" 3 (WTorch (tscalar 1)) [].
Ltac callable_tac := split; [repeat constructor; cbn; try (intros p Hp; intuition (subst; cbn; lia)); intuition congruence|
  split; [intros p q Hp Hq E; cbn in Hp, Hq; intuition (subst; cbn in *; try discriminate; auto)|intros p Hp; cbn in Hp; intuition (subst; reflexivity)]].
Let va : stensor nat := mkS 1 (mkten [2; 3; 2] digits) [px; py] 2 [2] [] false.
Let na : stensor nat := mkS 1 (mkten [3; 2] digits) [py; px] 2 [] [] false.
Let wv : ten nat := mkten [2] (fun l => 10 + nth 0 l 0).

(** A vector per sample minus a torch vector. *)
Example C62_witness : callable Nat.eqb [va] /\ ndim wv <= s_event_dims va /\
  exists r, torch_op2 Nat.eqb no_anc top_ctx Nat.sub (PRaw wv) (PT va) 50 = Ok (PT r) /\ shape (st r) = [2; 3; 2] /\ el (st r) [0; 0; 1] = 11 - 9.
Proof. split; [callable_tac|]. split; [cbn; lia|]. eexists. split; [reflexivity|]. split; vm_compute; reflexivity. Qed.
Example C62_vector_witness : callable Nat.eqb [na] /\ last (wide (splates na)) px = px /\ shape wv = [pn px] /\
  exists r, torch_op2 Nat.eqb no_anc top_ctx Nat.add (PT na) (PRaw wv) 50 = Ok (PT r) /\ shape (st r) = [3; 2] /\ el (st r) [2; 1] = 9 + 11.
Proof. split; [callable_tac|]. split; [reflexivity|]. split; [reflexivity|]. eexists. split; [reflexivity|]. split; vm_compute; reflexivity. Qed.
(** A vector per sample of both plates, a number per sample of y and a torch vector. *)
Let nb : stensor nat := mkS 2 (mkten [3] digits) [py] 1 [] [] false.
Example C63_witness : let args := [inr wv; inl nb; inl va] in callable Nat.eqb (storch_of args) /\ ranks_fit (max_event (storch_of args)) args /\
  exists r1 r2 r3, st_broadcast Nat.eqb no_anc (map as_value args) 50 = Ok (PTuple [PT r1; PT r2; PT r3]) /\ splates r1 = [py; px] /\
    el (st r1) [2; 1; 1] = 11 /\ el (st r2) [2; 1; 1] = 4 /\ el (st r3) [2; 1; 1] = digits [1; 2; 1].
Proof.
  cbn zeta. split; [callable_tac|]. split; [intros w [E|[E|[E|[]]]]; inversion E; subst; cbn; lia|]. do 3 eexists. split; [reflexivity|].
  split; [reflexivity|]. split; [|split]; vm_compute; reflexivity.
Qed.
Example C63_vector_witness : callable Nat.eqb [na] /\ shape wv = [pn px] /\ exists r1 r2, st_broadcast Nat.eqb no_anc [PT na; PRaw wv] 50 = Ok (PTuple [PT r1; PT r2]).
Proof. split; [callable_tac|]. split; [reflexivity|]. do 2 eexists. reflexivity. Qed.
End Witness.
