(** C59, C60: binary cross entropy with plates. *)
From Coq Require Import String List Arith Lia ZArith.
From Verif Require Import Base Torch Plates Wrap Reduce Losses SpecLosses SpecTensor SpecWrap CallN LossesProofs.
Import ListNotations.
Open Scope nat_scope.

(** C59, in part: b_binary_cross_entropy with "mean" or "sum" and no names in [dims] is, for every choice of
    samples, the mean or sum of the losses of that choice over the event dimensions. It has the plates of both arguments and depends on
    both. Missing: names in [dims] and inputs without event dimensions, for which it raises (below). *)
Theorem C59_reduced_partial : forall (V : Type) (veq : V -> V -> bool) anc_unwrap loss mean total (a b : stensor V) base r,
  callable veq [a; b] -> target_fits a b -> s_event_shape a <> [] -> r = RMean \/ r = RSum ->
  exists l, b_binary_cross_entropy veq anc_unwrap loss mean total a b [] r base = Ok (PT l) /\
    splates l = union (splates a) (splates b) /\ s_event_shape l = [] /\ wf l /\ sparents l = [sid a; sid b] /\
    forall s, in_range s (splates l) ->
    den l s [] = (match r with RMean => mean | _ => total end)
      (map (fun e => loss (den a s e) (den b s (proj (s_event_shape b) e))) (indices (s_event_shape a))).
Proof. exact (fun V veq au => @bce_reduced V veq au). Qed.
Print Assumptions C59_reduced_partial.

(** With "none" it is the loss of every element. *)
Theorem C59_none : forall (V : Type) (veq : V -> V -> bool) anc_unwrap loss mean total (a b : stensor V) dims base,
  callable veq [a; b] -> target_fits a b ->
  exists l, b_binary_cross_entropy veq anc_unwrap loss mean total a b dims RNone base = Ok (PT l) /\
    splates l = union (splates a) (splates b) /\ s_event_shape l = s_event_shape a /\ wf l /\ sparents l = [sid a; sid b] /\
    forall s e, in_range s (splates l) -> valid e (s_event_shape a) -> den l s e = loss (den a s e) (den b s (proj (s_event_shape b) e)).
Proof. exact (fun V veq au => @bce_none V veq au). Qed.
Print Assumptions C59_none.

(** C59 is false for other reductions: a misspelt one is not rejected, the loss is computed and None comes back. *)
Theorem C59_unknown_refuted : forall (V : Type) (veq : V -> V -> bool) anc_unwrap loss mean total (a b : stensor V) dims base,
  callable veq [a; b] -> target_fits a b ->
  b_binary_cross_entropy veq anc_unwrap loss mean total a b dims ROther base = Ok PNone.
Proof. exact (fun V veq au => @bce_other V veq au). Qed.
Print Assumptions C59_unknown_refuted.

(** C59 is false for names: naming plates of more than one sample to be reduced always raises. The function is wrapped again after
    the reduction, which puts the reduced plates back on a tensor that no longer has their dimensions. *)
Theorem C59_dims_refuted : forall (V : Type) (veq : V -> V -> bool) anc_unwrap loss mean total (a b : stensor V) dims base r,
  callable veq [a; b] -> target_fits a b -> r = RMean \/ r = RSum ->
  NoDup dims -> dims <> [] -> (forall d, In d dims -> exists p, In p (wide (splates a)) /\ pname p = d) ->
  b_binary_cross_entropy veq anc_unwrap loss mean total a b dims r base = Err ValueError.
Proof. exact (fun V veq au => @bce_dims_raise V veq au). Qed.
Print Assumptions C59_dims_refuted.

(** C59 is false for inputs without event dimensions, such as one probability per sample: the list of dimensions is empty and torch
    then reduces the plates too. *)
Theorem C59_no_events_refuted : forall (V : Type) (veq : V -> V -> bool) anc_unwrap loss mean total (a b : stensor V) base r,
  callable veq [a; b] -> target_fits a b -> r = RMean \/ r = RSum ->
  s_event_shape a = [] -> wide (splates a) <> [] -> b_binary_cross_entropy veq anc_unwrap loss mean total a b [] r base = Err ValueError.
Proof. exact (fun V veq au => @bce_no_events_raise V veq au). Qed.
Print Assumptions C59_no_events_refuted.

(** C59 needs the input to have the plates of the target: otherwise the target cannot be expanded to the input. *)
Theorem C59_target_plate_refuted : forall (V : Type) (veq : V -> V -> bool) anc_unwrap loss mean total (a b : stensor V) dims base r p,
  callable veq [a; b] -> In p (wide (splates b)) -> ~ In (pname p) (map pname (splates a)) -> s_event_dims b <= s_event_dims a ->
  b_binary_cross_entropy veq anc_unwrap loss mean total a b dims r base = Err RuntimeError.
Proof. exact (fun V veq au => @bce_extra_raises V veq au). Qed.
Print Assumptions C59_target_plate_refuted.

(** C60: torch's own binary_cross_entropy on storch tensors of the same event shape is the loss of every element for every choice of
    samples, whichever plates each argument lacks. *)
Theorem C60_expanded : forall (V : Type) (veq : V -> V -> bool) anc_unwrap loss (a b : stensor V) base,
  callable veq [a; b] -> s_event_shape a = s_event_shape b ->
  exists l, torch_bce veq anc_unwrap loss a b base = Ok (PT l) /\ splates l = union (splates a) (splates b) /\
    s_event_shape l = s_event_shape a /\ wf l /\ sparents l = [sid a; sid b] /\
    forall s e, in_range s (splates l) -> valid e (s_event_shape a) -> den l s e = loss (den a s e) (den b s e).
Proof. exact (fun V veq au => @torch_bce_spec V veq au). Qed.
Print Assumptions C60_expanded.

(** Events are not broadcast: different event shapes of the same rank raise. *)
Theorem C60_event_shapes : forall (V : Type) (veq : V -> V -> bool) anc_unwrap loss (a b : stensor V) base,
  callable veq [a; b] -> s_event_dims a = s_event_dims b -> s_event_shape a <> s_event_shape b ->
  torch_bce veq anc_unwrap loss a b base = Err ValueError.
Proof. exact (fun V veq au => @torch_bce_events V veq au). Qed.
Print Assumptions C60_event_shapes.

(** Two samples of three numbers, a target of three numbers without plates, and one with another plate. *)
Section Witness.
Let no_anc : plate nat -> stensor nat -> res (stensor nat) := fun _ _ => Err NotImplementedError.
Let ten_num (l : list nat) : nat := fold_left (fun n i => 10 * n + i) l 1.
Let px : plate nat := mkPlate PlainPlate "x" 2 (WTorch (tscalar 1)) [].
Let pz : plate nat := mkPlate PlainPlate "z" 3 (WTorch (tscalar 1)) [].
Let inp : stensor nat := mkS 1 (mkten [2; 3] ten_num) [px] 1 [3] [] false.
Let flat_inp : stensor nat := mkS 1 (mkten [2] ten_num) [px] 1 [] [] false.
Let tgt : stensor nat := mkS 2 (mkten [3] ten_num) [] 0 [3] [] false.
Let flat_tgt : stensor nat := mkS 2 (mkten [] ten_num) [] 0 [] [] false.
Let ztgt : stensor nat := mkS 2 (mkten [3; 3] ten_num) [pz] 1 [3] [] false.
Let mn (l : list nat) : nat := fold_left Nat.add l 0 / length l.
Let sm (l : list nat) : nat := fold_left Nat.add l 0.
Ltac callable_tac := split; [repeat constructor; cbn; try (intros p Hp; intuition (subst; cbn; lia)); intuition congruence|
  split; [intros p q Hp Hq E; cbn in Hp, Hq; intuition (subst; cbn in *; try discriminate; auto)|intros p Hp; cbn in Hp; intuition (subst; reflexivity)]].

Example C59_witness : callable Nat.eqb [inp; tgt] /\ target_fits inp tgt /\ s_event_shape inp <> [] /\ (forall d, In d ["x"%string] -> exists p, In p (wide (splates inp)) /\ pname p = d).
Proof.
  split; [callable_tac|]. split; [split; [intros p []|split; [cbn; lia|repeat constructor]]|]. split; [discriminate|].
  intros d [<-|[]]. exists px. split; [now left|reflexivity].
Qed.
Example C59_value : exists l, b_binary_cross_entropy Nat.eqb no_anc Nat.add mn sm inp tgt [] RSum 50 = Ok (PT l) /\
  den l (fun _ => 1) [] = (110 + 10) + (111 + 11) + (112 + 12).
Proof. eexists. split; reflexivity. Qed.
Example C59_no_events_witness : callable Nat.eqb [flat_inp; flat_tgt] /\ target_fits flat_inp flat_tgt /\ s_event_shape flat_inp = [] /\ wide (splates flat_inp) <> [].
Proof.
  split; [callable_tac|]. split; [split; [intros p []|split; [cbn; lia|repeat constructor]]|]. split; [reflexivity|discriminate].
Qed.
Example C59_target_plate_witness : callable Nat.eqb [inp; ztgt] /\ In pz (wide (splates ztgt)) /\ ~ In (pname pz) (map pname (splates inp)) /\ s_event_dims ztgt <= s_event_dims inp.
Proof.
  split; [callable_tac|]. split; [now left|]. split; [|cbn; lia]. cbn. intuition congruence.
Qed.
Example C60_witness : callable Nat.eqb [inp; ztgt] /\ s_event_shape inp = s_event_shape ztgt /\
  exists l, torch_bce Nat.eqb no_anc Nat.add inp ztgt 50 = Ok (PT l) /\ shape (st l) = [2; 3; 3] /\ el (st l) [1; 2; 0] = 110 + 120.
Proof. split; [callable_tac|]. split; [reflexivity|]. eexists. repeat split; reflexivity. Qed.
End Witness.
