(** C01, C02: construction of storch tensors and comparison of plates. *)
From Coq Require Import String List Arith Bool Lia.
From Verif Require Import Base Torch Plates SpecTensor WrapProofs PlateEqProofs.
Import ListNotations.
Open Scope string_scope.
Open Scope nat_scope.
Open Scope list_scope.

(** C01. storch.Tensor(t, parents, plates) succeeds exactly when the names are distinct and the shape starts with the
    sizes (other than one) of the plates; every failure is a ValueError. *)
Theorem C01_constructor_accepts : forall (V : Type) id (t : ten V) parents (plates : list (plate V)) stoch,
  (exists a, mk_tensor id t parents plates stoch = Ok a) <->
  (NoDup (map pname plates) /\
   exists event, shape t = map pn (filter (fun p => negb (pn p =? 1)) plates) ++ event).
Proof. exact (fun V => @mk_tensor_iff V). Qed.
Print Assumptions C01_constructor_accepts.

Theorem C01_constructor_rejects : forall (V : Type) id (t : ten V) parents (plates : list (plate V)) stoch e,
  mk_tensor id t parents plates stoch = Err e -> e = ValueError.
Proof. exact (fun V => @mk_tensor_err V). Qed.
Print Assumptions C01_constructor_rejects.

Theorem C01_constructor_fields : forall (V : Type) id (t : ten V) parents (plates : list (plate V)) stoch a,
  mk_tensor id t parents plates stoch = Ok a ->
  sid a = id /\ st a = t /\ splates a = plates /\ sparents a = parents /\ s_stochastic a = stoch /\
  s_plate_dims a = length (filter (fun p => negb (pn p =? 1)) plates) /\
  shape t = map pn (filter (fun p => negb (pn p =? 1)) plates) ++ s_event_shape a.
Proof. exact (fun V => @mk_tensor_fields V). Qed.
Print Assumptions C01_constructor_fields.

(** A tensor of shape (2, 4) with a plate x of size 2 and a plate y of size 1 is accepted, the same plates with a
    tensor of shape (3) are not. *)
Definition ex_px : plate nat := mkPlate PlainPlate "x" 2 (WTorch (tscalar 1)) [].
Definition ex_py : plate nat := mkPlate PlainPlate "y" 1 (WTorch (tscalar 1)) [].
Definition ex_t : ten nat := mkten [2; 4] (fun i => nth 0 i 0 * 10 + nth 1 i 0).
Example C01_accepts_example : exists a, mk_tensor 0 ex_t [] [ex_px; ex_py] false = Ok a /\ s_event_shape a = [4].
Proof. eexists. split; reflexivity. Qed.
Example C01_rejects_example : mk_tensor 0 (mkten [3] (fun _ => 0)) [] [ex_px] false = Err ValueError.
Proof. reflexivity. Qed.

(** Plates of size zero are accepted by the constructor as plate dimensions but are no plate dimensions to the rest
    of the library (multi_dim_plates keeps only n > 1): with an empty plate, plate_dims and the number of
    dimensions that operations attribute to plates differ. *)
Theorem C01_empty_plate_dims_refuted : exists (a : stensor nat) t p,
  mk_tensor 0 t [] [p] false = Ok a /\ s_plate_dims a <> length (multi_dim_plates a).
Proof.
  exists (mkS 0 (mkten [0] (fun _ => 0)) [mkPlate PlainPlate "x" 0 (WTorch (tscalar 1)) []] 1 [] [] false).
  exists (mkten [0] (fun _ => 0)), (mkPlate PlainPlate "x" 0 (WTorch (tscalar 1)) []). split; [reflexivity|].
  vm_compute. discriminate.
Qed.
Print Assumptions C01_empty_plate_dims_refuted.

(** C02. Equality of plates is reflexive and symmetric, and transitive outside of unwrapping. *)
Theorem C02_plate_eq_reflexive : forall (V : Type) (veq : V -> V -> bool) (p : plate V), peq veq p p = true.
Proof. exact (fun V veq => @peq_refl V veq). Qed.
Print Assumptions C02_plate_eq_reflexive.

Theorem C02_plate_eq_symmetric : forall (V : Type) (veq : V -> V -> bool),
  (forall x y, veq x y = veq y x) -> forall p q : plate V, peq veq p q = peq veq q p.
Proof. exact (fun V veq => @peq_sym V veq). Qed.
Print Assumptions C02_plate_eq_symmetric.

Theorem C02_plate_eq_transitive : forall (V : Type) (veq : V -> V -> bool),
  (forall x y z, veq x y = true -> veq y z = true -> veq x z = true) ->
  forall p q r : plate V,
  settled p -> settled q -> settled r -> obj_ok p q -> obj_ok q r ->
  peq veq p q = true -> peq veq q r = true -> peq veq p r = true.
Proof. exact (fun V veq => @peq_trans V veq). Qed.
Print Assumptions C02_plate_eq_transitive.

Theorem C02_plate_eq_same_name : forall (V : Type) (veq : V -> V -> bool) (p q : plate V),
  peq veq p q = true -> pname p = pname q.
Proof. exact (fun V veq => @peq_name V veq). Qed.
Print Assumptions C02_plate_eq_same_name.

Theorem C02_plate_eq_same_size : forall (V : Type) (veq : V -> V -> bool) (p q : plate V),
  settled p -> settled q -> peq veq p q = true -> pn p = pn q.
Proof. exact (fun V veq => @peq_size V veq). Qed.
Print Assumptions C02_plate_eq_same_size.

(** Part of the weight clause: equal plates with storch-tensor weights are weighted equally. Missing: plates whose
    weights are plain torch tensors, see the refutation below. *)
Theorem C02_plate_eq_same_weights_partial : forall (V : Type) (veq : V -> V -> bool) (p q : plate V),
  settled p -> settled q -> obj_ok p q -> (forall x, veq x x = true) ->
  peq veq p q = true -> forall o t w o' t' w', pweight p = WStorch o t w -> pweight q = WStorch o' t' w' ->
  shape t = shape t' /\ forall i, valid i (shape t) -> veq (el t i) (el t' i) = true.
Proof. exact (fun V veq => @peq_storch_weights V veq). Qed.
Print Assumptions C02_plate_eq_same_weights_partial.

(** The weight clause fails for plain torch weights: Plate("x", 2, [], torch.tensor([1, 0])) equals
    Plate("x", 2, [], torch.tensor([0, 1])). *)
Theorem C02_plate_eq_weights_refuted : exists p q : plate nat,
  peq Nat.eqb p q = true /\ pn p = 2 /\ exists t u, pweight p = WTorch t /\ pweight q = WTorch u /\
  shape t = [2] /\ shape u = [2] /\ el t [0] <> el u [0].
Proof.
  exists (mkPlate PlainPlate "x" 2 (WTorch (tvec 0 [1; 0])) []), (mkPlate PlainPlate "x" 2 (WTorch (tvec 0 [0; 1])) []).
  repeat split; try reflexivity. exists (tvec 0 [1; 0]), (tvec 0 [0; 1]). repeat split; try reflexivity. discriminate.
Qed.
Print Assumptions C02_plate_eq_weights_refuted.

(** While an ancestral plate is being unwrapped (_override_equality) transitivity fails. *)
Theorem C02_override_not_transitive_refuted : exists p q r : plate nat,
  peq Nat.eqb p q = true /\ peq Nat.eqb q r = true /\ peq Nat.eqb p r = false.
Proof.
  exists (mkPlate (Ancestral 0 false) "x" 2 (WTorch (tscalar 1)) []), (mkPlate (Ancestral 1 true) "x" 2 (WTorch (tscalar 1)) []),
    (mkPlate (Ancestral 2 false) "x" 2 (WTorch (tscalar 1)) []). repeat split.
Qed.
Print Assumptions C02_override_not_transitive_refuted.

Example C02_example : let p := mkPlate PlainPlate "x" 2 (WStorch 5 (tvec 0 [1; 2]) ["x"]) [] in
  let q := mkPlate PlainPlate "x" 2 (WStorch 6 (tvec 0 [1; 2]) ["x"]) [ex_px] in
  settled p /\ settled q /\ obj_ok p q /\ peq Nat.eqb p q = true /\ peq Nat.eqb p ex_px = false.
Proof.
  cbv zeta. repeat split. intros o t w o' t' w' H1 H2 E. injection H1 as <- <- <-. injection H2 as <- <- <-. discriminate.
Qed.
