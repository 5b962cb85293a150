(** C38, C39, C40, C44: independent tensors, gathered samples, registered costs and parameter gradients. *)
From Coq Require Import String List Arith Bool Lia ZArith.
From Verif Require Import Base Torch Plates Wrap Scalar Inference Hooks SpecTensor SpecWrap SpecHooks InferenceProofs HooksProofs.
Import ListNotations.
Open Scope string_scope.
Open Scope nat_scope.
Open Scope list_scope.

(** C38. denote_independent on a torch tensor: the chosen dimension becomes the first plate; every element of the
    argument is found again. The first dimension takes the place of the chosen one, the others stay.
    (Part of the property: dimensions of size at least two. What fails is stated below.) *)
Theorem C38_first_dimension_partial : forall (V : Type) (recip : nat -> V) (t : ten V) name w id n ev,
  shape t = n :: ev -> 2 <= n ->
  exists r, denote_independent_raw recip top_ctx t 0 name w id = Ok r /\ wf r /\
    splates r = [new_plate recip name n [] w] /\ s_event_shape r = ev /\ sparents r = [] /\
    forall s e, den r s e = el t (s name :: e).
Proof. exact (fun V recip => @raw_front V recip). Qed.
Print Assumptions C38_first_dimension_partial.

Theorem C38_other_dimension_partial : forall (V : Type) (recip : nat -> V) (t : ten V) name w id d0 mid n post,
  shape t = d0 :: mid ++ n :: post -> 2 <= n ->
  exists r, denote_independent_raw recip top_ctx t (S (length mid)) name w id = Ok r /\ wf r /\
    splates r = [new_plate recip name n [] w] /\ s_event_shape r = mid ++ d0 :: post /\ sparents r = [] /\
    forall s x m p, length m = length mid -> den r s (m ++ x :: p) = el t (x :: m ++ s name :: p).
Proof. exact (fun V recip => @raw_other V recip). Qed.
Print Assumptions C38_other_dimension_partial.

(** The same for storch tensors without plate dimensions, and for the dimension right behind a single plate. *)
Theorem C38_storch_first_partial : forall (V : Type) (recip : nat -> V) (a : stensor V) name w id n ev,
  wf a -> wide (splates a) = [] -> ~ In name (map pname (splates a)) -> s_event_shape a = n :: ev -> 2 <= n ->
  exists r, snd (denote_independent recip top_ctx a 0 name w id) = Ok r /\ wf r /\
    splates r = new_plate recip name n (splates a) w :: splates a /\ s_event_shape r = ev /\ sparents r = [sid a] /\
    forall s e, den r s e = den a s (s name :: e).
Proof.
  intros V recip a name w id n ev H1 H2 H3 H4 H5.
  destruct (plateless_front recip a name w id n ev H1 H2 H3 H4 H5) as [r [E R]]. exists r. rewrite E. auto.
Qed.
Print Assumptions C38_storch_first_partial.

Theorem C38_storch_other_partial : forall (V : Type) (recip : nat -> V) (a : stensor V) name w id d0 mid n post,
  wf a -> wide (splates a) = [] -> ~ In name (map pname (splates a)) -> s_event_shape a = d0 :: mid ++ n :: post -> 2 <= n ->
  exists r, snd (denote_independent recip top_ctx a (S (length mid)) name w id) = Ok r /\ wf r /\
    splates r = new_plate recip name n (splates a) w :: splates a /\ s_event_shape r = mid ++ d0 :: post /\
    sparents r = [sid a] /\
    forall s x m p, length m = length mid -> den r s (m ++ x :: p) = den a s (x :: m ++ s name :: p).
Proof.
  intros V recip a name w id d0 mid n post H1 H2 H3 H4 H5.
  destruct (plateless_other recip a name w id d0 mid n post H1 H2 H3 H4 H5) as [r [E R]]. exists r. rewrite E. auto.
Qed.
Print Assumptions C38_storch_other_partial.

Theorem C38_one_plate_partial : forall (V : Type) (recip : nat -> V) (a : stensor V) p name w id n ev,
  wf a -> wide (splates a) = [p] -> ~ In name (map pname (splates a)) -> s_event_shape a = n :: ev -> 2 <= n ->
  exists r, snd (denote_independent recip top_ctx a 1 name w id) = Ok r /\ wf r /\
    splates r = new_plate recip name n (splates a) w :: splates a /\ s_event_shape r = ev /\ sparents r = [sid a] /\
    forall s e, den r s e = den a s (s name :: e).
Proof.
  intros V recip a p name w id n ev H1 H2 H3 H4 H5.
  destruct (one_plate recip a p name w id n ev H1 H2 H3 H4 H5) as [r [E R]]. exists r. rewrite E. auto.
Qed.
Print Assumptions C38_one_plate_partial.

(** A tensor of shape (2, 3, 4) with one plate x of size 2: its dimension 1 is made independent; and a torch tensor of
    shape (2, 3, 4) whose dimension 2 is made independent. *)
Definition i_px : plate nat := mkPlate PlainPlate "x" 2 (WTorch (tscalar 0)) [].
Definition i_py : plate nat := mkPlate PlainPlate "y" 3 (WTorch (tscalar 0)) [].
Definition i_pz : plate nat := mkPlate PlainPlate "z" 2 (WTorch (tscalar 0)) [].
Definition i_t : ten nat := mkten [2; 3; 4] (fun i => nth 0 i 0 * 100 + nth 1 i 0 * 10 + nth 2 i 0).
Definition i_a : stensor nat := mkS 5 i_t [i_px] 1 [3; 4] [] false.
Definition i_recip (n : nat) : nat := 1000 + n.
Lemma i_a_wf : wf i_a.
Proof.
  constructor; cbn; auto.
  - constructor; [intros []|constructor].
  - intros p [<-|[]]. cbn. lia.
Qed.
Example C38_witness :
  wf i_a /\ wide (splates i_a) = [i_px] /\ ~ In "b" (map pname (splates i_a)) /\
  (exists r, snd (denote_independent i_recip top_ctx i_a 1 "b" None 9) = Ok r /\
     den r (fun k => if String.eqb k "b" then 2 else 1) [3] = 123) /\
  (exists r, denote_independent_raw i_recip top_ctx i_t 2 "b" None 9 = Ok r /\
     den r (fun _ => 3) [2; 1] = 123).
Proof.
  refine (conj i_a_wf (conj eq_refl (conj _ (conj _ _)))).
  - cbn. intros [H|[]]. discriminate.
  - eexists. split; reflexivity.
  - eexists. split; reflexivity.
Qed.

(** The argument does change: every successful call on a storch tensor puts the new plate into the argument's own list of
    plates, and if the dimension has size at least two the argument is then no longer a well-formed tensor. *)
Theorem C38_argument_refuted : forall (V : Type) (recip : nat -> V) (a : stensor V) dim name w id r a',
  wf a -> denote_independent recip top_ctx a dim name w id = (a', Ok r) -> 2 <= nth dim (shape (st a)) 0 ->
  splates a' = splates r /\ splates a' <> splates a /\ st a' = st a /\ ~ wf a'.
Proof.
  intros V recip a dim name w id r a' Hw H H2. destruct (argument_changes _ _ _ _ _ _ _ _ _ H) as [A1 [A2 A3]].
  refine (conj A1 (conj _ (conj A3 (argument_broken _ _ _ _ _ _ _ _ Hw H H2)))).
  intros E. rewrite E in A2. lia.
Qed.
Print Assumptions C38_argument_refuted.

(** After denote_independent(t, 1, "b") the operation exp(t) is rejected although t has not been touched otherwise. *)
Example C38_argument_witness : exists a' r,
  denote_independent i_recip top_ctx i_a 1 "b" None 9 = (a', Ok r) /\
  (exists x, torch_op1 Nat.eqb (fun _ _ => Err RuntimeError) top_ctx S (PT i_a) 20 = Ok (PT x)) /\
  torch_op1 Nat.eqb (fun _ _ => Err RuntimeError) top_ctx S (PT a') 20 = Err ValueError.
Proof.
  eexists _, _. split; [vm_compute; reflexivity|]. split; [eexists; vm_compute; reflexivity|vm_compute; reflexivity].
Qed.

(** Two plates of different sizes: no event dimension can be made independent. A singleton dimension cannot be made
    independent next to a plate. *)
Theorem C38_two_plates_refuted : forall (V : Type) (recip : nat -> V) (a : stensor V) p q rest dim name w id,
  wf a -> wide (splates a) = p :: q :: rest -> pn p <> pn q ->
  length (wide (splates a)) <= dim -> 2 <= nth dim (shape (st a)) 0 ->
  exists a' e, denote_independent recip top_ctx a dim name w id = (a', Err e).
Proof. exact (fun V recip => @two_plates_fail V recip). Qed.
Print Assumptions C38_two_plates_refuted.

Theorem C38_singleton_refuted : forall (V : Type) (recip : nat -> V) (a : stensor V) p rest dim name w id,
  wf a -> wide (splates a) = p :: rest -> nth_error (shape (st a)) dim = Some 1 ->
  exists a' e, denote_independent recip top_ctx a dim name w id = (a', Err e).
Proof. exact (fun V recip => @singleton_fail V recip). Qed.
Print Assumptions C38_singleton_refuted.

Definition i_b : stensor nat := mkS 5 (mkten [2; 3; 4; 1] (fun i => nth 2 i 0)) [i_px; i_py] 2 [4; 1] [] false.
Example C38_two_plates_witness : wf i_b /\ wide (splates i_b) = [i_px; i_py] /\ pn i_px <> pn i_py /\
  nth 2 (shape (st i_b)) 0 = 4 /\ nth_error (shape (st i_b)) 3 = Some 1 /\
  snd (denote_independent i_recip top_ctx i_b 2 "b" None 9) = Err ValueError.
Proof.
  refine (conj _ (conj eq_refl (conj _ (conj eq_refl (conj eq_refl eq_refl))))); [|cbn; lia].
  constructor; cbn; auto.
  - repeat constructor; cbn; intuition discriminate.
  - intros p [<-|[<-|[]]]; cbn; lia.
Qed.

(** With plates of equal sizes the call goes through and the values of the plates are exchanged: no error, wrong
    elements. *)
Definition i_c : stensor nat := mkS 5 (mkten [2; 2; 4] (fun i => nth 0 i 0 * 100 + nth 1 i 0 * 10 + nth 2 i 0))
  [i_px; i_pz] 2 [4] [] false.
Theorem C38_elements_refuted : wf i_c /\ exists r s, snd (denote_independent i_recip top_ctx i_c 2 "b" None 9) = Ok r /\
  in_range s (splates r) /\ den r s [] <> den i_c s [s "b"].
Proof.
  split.
  { constructor; cbn; auto; [repeat constructor; cbn; intuition discriminate|intros p [<-|[<-|[]]]; cbn; lia]. }
  eexists _, (fun k => if String.eqb k "x" then 1 else 0). split; [vm_compute; reflexivity|]. split.
  - intros p [<-|[<-|[<-|[]]]]; cbn; lia.
  - vm_compute. discriminate.
Qed.
Print Assumptions C38_elements_refuted.

(** C39. gather_samples: at index i of the new plate stands the i-th sample, for two or more samples whose plate
    dimensions are in the same order. (Part of the property: differing orders and single samples are refuted below.) *)
Theorem C39_gather_partial : forall (V : Type) (recip : nat -> V) (l : list (stensor V)) a0 name w id,
  2 <= length l -> hd_error l = Some a0 ->
  (forall a, In a l -> wf a /\ map pname (wide (splates a)) = map pname (wide (splates a0)) /\
     shape (st a) = shape (st a0)) ->
  ~ In name (map pname (splates a0)) ->
  exists r, gather_samples recip top_ctx l name w id = Ok r /\ wf r /\
    splates r = new_plate recip name (length l) (splates a0) w :: splates a0 /\
    s_event_shape r = s_event_shape a0 /\ sparents r = map sid l /\
    forall s e, s name < length l -> den r s e = den (nth (s name) l a0) s e.
Proof. exact (fun V recip => @gather_spec V recip). Qed.
Print Assumptions C39_gather_partial.

Theorem C39_gather_torch_partial : forall (V : Type) (recip : nat -> V) (l : list (ten V)) shp name w id,
  2 <= length l -> (forall t, In t l -> shape t = shp) ->
  exists r, gather_raw recip top_ctx l name w id = Ok r /\ wf r /\
    splates r = [new_plate recip name (length l) [] w] /\ s_event_shape r = shp /\ sparents r = [] /\
    forall s e d, s name < length l -> den r s e = el (nth (s name) l d) e.
Proof. exact (fun V recip => @gather_raw_spec V recip). Qed.
Print Assumptions C39_gather_torch_partial.

Definition i_a2 : stensor nat := mkS 6 (mkten [2; 3; 4] (fun i => 700 + el i_t i)) [i_px] 1 [3; 4] [] false.
Example C39_witness : wf i_a /\ wf i_a2 /\ shape (st i_a2) = shape (st i_a) /\
  exists r, gather_samples i_recip top_ctx [i_a; i_a2; i_a] "g" None 9 = Ok r /\
    den r (fun k => 1) [2; 3] = 823 /\ den r (fun k => if String.eqb k "g" then 2 else 1) [2; 3] = 123.
Proof.
  refine (conj i_a_wf (conj _ (conj eq_refl _))).
  - constructor; cbn; auto; [constructor; [intros []|constructor]|intros p [<-|[]]; cbn; lia].
  - eexists. split; [reflexivity|]. split; reflexivity.
Qed.

(** Samples with the same plates in another order are read with the first sample's order: no error, wrong elements. *)
Definition i_xz : stensor nat := mkS 6 (mkten [2; 2] (fun i => nth 0 i 0 * 10 + nth 1 i 0)) [i_px; i_pz] 2 [] [] false.
Definition i_zx : stensor nat := mkS 7 (mkten [2; 2] (fun i => nth 0 i 0 * 10 + nth 1 i 0)) [i_pz; i_px] 2 [] [] false.
Theorem C39_order_refuted : wf i_xz /\ wf i_zx /\ exists r s, gather_samples i_recip top_ctx [i_xz; i_zx] "g" None 9 = Ok r /\
  in_range s (splates r) /\ s "g" = 1 /\ den r s [] <> den i_zx s [].
Proof.
  refine (conj _ (conj _ _)).
  1,2: constructor; cbn; auto; [repeat constructor; cbn; intuition discriminate|intros p [<-|[<-|[]]]; cbn; lia].
  eexists _, (fun k => if String.eqb k "z" then 0 else 1). split; [vm_compute; reflexivity|].
  split; [intros p [<-|[<-|[<-|[]]]]; cbn; lia|]. split; [reflexivity|]. vm_compute. discriminate.
Qed.
Print Assumptions C39_order_refuted.

(** A single sample with a plate dimension is always rejected. *)
Theorem C39_single_refuted : forall (V : Type) (recip : nat -> V) (a : stensor V) p rest name w id,
  wf a -> wide (splates a) = p :: rest -> gather_samples recip top_ctx [a] name w id = Err ValueError.
Proof. exact (fun V recip => @gather_single_fail V recip). Qed.
Print Assumptions C39_single_refuted.
Example C39_single_witness : wf i_a /\ wide (splates i_a) = [i_px].
Proof. exact (conj i_a_wf eq_refl). Qed.

(** Samples of different shapes, for instance because one of them lacks a plate, are rejected. *)
Theorem C39_shapes : forall (V : Type) (recip : nat -> V) (l : list (stensor V)) name w id,
  (exists a b, In a l /\ In b l /\ shape (st a) <> shape (st b)) ->
  gather_samples recip top_ctx l name w id = Err RuntimeError.
Proof. exact (fun V recip => @gather_shape_fail V recip). Qed.
Print Assumptions C39_shapes.
Example C39_shapes_witness : shape (st i_a) <> shape (st i_b).
Proof. discriminate. Qed.

(** There has to be a sample. *)
Theorem C39_none : forall (V : Type) (recip : nat -> V) name w id, gather_samples recip top_ctx [] name w id = Err RuntimeError.
Proof. reflexivity. Qed.
Print Assumptions C39_none.

(** Inside wrapped functions both are rejected, and the argument is left alone. *)
Theorem C38_inside : forall (V : Type) (recip : nat -> V) c, c_stochastic c = true \/ 0 < c_deterministic c ->
  (forall a dim name w id, denote_independent recip c a dim name w id = (a, Err RuntimeError)) /\
  (forall t dim name w id, denote_independent_raw recip c t dim name w id = Err RuntimeError).
Proof. exact (fun V recip c H => conj (proj1 (@inside_rejected V recip c H)) (proj1 (proj2 (@inside_rejected V recip c H)))). Qed.
Print Assumptions C38_inside.
Theorem C39_inside : forall (V : Type) (recip : nat -> V) c, c_stochastic c = true \/ 0 < c_deterministic c ->
  (forall l name w id, gather_samples recip c l name w id = Err RuntimeError) /\
  (forall l name w id, gather_raw recip c l name w id = Err RuntimeError).
Proof. exact (fun V recip c H => proj2 (proj2 (@inside_rejected V recip c H))). Qed.
Print Assumptions C39_inside.

(** C40. add_cost on a storch tensor: accepted exactly if the event shape is () or (1) and the name is not empty;
    otherwise ValueError (and no registry is returned). The cost has the same plates and values, and is
    registered exactly if gradients are enabled. *)
Theorem C40_accepts_partial : forall (V : Type) (veq : V -> V -> bool) anc_unwrap grad reg (a : stensor V) name base,
  callable veq [a] -> name <> "" -> s_event_shape a = [] \/ s_event_shape a = [1] ->
  exists x, add_cost veq anc_unwrap top_ctx grad reg a name base = Ok (x, if grad then reg ++ [(x, name)] else reg) /\
    splates x = splates a /\ s_event_shape x = [] /\ wf x /\
    forall s, in_range s (splates a) -> den x s [] = den a s (map (fun _ => 0) (s_event_shape a)).
Proof. exact (fun V veq anc => @add_cost_ok V veq anc). Qed.
Print Assumptions C40_accepts_partial.

Theorem C40_rejects_partial : forall (V : Type) (veq : V -> V -> bool) anc_unwrap grad reg (a : stensor V) name base,
  callable veq [a] -> name = "" \/ (s_event_shape a <> [] /\ s_event_shape a <> [1]) ->
  add_cost veq anc_unwrap top_ctx grad reg a name base = Err ValueError.
Proof. exact (fun V veq anc => @add_cost_bad V veq anc). Qed.
Print Assumptions C40_rejects_partial.

Definition i_c1 : stensor nat := mkS 8 (mkten [2; 1] (fun i => 5 + nth 0 i 0)) [i_px] 1 [1] [] false.
Example C40_witness : callable Nat.eqb [i_c1] /\ s_event_shape i_c1 = [1] /\
  exists x, add_cost Nat.eqb (fun _ _ => Err RuntimeError) top_ctx true [] i_c1 "c" 20 = Ok (x, [(x, "c")]) /\
    den x (fun _ => 1) [] = 6 /\
  add_cost Nat.eqb (fun _ _ => Err RuntimeError) top_ctx false [] i_c1 "c" 20 = Ok (x, []) /\
  add_cost Nat.eqb (fun _ _ => Err RuntimeError) top_ctx true [] i_a "c" 20 = Err ValueError /\
  add_cost Nat.eqb (fun _ _ => Err RuntimeError) top_ctx true [] i_c1 "" 20 = Err ValueError.
Proof.
  refine (conj _ (conj eq_refl _)).
  - refine (conj _ (conj _ _)).
    + constructor; [|constructor]. constructor; cbn; auto; [constructor; [intros []|constructor]|intros p [<-|[]]; cbn; lia].
    + cbn. intros p q [<-|[]] [<-|[]] _. split; reflexivity.
    + cbn. intros p [<-|[]]. reflexivity.
  - eexists. split; [vm_compute; reflexivity|]. repeat split; vm_compute; reflexivity.
Qed.

(** A torch tensor is registered whatever its shape and its name, without plates and parents. *)
Theorem C40_torch_refuted : forall (V : Type) (reg : @registry V) (t : ten V) name base,
  exists x, add_cost_raw true reg t name base = Ok (x, reg ++ [(x, name)]) /\ s_event_shape x = shape t /\ splates x = [] /\ sparents x = [] /\ s_stochastic x = false.
Proof. exact (fun V => @add_cost_raw_all V true). Qed.
Print Assumptions C40_torch_refuted.

(** C44. The gradient stored for a parameter is the sum of all gradients delivered to it before the sample is cleaned
    for the first time; there is none if nothing was delivered; later deliveries and cleanings change nothing. *)
Theorem C44_accumulate : forall (V : Type) (o : sops V) (hs : list (@hook V)) (shp : nat -> list nat) evs,
  is_ring o -> NoDup (map hk_name hs) -> (forall i h, nth_error hs i = Some h -> fits h (shp i)) ->
  Forall (shaped shp (length hs)) evs ->
  exists s, run_hooks o hs evs (fresh (length hs)) = Ok s /\
  forall name, match grads s name with
  | None => delivered hs name evs = []
  | Some x => delivered hs name evs <> [] /\ exists i h, nth_error hs i = Some h /\ hk_name h = name /\
      splates x = hk_plates h /\ shape (st x) = shp i /\
      forall idx, valid idx (shp i) -> el (st x) idx = osum o (map (fun g => el g idx) (delivered hs name evs))
  end.
Proof. exact (fun V o hs shp evs R H1 H2 => @hooks_spec V o R hs shp H1 H2 evs). Qed.
Print Assumptions C44_accumulate.

Definition z_ops : sops Z := mkOps 0%Z 1%Z Z.add Z.mul Z.sub Z.opp (fun x => x).
Definition z_px : plate Z := mkPlate PlainPlate "x" 2 (WTorch (tscalar 0%Z)) [].
Definition z_hooks : list (@hook Z) := [mkHook "loc" [z_px]; mkHook "scale" []].
Definition z_shp (i : nat) : list nat := match i with 0 => [2; 3] | _ => [] end.
Definition z_g (k : Z) : ten Z := mkten [2; 3] (fun i => Z.mul k (Z.of_nat (nth 0 i 0 + nth 1 i 0))).
Definition z_evs : list event := [Deliver 0 (z_g 1); Deliver 0 (z_g 10); Clean; Deliver 0 (z_g 100); Deliver 1 (tscalar 4%Z)].
Example C44_witness : NoDup (map hk_name z_hooks) /\ (forall i h, nth_error z_hooks i = Some h -> fits h (z_shp i)) /\
  Forall (shaped z_shp (length z_hooks)) z_evs /\
  exists s x, run_hooks z_ops z_hooks z_evs (fresh 2) = Ok s /\ grads s "loc" = Some x /\ el (st x) [1; 2] = 33%Z /\
    grads s "scale" = None.
Proof.
  refine (conj _ (conj _ (conj _ _))).
  - repeat constructor; cbn; intuition discriminate.
  - intros [|[|i]] h E; cbn in E; try (destruct i; discriminate); injection E as <-; unfold fits; cbn.
    + refine (conj _ (conj _ _)); [repeat constructor; intros []|intros p [<-|[]]; cbn; lia|exists [3]; reflexivity].
    + refine (conj _ (conj _ _)); [constructor|intros p []|exists []; reflexivity].
  - repeat constructor.
  - eexists _, _. repeat split; vm_compute; reflexivity.
Qed.
