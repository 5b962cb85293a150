(** C98: assigning to parts of storch tensors. *)
From Coq Require Import String List Arith ZArith Lia.
From Verif Require Import Base Torch Plates Wrap TensorFns Setitem SpecTensor SpecWrap SpecReduce SpecSample SpecIndex SetitemProofs SetitemProofs2.
Import ListNotations.
Open Scope nat_scope.
Open Scope list_scope.

(** C98, in part: the value has no plates of its own and as many event dimensions as the places assigned to, and the index leaves the plates
    alone. For every choice of samples the places that the index picks hold the value for that choice, repeated along dimensions of size
    one, and all other elements are as before; the tensor stays the same otherwise. Missing: values with fewer event dimensions and values
    with other plates (below), indices that address plates, and that the tensor depends on the value afterwards (below). *)
Theorem C98_assigned_partial : forall (V : Type) (veq : V -> V -> bool) anc_unwrap (a v : stensor V) items full evc base,
  callable veq [a; v] -> (forall p, In p (splates v) -> In (pname p) (map pname (splates a))) ->
  leaves_front items full (length (wide (splates a))) (length (s_event_shape a)) -> indexed false items (s_event_shape a) evc -> Forall2 (fun d n => d = n \/ d = 1) (s_event_shape v) evc ->
  exists r, setitem veq anc_unwrap a full (PT v) base = Ok r /\ sid r = sid a /\ splates r = splates a /\ s_event_shape r = s_event_shape a /\ sparents r = sparents a /\ wf r /\
    forall s e, in_range s (splates a) -> valid e (s_event_shape a) ->
      (forall j, valid j evc -> picks false items (s_event_shape a) j e -> den r s e = den v s (proj (s_event_shape v) j)) /\
      ((forall j, valid j evc -> ~ picks false items (s_event_shape a) j e) -> den r s e = den a s e).
Proof. exact (fun V veq au => @setitem_spec V veq au). Qed.
Print Assumptions C98_assigned_partial.
(** The same for torch tensors and numbers, which may have fewer dimensions: every choice of samples gets the same values. *)
Theorem C98_torch_partial : forall (V : Type) (veq : V -> V -> bool) anc_unwrap (a : stensor V) (w : ten V) items full evc q1 q2 base,
  callable veq [a] -> leaves_front items full (length (wide (splates a))) (length (s_event_shape a)) -> indexed false items (s_event_shape a) evc ->
  evc = q1 ++ q2 -> Forall2 (fun d n => d = n \/ d = 1) (shape w) q2 ->
  exists r, setitem veq anc_unwrap a full (PRaw w) base = Ok r /\ sid r = sid a /\ splates r = splates a /\ s_event_shape r = s_event_shape a /\ sparents r = sparents a /\ wf r /\
    forall s e, in_range s (splates a) -> valid e (s_event_shape a) ->
      (forall j, valid j evc -> picks false items (s_event_shape a) j e -> den r s e = el w (proj (shape w) (skipn (length q1) j))) /\
      ((forall j, valid j evc -> ~ picks false items (s_event_shape a) j e) -> den r s e = den a s e).
Proof. exact (fun V veq au => @setitem_raw V veq au). Qed.
Print Assumptions C98_torch_partial.
(** Torch tensors with dimensions for the plates as well: each choice of samples gets its values. Dimensions in front have to be of size one;
    RuntimeError otherwise. *)
Theorem C98_samples_partial : forall (V : Type) (veq : V -> V -> bool) anc_unwrap (a : stensor V) (w : ten V) items full evc base,
  callable veq [a] -> leaves_front items full (length (wide (splates a))) (length (s_event_shape a)) -> indexed false items (s_event_shape a) evc ->
  let sizes := map pn (wide (splates a)) ++ evc in let k := ndim w - length sizes in length sizes <= ndim w ->
  (firstn k (shape w) = repeat 1 k -> Forall2 (fun d n => d = n \/ d = 1) (skipn k (shape w)) sizes ->
   exists r, setitem veq anc_unwrap a full (PRaw w) base = Ok r /\ sid r = sid a /\ splates r = splates a /\ s_event_shape r = s_event_shape a /\ sparents r = sparents a /\ wf r /\
    forall s e, in_range s (splates a) -> valid e (s_event_shape a) ->
      (forall j, valid j evc -> picks false items (s_event_shape a) j e -> den r s e = el w (repeat 0 k ++ proj (skipn k (shape w)) (map (fun p => s (pname p)) (wide (splates a)) ++ j))) /\
      ((forall j, valid j evc -> ~ picks false items (s_event_shape a) j e) -> den r s e = den a s e)) /\
  (firstn k (shape w) <> repeat 1 k \/ ~ Forall2 (fun d n => d = n \/ d = 1) (skipn k (shape w)) sizes -> setitem veq anc_unwrap a full (PRaw w) base = Err RuntimeError).
Proof. exact (fun V veq au => @setitem_excess V veq au). Qed.
Print Assumptions C98_samples_partial.
(** An index outside the event raises IndexError. *)
Theorem C98_outside : forall (V : Type) (veq : V -> V -> bool) anc_unwrap (a v : stensor V) items full base,
  callable veq [a; v] -> (forall p, In p (splates v) -> In (pname p) (map pname (splates a))) ->
  leaves_front items full (length (wide (splates a))) (length (s_event_shape a)) -> (forall evc, ~ indexed false items (s_event_shape a) evc) ->
  setitem veq anc_unwrap a full (PT v) base = Err IndexError.
Proof. exact (fun V veq au => @setitem_outside V veq au). Qed.
Print Assumptions C98_outside.

(** C98 is false for the dependencies: the elements come from the value, but the value is no parent of the tensor afterwards. *)
Theorem C98_depends_refuted : forall (V : Type) (veq : V -> V -> bool) anc_unwrap (a v : stensor V) base,
  callable veq [a; v] -> splates v = splates a -> s_event_shape v = s_event_shape a -> ~ In (sid v) (sparents a) ->
  exists r, setitem veq anc_unwrap a [IEllipsis] (PT v) base = Ok r /\ sid r = sid a /\ ~ In (sid v) (sparents r) /\
    forall s e, in_range s (splates a) -> valid e (s_event_shape a) -> den r s e = den v s e.
Proof.
  intros V veq au a v base HC HP HE HN.
  destruct (setitem_spec veq au a v [IEllipsis] [IEllipsis] (s_event_shape a) base HC) as [r [R1 [R2 [_ [_ [R5 [_ R7]]]]]]].
  - intros p Hp. rewrite HP in Hp. now apply in_map.
  - right. split; auto. exists []. split; auto. cbn. lia.
  - rewrite <- (app_nil_r (s_event_shape a)). apply ix_dots. constructor.
  - rewrite HE. clear. induction (s_event_shape a); constructor; auto.
  - exists r. split; [exact R1|]. split; [exact R2|]. split; [now rewrite R5|]. intros s e Hs He. destruct (R7 s e Hs He) as [K _].
    assert (P : proj (s_event_shape v) e = e) by (rewrite HE; now apply IndexLemmas.proj_valid). rewrite (K e He), P; auto.
    rewrite <- (app_nil_r (s_event_shape a)), <- (app_nil_r e). apply pk_dots; auto. constructor.
Qed.
Print Assumptions C98_depends_refuted.

(** C98 is false for values with samples of another variable: RuntimeError, as the tensor assigned to gets no dimension for them. *)
Theorem C98_samples_refuted : forall (V : Type) (veq : V -> V -> bool) anc_unwrap (a v : stensor V) r evc p base,
  callable veq [a; v] -> In p (splates v) -> 1 < pn p -> ~ In (pname p) (map pname (splates a)) ->
  consumed r <= length (s_event_shape a) -> indexed false (IEllipsis :: r) (s_event_shape a) evc -> length (s_event_shape v) = length evc ->
  setitem veq anc_unwrap a (IEllipsis :: r) (PT v) base = Err RuntimeError.
Proof. exact (fun V veq au => @setitem_new V veq au). Qed.
Print Assumptions C98_samples_refuted.

(** C98 is false for values with fewer event dimensions: for a number per sample, assigned to the vectors of the samples, the samples are
    taken for the elements of the vectors. This raises RuntimeError unless there are as many elements as samples; then
    every vector silently gets the numbers of all samples. *)
Theorem C98_number_refuted : forall (V : Type) (veq : V -> V -> bool) anc_unwrap (a v : stensor V) p m base,
  callable veq [a; v] -> (forall q, In q (splates v) -> In (pname q) (map pname (splates a))) -> wide (splates a) = [p] -> In (pname p) (map pname (splates v)) ->
  s_event_shape a = [m] -> s_event_shape v = [] ->
  (m <> pn p -> setitem veq anc_unwrap a [IEllipsis] (PT v) base = Err RuntimeError) /\
  (m = pn p -> exists r, setitem veq anc_unwrap a [IEllipsis] (PT v) base = Ok r /\ splates r = splates a /\ s_event_shape r = [m] /\
     forall s j, in_range s (splates a) -> j < m -> den r s [j] = den v (set_to s (pname p) j) []).
Proof. exact (fun V veq au => @setitem_scalar V veq au). Qed.
Print Assumptions C98_number_refuted.

(** The same for a number per sample of another variable: if the vectors have as many elements as there are samples, every vector silently
    becomes the vector of all samples. *)
Theorem C98_other_refuted : forall (V : Type) (veq : V -> V -> bool) anc_unwrap (a v : stensor V) p m base,
  callable veq [a; v] -> wide (splates v) = [p] -> ~ In (pname p) (map pname (splates a)) -> s_event_shape a = [m] -> s_event_shape v = [] -> m = pn p ->
  exists r, setitem veq anc_unwrap a [IEllipsis] (PT v) base = Ok r /\ splates r = splates a /\ s_event_shape r = [m] /\ sparents r = sparents a /\
    forall s j, in_range s (splates a) -> j < m -> den r s [j] = den v (set_to s (pname p) j) [].
Proof. exact (fun V veq au => @setitem_number_new V veq au). Qed.
Print Assumptions C98_other_refuted.

Section Witness.
Let no_anc : plate nat -> stensor nat -> res (stensor nat) := fun _ _ => Err NotImplementedError.
Let digits (b : nat) (l : list nat) : nat := fold_left (fun n i => 10 * n + i) l b.
Let px : plate nat := mkPlate PlainPlate "x" 2 (WTorch (tscalar 1)) [].
Let py : plate nat := mkPlate PlainPlate "y" 3 (WTorch (tscalar 1)) [].
Ltac callable_tac := split; [repeat constructor; cbn; try (intros p Hp; intuition (subst; cbn; lia)); intuition congruence|
  split; [intros p q Hp Hq E; cbn in Hp, Hq; intuition (subst; cbn in *; try discriminate; auto)|intros p Hp; cbn in Hp; intuition (subst; reflexivity)]].
Let a : stensor nat := mkS 1 (mkten [2; 3; 2] (digits 1)) [px; py] 2 [2] [] false.
Let v : stensor nat := mkS 2 (mkten [3; 1] (digits 7)) [py] 1 [1] [] false.
Let vec : stensor nat := mkS 3 (mkten [2; 2] (digits 1)) [px] 1 [2] [] false.
Let num : stensor nat := mkS 4 (mkten [2] (digits 7)) [px] 1 [] [] false.

(** a[..., 0:1] = v and a[:, :, 1] = 5. *)
Example C98_witness : callable Nat.eqb [a; v] /\ (forall p, In p (splates v) -> In (pname p) (map pname (splates a))) /\ leaves_front [IEllipsis; IRange 0 1] [IEllipsis; IRange 0 1] 2 1 /\
  indexed false [IEllipsis; IRange 0 1] [2] [1] /\ leaves_front [IInt 1] [IAll; IAll; IInt 1] 2 1 /\ indexed false [IInt 1] [2] [] /\
  (exists r, setitem Nat.eqb no_anc a [IEllipsis; IRange 0 1] (PT v) 50 = Ok r /\ el (st r) [1; 2; 0] = digits 7 [2; 0] /\ el (st r) [1; 2; 1] = digits 1 [1; 2; 1]) /\
  (exists r, setitem Nat.eqb no_anc a [IAll; IAll; IInt 1] (PRaw (tscalar 5)) 50 = Ok r /\ el (st r) [1; 2; 0] = digits 1 [1; 2; 0] /\ el (st r) [1; 2; 1] = 5) /\
  setitem Nat.eqb no_anc a [IEllipsis; IInt 2] (PT v) 50 = Err IndexError.
Proof.
  split; [callable_tac|]. split; [intros p [<-|[]]; cbn; auto|]. split; [right; split; auto; exists [IRange 0 1]; split; auto; cbn; lia|].
  split; [apply (ix_dots []); constructor; [intros k Hk; lia|constructor]|]. split; [left; reflexivity|]. split; [apply ix_int with (k := 1); [split; [lia|left; reflexivity]|constructor]|].
  split; [eexists; split; [reflexivity|]; split; vm_compute; reflexivity|]. split; [eexists; split; [reflexivity|]; split; vm_compute; reflexivity|reflexivity].
Qed.
(** vec[...] = v, with samples vec does not have, and vec[...] = num. *)
Example C98_refuted_witness : callable Nat.eqb [vec; v] /\ callable Nat.eqb [vec; num] /\ setitem Nat.eqb no_anc vec [IEllipsis] (PT v) 50 = Err RuntimeError /\
  (exists r, setitem Nat.eqb no_anc vec [IEllipsis] (PT num) 50 = Ok r /\ map (el (st r)) [[0; 0]; [0; 1]; [1; 0]; [1; 1]] = [70; 71; 70; 71]) /\
  (exists r, setitem Nat.eqb no_anc vec [IEllipsis] (PT (mkS 5 (mkten [2; 2] (digits 7)) [px] 1 [2] [] false)) 50 = Ok r /\ sparents r = [] /\ el (st r) [1; 0] = digits 7 [1; 0]).
Proof.
  split; [callable_tac|]. split; [callable_tac|]. split; [reflexivity|]. split; [eexists; split; [reflexivity|]; vm_compute; reflexivity|].
  eexists; split; [reflexivity|]. split; [reflexivity|]. vm_compute. reflexivity.
Qed.
(** a[..., 0:1] = w for w of shape [1; 2; 1; 1], and the vector of every sample of x becomes the samples of another variable. *)
Example C98_samples_witness : callable Nat.eqb [a] /\ firstn 1 [1; 2; 1; 1] = repeat 1 1 /\
  (exists r, setitem Nat.eqb no_anc a [IEllipsis; IRange 0 1] (PRaw (mkten [1; 2; 1; 1] (digits 0))) 50 = Ok r /\ el (st r) [1; 2; 0] = digits 0 [0; 1; 0; 0] /\ el (st r) [1; 2; 1] = digits 1 [1; 2; 1]) /\
  setitem Nat.eqb no_anc a [IEllipsis; IRange 0 1] (PRaw (mkten [2; 2; 1; 1] (digits 7))) 50 = Err RuntimeError /\
  (let b := mkS 6 (mkten [2; 3] (digits 1)) [px] 1 [3] [] false in let n := mkS 7 (mkten [3] (digits 7)) [py] 1 [] [] false in
   callable Nat.eqb [b; n] /\ exists r, setitem Nat.eqb no_anc b [IEllipsis] (PT n) 50 = Ok r /\ map (el (st r)) [[0; 0]; [0; 2]; [1; 0]; [1; 2]] = [70; 72; 70; 72]).
Proof.
  split; [callable_tac|]. split; [reflexivity|]. split; [eexists; split; [reflexivity|]; split; vm_compute; reflexivity|]. split; [reflexivity|].
  cbv zeta. split; [callable_tac|]. eexists; split; [reflexivity|]. vm_compute. reflexivity.
Qed.
End Witness.
