(** C11, C51: attribute access and operators on storch tensors. *)
From Coq Require Import String List Arith Bool Lia.
From Verif Require Import Base Torch Plates Wrap Names SpecTensor SpecWrap SpecNames NamesProofs SpecTensor SpecWrap OperatorProofs.
Import ListNotations.
Open Scope string_scope.
Open Scope nat_scope.
Open Scope list_scope.

(** C11. Conversions to Python and numpy values raise. *)
Theorem C11_conversions_raise : forall n, In n conversions -> lookup_raise n own_raises = Some IllegalStorchExposeError.
Proof. intros n H. simpl in H. repeat destruct H as [<-|H]; try reflexivity. contradiction. Qed.
Print Assumptions C11_conversions_raise.

(** Every listed exposing or sampling name but normal_ raises, as a method and as a torch function, whatever the
    function and the arguments. Missing: normal_, see below. *)
Theorem C11_exposing_raise_partial : forall (V : Type) (veq : V -> V -> bool) anc_unwrap n fn self args kwargs base,
  In n exposing -> n <> "normal_" ->
  call_method veq anc_unwrap (ACall n fn) self args kwargs base = Err IllegalStorchExposeError /\
  torch_function veq anc_unwrap n fn args kwargs base = Err IllegalStorchExposeError.
Proof. exact (fun V veq au => @exposing_rejected V veq au). Qed.
Print Assumptions C11_exposing_raise_partial.
Example C11_exposing_example : In "item" exposing /\ "item" <> "normal_" /\ In "normal_" exposing.
Proof. repeat split; [simpl; tauto|discriminate|simpl; tauto]. Qed.

(** normal_ is listed but not rejected: the missing comma makes the entry "normal_q_per_channel_axis". *)
Theorem C11_normal_refuted : forall (V : Type) (fn : @pyfn V), getattr (ACall "normal_" fn) = Ok (GBound fn).
Proof. reflexivity. Qed.
Print Assumptions C11_normal_refuted.

(** A method that is in none of the tables acts on the wrapped tensor (here: elementwise methods of one tensor). *)
Theorem C11_methods_as_on_tensor : forall (V : Type) (veq : V -> V -> bool) anc_unwrap n f (a : stensor V) base,
  mem_name n exception_methods = false -> mem_name n excluded_methods = false -> callable veq [a] ->
  exists r, call_method veq anc_unwrap (ACall n (torch_fn1 (fun t => Ok (tmap f t)))) a [] [] base = Ok (PT r) /\
    splates r = splates a /\ s_event_shape r = s_event_shape a /\ sparents r = [sid a] /\
    forall s e, in_range s (splates a) -> valid e (s_event_shape a) -> den r s e = f (den a s e).
Proof. exact (fun V veq au => @method_elementwise V veq au). Qed.
Print Assumptions C11_methods_as_on_tensor.
Definition n_p : plate nat := mkPlate PlainPlate "x" 2 (WTorch (tscalar 1)) [].
Definition n_a : stensor nat := mkS 1 (mkten [2] (fun i => 4 + hd 0 i)) [n_p] 1 [] [] false.
Definition n_b : stensor nat := mkS 2 (mkten [2] (fun i => 1 + hd 0 i)) [n_p] 1 [] [] false.
Definition n_anc : plate nat -> stensor nat -> res (stensor nat) := fun _ a => Ok a.
Example C11_methods_example : mem_name "exp" exception_methods = false /\ mem_name "exp" excluded_methods = false /\
  callable Nat.eqb [n_a].
Proof.
  repeat split; auto.
  - repeat constructor; simpl; try tauto; intros p [<-|[]]; simpl; lia.
  - destruct H as [<-|[]], H0 as [<-|[]]; reflexivity.
  - destruct H as [<-|[]], H0 as [<-|[]]; reflexivity.
  - intros p [<-|[]]; reflexivity.
Qed.

(** Pickling, copying, iterating, detaching in place and torch's own backward are refused. *)
Theorem C11_unsupported : forall n, In n unsupported -> lookup_raise n own_raises = Some NotImplementedError.
Proof. intros n H. simpl in H. repeat destruct H as [<-|H]; try reflexivity. contradiction. Qed.
Print Assumptions C11_unsupported.

(** The listed functions that take no tensors get their arguments as they are; as an attribute of a storch tensor they are the plain function. *)
Theorem C11_passed_through : forall (V : Type) (veq : V -> V -> bool) anc_unwrap n fn self args kwargs base, In n passed_through ->
  torch_function veq anc_unwrap n fn args kwargs base = fn args kwargs /\ @getattr V (ACall n fn) = Ok (GUnbound fn) /\
  call_method veq anc_unwrap (ACall n fn) self args kwargs base = fn args kwargs.
Proof. intros V veq au n fn self args kwargs base H. simpl in H. repeat destruct H as [<-|H]; try (repeat split; reflexivity). contradiction. Qed.
Print Assumptions C11_passed_through.

(** An attribute that torch.Tensor does not have is an error, and one that is not callable cannot be called. *)
Theorem C11_missing : forall (V : Type) (veq : V -> V -> bool) anc_unwrap self args kwargs base,
  @getattr V AAbsent = Err AttributeError /\ call_method veq anc_unwrap (@AAbsent V) self args kwargs base = Err AttributeError /\
  call_method veq anc_unwrap (@AData V) self args kwargs base = Err TypeError.
Proof. repeat split. Qed.
Print Assumptions C11_missing.

(** Attributes that are not callable (T, data, grad_fn, is_leaf, ...) do not behave as on the wrapped tensor: they all
    evaluate to None. *)
Theorem C11_data_attributes_refuted : forall V, @getattr V AData = Ok GNone.
Proof. reflexivity. Qed.
Print Assumptions C11_data_attributes_refuted.

(** C51. The arithmetic and comparison operators evaluate the torch function on the operands in the written order, per
    plate assignment. *)
Theorem C51_operators_partial : forall (V : Type) (veq : V -> V -> bool) anc_unwrap name f sw sem (a b : stensor V) base evc,
  In (name, (f, sw)) expected_ops -> callable veq (if sw then [b; a] else [a; b]) ->
  let m := Nat.max (s_event_dims a) (s_event_dims b) in
  broadcasts (pad m (s_event_shape a)) (pad m (s_event_shape b)) evc ->
  exists r, eval_op veq anc_unwrap sem name (PT a) (PT b) base = Ok (PT r) /\ s_event_shape r = evc /\
    (forall n, has (splates r) n = has (splates a) n || has (splates b) n) /\
    forall s e, in_range s (splates r) -> valid e evc ->
      den r s e = (if sw then sem f (den b s (proj (s_event_shape b) e)) (den a s (proj (s_event_shape a) e))
                   else sem f (den a s (proj (s_event_shape a) e)) (den b s (proj (s_event_shape b) e))).
Proof. exact (fun V veq au => @operators_spec V veq au). Qed.
Print Assumptions C51_operators_partial.

(** torch functions on non-negative integers. *)
Definition nsem (f : string) (x y : nat) : nat :=
  if String.eqb f "__lshift__" then Nat.shiftl x y
  else if String.eqb f "sub" then x - y
  else if String.eqb f "__eq__" then (if x =? y then 1 else 0)
  else if String.eqb f "logical_and" then (if (x =? 0) || (y =? 0) then 0 else 1)
  else if String.eqb f "bitwise_and" then Nat.land x y
  else 0.
Example C51_example : exists r, eval_op Nat.eqb n_anc nsem "__sub__" (PT n_a) (PT n_b) 9 = Ok (PT r) /\
  el (st r) [1] = 3 /\ In ("__sub__", ("sub", false)) expected_ops.
Proof. eexists. repeat split; try reflexivity. simpl. tauto. Qed.

(** x << y computes y << x: the method is defined twice and the second definition is the one meant for the reflected
    operator. *)
Theorem C51_lshift_refuted : exists r, eval_op Nat.eqb n_anc nsem "__lshift__" (PT n_a) (PT n_b) 9 = Ok (PT r) /\
  el (st n_a) [0] = 4 /\ el (st n_b) [0] = 1 /\ el (st r) [0] = Nat.shiftl 1 4 /\ el (st r) [0] <> Nat.shiftl 4 1.
Proof. eexists. repeat split; try reflexivity. vm_compute. discriminate. Qed.
Print Assumptions C51_lshift_refuted.

(** x != y raises, because only __eq__ is defined. *)
Theorem C51_ne_refuted : eval_op Nat.eqb n_anc nsem "__ne__" (PT n_a) (PT n_b) 9 = Err IllegalStorchExposeError.
Proof. reflexivity. Qed.
Print Assumptions C51_ne_refuted.

(** x & y on integers is not the bitwise and of torch tensors but the logical one (also for | and ^). *)
Theorem C51_and_refuted : exists r, eval_op Nat.eqb n_anc nsem "__and__" (PT n_a) (PT n_b) 9 = Ok (PT r) /\
  el (st r) [0] <> nsem "bitwise_and" (el (st n_a) [0]) (el (st n_b) [0]).
Proof. eexists. split; [reflexivity|]. vm_compute. discriminate. Qed.
Print Assumptions C51_and_refuted.

(** It is so for all operands. *)
Theorem C51_lshift_always_refuted : forall (V : Type) (veq : V -> V -> bool) anc_unwrap sem (a b : stensor V) base evc, callable veq [a; b] ->
  let m := Nat.max (s_event_dims a) (s_event_dims b) in
  broadcasts (pad m (s_event_shape a)) (pad m (s_event_shape b)) evc ->
  exists r, eval_op veq anc_unwrap sem "__lshift__" (PT a) (PT b) base = Ok (PT r) /\
    splates r = union (splates a) (splates b) /\ s_event_shape r = evc /\
    forall s e, in_range s (splates r) -> valid e evc ->
      den r s e = sem "__lshift__"%string (den b s (proj (s_event_shape b) e)) (den a s (proj (s_event_shape a) e)).
Proof. exact (fun V veq au => @lshift_swapped V veq au). Qed.
Print Assumptions C51_lshift_always_refuted.
Theorem C51_ne_always_refuted : forall (V : Type) (veq : V -> V -> bool) anc_unwrap sem (x y : pyval V) base, exists e, eval_op veq anc_unwrap sem "__ne__" x y base = Err e.
Proof. exact (fun V veq au => @ne_raises V veq au). Qed.
Print Assumptions C51_ne_always_refuted.

(** &, | and ^ are the logical functions for all operands. *)
Theorem C51_logical_refuted : forall (V : Type) (veq : V -> V -> bool) anc_unwrap sem op f (a b : stensor V) base evc,
  In (op, f) [("__and__", "logical_and"); ("__or__", "logical_or"); ("__xor__", "logical_xor")]%string -> callable veq [a; b] ->
  let m := Nat.max (s_event_dims a) (s_event_dims b) in
  broadcasts (pad m (s_event_shape a)) (pad m (s_event_shape b)) evc ->
  exists r, eval_op veq anc_unwrap sem op (PT a) (PT b) base = Ok (PT r) /\ s_event_shape r = evc /\
    forall s e, in_range s (splates r) -> valid e evc ->
      den r s e = sem f (den a s (proj (s_event_shape a) e)) (den b s (proj (s_event_shape b) e)).
Proof. exact (fun V veq au => @logical_spec V veq au). Qed.
Print Assumptions C51_logical_refuted.

(** The reflected right shift. *)
Theorem C51_rrshift : forall (V : Type) (veq : V -> V -> bool) anc_unwrap sem (a b : stensor V) base evc, callable veq [a; b] ->
  let m := Nat.max (s_event_dims a) (s_event_dims b) in
  broadcasts (pad m (s_event_shape a)) (pad m (s_event_shape b)) evc ->
  exists r, eval_op veq anc_unwrap sem "__rrshift__" (PT a) (PT b) base = Ok (PT r) /\
    splates r = union (splates a) (splates b) /\ s_event_shape r = evc /\
    forall s e, in_range s (splates r) -> valid e evc ->
      den r s e = sem "__rshift__"%string (den b s (proj (s_event_shape b) e)) (den a s (proj (s_event_shape a) e)).
Proof. exact (fun V veq au => @rshift_spec V veq au). Qed.
Print Assumptions C51_rrshift.

(** Unary operators: __abs__, __neg__ and __invert__ are torch functions of one argument, applied to every element. *)
Theorem C51_unary : forall (V : Type) (veq : V -> V -> bool) anc_unwrap f (a : stensor V) base, callable veq [a] ->
  exists r, torch_op1 veq anc_unwrap top_ctx f (PT a) base = Ok (PT r) /\ splates r = splates a /\ s_event_shape r = s_event_shape a /\ sparents r = [sid a] /\
    forall s e, in_range s (splates a) -> valid e (s_event_shape a) -> den r s e = f (den a s e).
Proof. intros V veq au f a base HC. destruct (OpProofs.op1_spec veq au f a base HC) as [r [E [P [Ev [_ [Pa [_ [_ D]]]]]]]]. exists r. auto. Qed.
Print Assumptions C51_unary.
