(** C75: storch.grad. *)
From Coq Require Import String List Arith Bool ZArith Lia.
From Verif Require Import Base Torch Plates Wrap TensorFns Grad SpecTensor SpecWrap SpecGrad GradProofs.
Import ListNotations.
Open Scope string_scope.
Open Scope nat_scope.
Open Scope list_scope.

(** C75 for a list of storch tensors as outputs, a list or tuple of inputs and gradients for all of them. torch.autograd.grad sees the wrapped
    tensors as they are. Missing for the full claim: inputs without a name, outputs that are no list of storch tensors, unused inputs (all false,
    below). *)
Theorem C75_gradients_partial : forall (V : Type) veq anc_unwrap tname autograd (outs : list (stensor V)) ins gouts o i g gs base inputs,
  inputs = PList ins \/ inputs = PTuple ins ->
  callable veq (call_tensors [PList (map PT outs); inputs; gouts] []) -> no_distr gouts -> Forall (named_tensor tname) ins ->
  bare (PList (map PT outs)) o -> bare inputs i -> bare gouts g -> autograd o i g = Ok (map Some gs) -> Forall2 gradient_shape gs ins ->
  exists rs, storch_grad veq anc_unwrap tname autograd (PList (map PT outs)) inputs gouts base = Ok rs /\ gradients_of tname outs ins gs rs.
Proof. exact (fun V => @grad_list V). Qed.
Print Assumptions C75_gradients_partial.

(** One output with a plate of two samples; a storch tensor with that plate and a torch tensor as inputs. *)
Definition gr_plate : plate nat := mkPlate PlainPlate "x" 2 (WTorch (tscalar 1)) [].
Definition gr_out : stensor nat := mkS 7 (mkten [2] (fun i => nth 0 i 0)) [gr_plate] 1 [] [] false.
Definition gr_in : stensor nat := mkS 3 (mkten [2; 3] (fun i => nth 0 i 0 + nth 1 i 0)) [gr_plate] 1 [3] [] false.
Definition gr_torch : ten nat := mkten [4] (fun i => nth 0 i 0).
Definition gr_name (a : stensor nat) : option string := if sid a =? 3 then Some "w" else None.
Definition gr_grads : list (ten nat) := [mkten [2; 3] (fun i => 10 * nth 0 i 0 + nth 1 i 0); mkten [4] (fun i => 100 + nth 0 i 0)].
Definition gr_autograd (o i g : pyval nat) : res (list (option (ten nat))) := Ok (map Some gr_grads).
Example C75_witness :
  callable Nat.eqb (call_tensors [PList [PT gr_out]; PList [PT gr_in; PRaw gr_torch]; PNone] []) /\ @no_distr nat PNone /\
  Forall (named_tensor gr_name) [PT gr_in; PRaw gr_torch] /\
  bare (PList [PT gr_out]) (PList [PRaw (st gr_out)]) /\ bare (PList [PT gr_in; PRaw gr_torch]) (PList [PRaw (st gr_in); PRaw gr_torch]) /\ @bare nat PNone PNone /\
  Forall2 gradient_shape gr_grads [PT gr_in; PRaw gr_torch] /\
  match storch_grad Nat.eqb (fun _ a => Ok a) gr_name gr_autograd (PList [PT gr_out]) (PList [PT gr_in; PRaw gr_torch]) PNone 100 with
  | Ok [(a, n); (b, m)] => n = "w_grad" /\ m = "grad" /\ sparents a = [7; 3] /\ sparents b = [7] /\ splates a = [gr_plate] /\ splates b = [] /\
      den a (fun _ => 1) [2] = 12 /\ den b (fun _ => 0) [3] = 103
  | _ => False
  end.
Proof.
  assert (W : Forall wf [gr_out; gr_in]).
  { repeat constructor; cbn; try tauto; intros p [<-|[]]; cbn; lia. }
  split.
  { split; [exact W|]. split.
    - intros p q Hp Hq _. cbn in Hp, Hq. destruct Hp as [<-|[<-|[]]], Hq as [<-|[<-|[]]]; split; reflexivity.
    - intros p Hp. cbn in Hp. destruct Hp as [<-|[<-|[]]]; reflexivity. }
  split; [exact I|]. split; [repeat constructor; eexists; reflexivity|]. split; [repeat constructor|]. split; [repeat constructor|]. split; [constructor|].
  split; [repeat constructor|]. vm_compute. repeat split; reflexivity.
Qed.

(** C75 is false for inputs without a name, the default of storch.Tensor: no call returns. *)
Theorem C75_unnamed_refuted : forall (V : Type) veq anc_unwrap tname autograd (outputs : pyval V) ins gouts base a rs,
  one_each autograd (length ins) -> In (PT a) ins -> tname a = None ->
  storch_grad veq anc_unwrap tname autograd outputs (PList ins) gouts base <> Ok rs.
Proof. exact (fun V => @grad_unnamed V). Qed.
Print Assumptions C75_unnamed_refuted.

(** C75 is false for a single storch tensor as output, which torch.autograd.grad takes: no call returns. *)
Theorem C75_single_refuted : forall (V : Type) veq anc_unwrap tname autograd (a : stensor V) ins gouts base rs,
  one_each autograd (length ins) -> ins <> [] -> storch_grad veq anc_unwrap tname autograd (PT a) (PList ins) gouts base <> Ok rs.
Proof. exact (fun V => @grad_single V). Qed.
Print Assumptions C75_single_refuted.

(** C75 is false for outputs with a torch tensor among them. *)
Theorem C75_torch_output_refuted : forall (V : Type) veq anc_unwrap tname autograd (outs : list (pyval V)) t ins gouts base rs,
  one_each autograd (length ins) -> ins <> [] -> In (PRaw t) outs ->
  storch_grad veq anc_unwrap tname autograd (PList outs) (PList ins) gouts base <> Ok rs.
Proof. exact (fun V => @grad_torch_output V). Qed.
Print Assumptions C75_torch_output_refuted.

(** C75 is false for unused inputs: with allow_unused, torch returns None for them. *)
Theorem C75_unused_refuted : forall (V : Type) veq anc_unwrap tname autograd (outputs inputs gouts : pyval V) base rs,
  (forall o i g gs, autograd o i g = Ok gs -> In None gs) -> storch_grad veq anc_unwrap tname autograd outputs inputs gouts base <> Ok rs.
Proof. exact (fun V => @grad_unused V). Qed.
Print Assumptions C75_unused_refuted.

(** What the calls raise: TypeError, TypeError, AttributeError, AttributeError. *)
Example C75_refuted_witness :
  one_each gr_autograd (length [PT gr_in; PRaw gr_torch]) /\
  storch_grad Nat.eqb (fun _ a => Ok a) (fun _ => None) gr_autograd (PList [PT gr_out]) (PList [PT gr_in; PRaw gr_torch]) PNone 100 = Err TypeError /\
  storch_grad Nat.eqb (fun _ a => Ok a) gr_name gr_autograd (PT gr_out) (PList [PT gr_in; PRaw gr_torch]) PNone 100 = Err TypeError /\
  storch_grad Nat.eqb (fun _ a => Ok a) gr_name gr_autograd (PList [PT gr_out; PRaw (tscalar 1)]) (PList [PT gr_in; PRaw gr_torch]) PNone 100 = Err AttributeError /\
  storch_grad Nat.eqb (fun _ a => Ok a) gr_name (fun _ _ _ => Ok [None]) (PList [PT gr_out]) (PList [PT gr_in]) PNone 100 = Err AttributeError.
Proof. split; [intros o i g gs E; injection E as <-; reflexivity|]. repeat split; vm_compute; reflexivity. Qed.
