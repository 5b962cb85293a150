(** C48: which inputs an output was computed from. *)
From Coq Require Import String List Arith Bool Lia.
From Coq Require Import Relations.Relation_Operators.
From Verif Require Import Base Graph Autograd SpecAutograd AutogradProofs.
Import ListNotations.

(** C48. Part: for an output that is not a StochasticTensor, inputs not all the output itself and such that no autograd
    function belongs to two of them, each entry of the result except the first tells exactly whether the input is the
    output or the autograd graph of the output reaches it; the first entry is only right about being the output.
    Missing: the first entry (C48_first_input_refuted), and StochasticTensor outputs (C48_stochastic_refuted). *)
Theorem C48_backwards_path_partial : forall g univ output inputs f,
  finite_graph g univ -> t_grad_fn output = Some f -> In f univ ->
  (exists t, In t inputs /\ t_id output <> t_id t) ->
  (forall p i j t u, nth_error inputs i = Some t -> nth_error inputs j = Some u ->
     belongs g p t -> belongs g p u -> i = j) ->
  exists bs, (exists enough, forall fuel, enough <= fuel -> has_backwards_path fuel g output inputs = Some (Paths bs)) /\
    length bs = length inputs /\
    forall i t, nth_error inputs i = Some t ->
      (nth i bs false = true <-> t_id output = t_id t \/ (i <> 0 /\ depends g output t)).
Proof. exact backwards_path_spec. Qed.
Print Assumptions C48_backwards_path_partial.

(** Output 10 computed by function 0 from leaf 11 and from tensor 13, which function 3 computed from leaf 12;
    14 is an unrelated leaf. *)
Definition c48_graph : autograd :=
  mkAutograd (fun p => match p with 0 => [Some 1; None; Some 3] | 3 => [Some 2] | _ => [] end)
             (fun p => match p with 1 => Some 11 | 2 => Some 12 | 4 => Some 14 | _ => None end).
Definition c48_out := mkT 10 (Some 0).
Definition c48_inputs := [mkT 14 None; mkT 12 None; mkT 13 (Some 3); mkT 11 None].
Example C48_example : finite_graph c48_graph [0; 1; 2; 3] /\ (exists t, In t c48_inputs /\ t_id c48_out <> t_id t) /\
  (forall p i j t u, nth_error c48_inputs i = Some t -> nth_error c48_inputs j = Some u ->
     belongs c48_graph p t -> belongs c48_graph p u -> i = j) /\
  has_backwards_path 9 c48_graph c48_out c48_inputs = Some (Paths [false; true; true; true]).
Proof.
  split; [|split; [|split; [|reflexivity]]].
  - intros p q Hp H. unfold feeds in H. repeat (destruct Hp as [<-|Hp]; [cbn in H; intuition (try discriminate; try (injection H0 as <-); cbn; auto)|]).
    destruct Hp.
  - eexists. split; [now left|]. discriminate.
  - intros p i j t u Hi Hj Bi Bj. unfold belongs, c48_graph in *. cbn [variable] in *.
    destruct i as [|[|[|[|i]]]], j as [|[|[|[|j]]]]; cbn in Hi, Hj; try reflexivity;
      try (destruct i; discriminate); try (destruct j; discriminate);
      injection Hi as <-; injection Hj as <-; cbn in Bi, Bj;
      destruct p as [|[|[|[|[|p]]]]]; destruct Bi; destruct Bj; discriminate.
Qed.

(** The first input is never found, although the output was computed from it. *)
Theorem C48_first_input_refuted :
  let g := mkAutograd (fun p => match p with 0 => [Some 1; Some 2] | _ => [] end)
                      (fun p => match p with 1 => Some 11 | 2 => Some 12 | _ => None end) in
  let out := mkT 10 (Some 0) in let a := mkT 11 None in let b := mkT 12 None in
  depends g out a /\ (forall fuel, 4 <= fuel -> has_backwards_path fuel g out [a; b] = Some (Paths [false; true])).
Proof. exact first_input_missed. Qed.
Print Assumptions C48_first_input_refuted.

(** A StochasticTensor whose only input is its distribution parameter: TypeError in every autograd graph. *)
Theorem C48_stochastic_refuted : forall fuel g f i,
  has_backwards_path_stochastic fuel g [mkT i (Some f)] [mkT i (Some f)] = Err TypeError.
Proof. exact sole_parameter_raises. Qed.
Print Assumptions C48_stochastic_refuted.

(** StochasticTensor outputs: an input is found if it is found for one of the parameters that were computed (the first input
    only if it is such a parameter itself). Missing: the first input, and parameters that are leaves
    (C48_leaf_parameter_refuted). *)
Theorem C48_stochastic_partial : forall g univ inputs, finite_graph g univ ->
  (forall p i j t u, nth_error inputs i = Some t -> nth_error inputs j = Some u -> belongs g p t -> belongs g p u -> i = j) ->
  forall params,
  (forall p f, In p params -> t_grad_fn p = Some f -> In f univ /\ exists t, In t inputs /\ t_id p <> t_id t) ->
  exists bs, (exists enough, forall fuel, enough <= fuel -> has_backwards_path_stochastic fuel g params inputs = Ok bs) /\
    length bs = length inputs /\
    forall i t, nth_error inputs i = Some t ->
      (nth i bs false = true <-> exists p, In p params /\ t_grad_fn p <> None /\ (t_id p = t_id t \/ (i <> 0 /\ depends g p t))).
Proof. exact stochastic_spec. Qed.
Print Assumptions C48_stochastic_partial.
Example C48_stochastic_example : has_backwards_path_stochastic 9 c48_graph [mkT 13 (Some 3); c48_out] c48_inputs = Ok [false; true; true; true] /\
  has_backwards_path_stochastic 9 c48_graph [mkT 13 (Some 3)] c48_inputs = Ok [false; true; true; false].
Proof. split; reflexivity. Qed.

(** An output without gradient function depends on nothing, and no input is reported. *)
Theorem C48_no_gradient_partial : forall fuel g output inputs, t_grad_fn output = None ->
  has_backwards_path fuel g output inputs = Some (Paths (repeat false (length inputs))) /\ forall t, ~ depends g output t.
Proof. intros fuel g output inputs H. split; [now apply no_gradient_spec|]. intros t (f & p & E & _). congruence. Qed.
Print Assumptions C48_no_gradient_partial.

(** A leaf that is the parameter of a sampled tensor is not found, in whatever autograd graph. *)
Theorem C48_leaf_parameter_refuted : forall fuel g i r,
  has_backwards_path_stochastic fuel g [mkT i None] (mkT i None :: r) = Ok (repeat false (S (length r))).
Proof. exact leaf_parameter_missed. Qed.
Print Assumptions C48_leaf_parameter_refuted.
