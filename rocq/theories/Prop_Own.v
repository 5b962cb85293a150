(** C99: every cost has its own baseline. *)
From Coq Require Import String List Arith Bool ZArith Lia Permutation.
From Verif Require Import Base Torch Plates Wrap OrderPlates Scalar Reduce Graph Surrogate SpecTensor SpecWrap SpecOrder SpecReduce SpecGraph SpecSurrogate
  Dual OrderProofs ReduceProofs2 SurrogateProofs SurrogateProofs3 SurrogateWitness MovingProofs SpecOwn OwnProofs OwnProofs2 OwnProofs3.
Import ListNotations.
Open Scope string_scope.
Open Scope nat_scope.
Open Scope list_scope.

(** C99, the part that holds. If the variables of a cost have all its plates, then the loss of the cost reads and changes
    only the averages kept for these variables and this cost. *)
Theorem C99_own_partial : forall (V : Type) (veq : V -> V -> bool) anc_unwrap (o : sops V) (o_exp : V -> V), is_ring o ->
  forall (nodes : nat -> @snode V (averages V)) FP fuel h base c order, covered veq anc_unwrap o o_exp nodes FP c order ->
  surrogate_order fuel h c = Some order ->
  forall sg v sg1, surrogate_cost veq anc_unwrap o o_exp fuel h nodes base c sg = Ok (v, sg1) ->
  (forall k, (forall p, In p order -> k <> slot (nd_name (nodes p)) (nd_name (nodes c))) -> sg1 k = sg k) /\
  forall sg', (forall p, In p order -> sg' (slot (nd_name (nodes p)) (nd_name (nodes c))) = sg (slot (nd_name (nodes p)) (nd_name (nodes c)))) ->
    exists sg1', surrogate_cost veq anc_unwrap o o_exp fuel h nodes base c sg' = Ok (v, sg1') /\
      forall p, In p order -> sg1' (slot (nd_name (nodes p)) (nd_name (nodes c))) = sg1 (slot (nd_name (nodes p)) (nd_name (nodes c))).
Proof. exact (fun V veq anc o ex => @own_spec V veq anc o ex). Qed.
Print Assumptions C99_own_partial.

(** Hence the loss of such a cost is the same whether another such cost was handled before it or not. *)
Theorem C99_apart_partial : forall (V : Type) (veq : V -> V -> bool) anc_unwrap (o : sops V) (o_exp : V -> V), is_ring o ->
  forall (nodes : nat -> @snode V (averages V)) FP1 FP2 fuel h base c1 c2 order1 order2,
  covered veq anc_unwrap o o_exp nodes FP1 c1 order1 -> covered veq anc_unwrap o o_exp nodes FP2 c2 order2 ->
  surrogate_order fuel h c1 = Some order1 -> surrogate_order fuel h c2 = Some order2 ->
  (forall p q, In p order1 -> In q order2 -> slot (nd_name (nodes p)) (nd_name (nodes c1)) <> slot (nd_name (nodes q)) (nd_name (nodes c2))) ->
  forall sg v1 v2 sg1 sg2, surrogate_cost veq anc_unwrap o o_exp fuel h nodes base c1 sg = Ok (v1, sg1) ->
  surrogate_cost veq anc_unwrap o o_exp fuel h nodes base c2 sg = Ok (v2, sg2) ->
  exists sg12, surrogate_cost veq anc_unwrap o o_exp fuel h nodes base c2 sg1 = Ok (v2, sg12).
Proof. exact (fun V veq anc o ex => @apart_spec V veq anc o ex). Qed.
Print Assumptions C99_apart_partial.

(** The same for any number of costs, one after the other: each gets the loss it gets alone. *)
Theorem C99_alone_partial : forall (V : Type) (veq : V -> V -> bool) anc_unwrap (o : sops V) (o_exp : V -> V), is_ring o ->
  forall (nodes : nat -> @snode V (averages V)) FP order fuel h base cs,
  (forall c, In c cs -> covered veq anc_unwrap o o_exp nodes (FP c) c (order c) /\ surrogate_order fuel h c = Some (order c)) ->
  ForallOrdPairs (fun c d => forall p q, In p (order c) -> In q (order d) ->
    slot (nd_name (nodes p)) (nd_name (nodes c)) <> slot (nd_name (nodes q)) (nd_name (nodes d))) cs ->
  forall sg vs sg', surrogate_costs veq anc_unwrap o o_exp fuel h nodes base cs sg = Ok (vs, sg') ->
  Forall2 (fun c v => exists sg1, surrogate_cost veq anc_unwrap o o_exp fuel h nodes base c sg = Ok (v, sg1)) cs vs.
Proof. exact (fun V veq anc o ex => @losses_alone V veq anc o ex). Qed.
Print Assumptions C99_alone_partial.

(** So the losses do not depend on the order of the costs. *)
Theorem C99_order_partial : forall (V : Type) (veq : V -> V -> bool) anc_unwrap (o : sops V) (o_exp : V -> V), is_ring o ->
  forall (nodes : nat -> @snode V (averages V)) FP order fuel h base cs cs', Permutation cs cs' ->
  (forall c, In c cs -> covered veq anc_unwrap o o_exp nodes (FP c) c (order c) /\ surrogate_order fuel h c = Some (order c)) ->
  (forall c d, In c cs -> In d cs -> c <> d -> forall p q, In p (order c) -> In q (order d) ->
    slot (nd_name (nodes p)) (nd_name (nodes c)) <> slot (nd_name (nodes q)) (nd_name (nodes d))) -> NoDup cs ->
  forall sg vs vs' sg1 sg2, surrogate_costs veq anc_unwrap o o_exp fuel h nodes base cs sg = Ok (vs, sg1) ->
  surrogate_costs veq anc_unwrap o o_exp fuel h nodes base cs' sg = Ok (vs', sg2) -> Permutation (combine cs vs) (combine cs' vs').
Proof. exact (fun V veq anc o ex => @losses_order V veq anc o ex). Qed.
Print Assumptions C99_order_partial.

(** Costs of different names have different averages for the same variable. *)
Theorem C99_slots : forall variable c1 c2, slot variable c1 = slot variable c2 -> c1 = c2.
Proof. exact slot_inj. Qed.
Print Assumptions C99_slots.

(** The baselines of the library keep to the average they are called for. *)
Theorem C99_moving : forall (V : Type) (veq : V -> V -> bool) anc_unwrap (o : sops V) d, keeps_to_itself (moving_average veq anc_unwrap o d).
Proof. exact (fun V veq anc o d => @moving_keeps V veq anc o d). Qed.
Print Assumptions C99_moving.
Theorem C99_batch : forall (V : Type) (veq : V -> V -> bool) anc_unwrap (o : sops V) o_divn, keeps_to_itself (T := ten V) (batch_average veq anc_unwrap o o_divn).
Proof. exact (fun V veq anc o dv => @batch_keeps V veq anc o dv). Qed.
Print Assumptions C99_batch.

(** Handling a cost whose plates the variable has moves the average of this variable and cost towards the average of the
    cost, and changes no other. *)
Theorem C99_kept_partial : forall (V : Type) (veq : V -> V -> bool) anc_unwrap (o : sops V) (o_exp : V -> V), is_ring o ->
  forall (nodes : nat -> @snode V (averages V)) FP c p base n lp d L acc L' acc' sg sg1,
  plates_ok veq FP -> over FP (nd_t (nodes c)) -> over FP (nd_t (nodes p)) -> s_event_shape (nd_t (nodes c)) = [] -> no_gaps (wide (splates (nd_t (nodes c)))) ->
  nd_sto (nodes p) = Some (n, lp, true, Some (score_method veq anc_unwrap o o_exp (Some (moving_average veq anc_unwrap o d)))) ->
  foreign (nd_t (nodes c)) (splates (nd_t (nodes p))) = [] -> averageable veq (nd_t (nodes c)) ->
  add_parent veq anc_unwrap o o_exp nodes c base (L, acc, sg) p = Ok (L', acc', sg1) ->
  let key := slot (nd_name (nodes p)) (nd_name (nodes c)) in
  shape (sg key) = [] ->
  (forall k, k <> key -> sg1 k = sg k) /\ shape (sg1 key) = [] /\ el (sg1 key) [] = decayed o d (el (sg key) []) [average o (nd_t (nodes c))].
Proof. exact (fun V veq anc o ex => @kept_spec V veq anc o ex). Qed.
Print Assumptions C99_kept_partial.

(** Names of costs need not be unique (storch/inference.py:95-98 only asks for one): two costs of the same name share the
    average. *)
Theorem C99_same_name_refuted : forall (V : Type) (veq : V -> V -> bool) anc_unwrap (o : sops V) (o_exp : V -> V), is_ring o ->
  forall (nodes : nat -> @snode V (averages V)) FP1 FP2 c1 c2 p base n lp d L1 acc1 L1' acc1' L2 acc2 L2' acc2' sg sg1 sg2,
  plates_ok veq FP1 -> over FP1 (nd_t (nodes c1)) -> over FP1 (nd_t (nodes p)) -> s_event_shape (nd_t (nodes c1)) = [] -> no_gaps (wide (splates (nd_t (nodes c1)))) ->
  plates_ok veq FP2 -> over FP2 (nd_t (nodes c2)) -> over FP2 (nd_t (nodes p)) -> s_event_shape (nd_t (nodes c2)) = [] -> no_gaps (wide (splates (nd_t (nodes c2)))) ->
  nd_sto (nodes p) = Some (n, lp, true, Some (score_method veq anc_unwrap o o_exp (Some (moving_average veq anc_unwrap o d)))) ->
  foreign (nd_t (nodes c1)) (splates (nd_t (nodes p))) = [] -> averageable veq (nd_t (nodes c1)) ->
  foreign (nd_t (nodes c2)) (splates (nd_t (nodes p))) = [] -> averageable veq (nd_t (nodes c2)) ->
  nd_name (nodes c1) = nd_name (nodes c2) ->
  add_parent veq anc_unwrap o o_exp nodes c1 base (L1, acc1, sg) p = Ok (L1', acc1', sg1) ->
  add_parent veq anc_unwrap o o_exp nodes c2 base (L2, acc2, sg1) p = Ok (L2', acc2', sg2) ->
  let key := slot (nd_name (nodes p)) (nd_name (nodes c2)) in
  shape (sg key) = [] ->
  el (sg2 key) [] = decayed o d (el (sg key) []) [average o (nd_t (nodes c1)); average o (nd_t (nodes c2))].
Proof. exact (fun V veq anc o ex => @same_name_spec V veq anc o ex). Qed.
Print Assumptions C99_same_name_refuted.

(** Different costs of one variable do share averages if they have plates the variable does not have: what then goes into
    the average is the cost averaged over these plates, and the name under which it goes in no longer depends on the
    cost. *)
Theorem C99_shared_refuted : forall (V : Type) (veq : V -> V -> bool) anc_unwrap (o : sops V) (o_exp : V -> V), is_ring o ->
  forall (nodes : nat -> @snode V (averages V)) FP c p base n lp d b L acc L' acc' sg sg1,
  plates_ok veq FP -> over FP (nd_t (nodes c)) -> over FP (nd_t (nodes p)) -> s_event_shape (nd_t (nodes c)) = [] -> no_gaps (wide (splates (nd_t (nodes c)))) ->
  nd_sto (nodes p) = Some (n, lp, true, Some (score_method veq anc_unwrap o o_exp (Some (moving_average veq anc_unwrap o d)))) ->
  foreign (nd_t (nodes c)) (splates (nd_t (nodes p))) <> [] -> (forall q, In q (foreign (nd_t (nodes c)) (splates (nd_t (nodes p)))) -> one_number q = b) ->
  add_parent veq anc_unwrap o o_exp nodes c base (L, acc, sg) p = Ok (L', acc', sg1) ->
  let key := slot (nd_name (nodes p)) (if b then "mul1" else "sum1") in
  (forall k, k <> key -> sg1 k = sg k) /\
  exists rc, averaged o FP (nd_t (nodes c)) (nd_t (nodes p)) rc /\
    (averageable veq rc -> shape (sg key) = [] -> shape (sg1 key) = [] /\ el (sg1 key) [] = decayed o d (el (sg key) []) [average o rc]).
Proof. exact (fun V veq anc o ex => @shared_spec V veq anc o ex). Qed.
Print Assumptions C99_shared_refuted.

(** The variable x of the witness program with a moving average. Costs 1 and 2 have only its plate, costs 3 and 4 the
    plate of y as well. *)
Definition n_cost (a b : Z) : stensor D := mkS 1 (mkten [2] (fun i => match i with [0] => (a, 7)%Z | _ => (b, 0)%Z end)) [w_x] 1 [] [0] false.
Definition n_wide (a : Z) : stensor D := mkS 2 (mkten [2; 3] (fun i => (nn (1 + ix 0 i + 10 * ix 1 i) * a, nn (ix 0 i))%Z)) [w_x; w_y] 2 [] [0] false.
Definition n_nodes (i : nat) : @snode D (averages D) :=
  match i with
  | 0 => mkNode t_x "x" (Some (2, w_lp w_prm, true, Some (score_method w_eq w_anc w_ops w_exp (Some (moving_average w_eq w_anc w_ops (5, 0)%Z)))))
  | 1 => mkNode (n_cost 2 4) "a" None
  | 2 => mkNode (n_cost 6 8) "b" None
  | 3 => mkNode (n_wide 1) "a" None
  | _ => mkNode (n_wide 2) "b" None
  end.
Definition n_heap : heap := fold_left (fun h ps => construct ps h) [[]; [0]; [0]; [0]; [0]] empty_heap.
Definition n_new : averages D := fun _ => tscalar (1, 0)%Z.
Definition n_value (r : res (pyval D * averages D)) : option (Z * Z) := match r with Ok (PT x, _) => Some (el (st x) []) | _ => None end.
Definition n_loss (c : nat) (sg : averages D) := surrogate_cost w_eq w_anc w_ops w_exp 20 n_heap n_nodes 100 c sg.
Definition n_after (r : res (pyval D * averages D)) : averages D := match r with Ok (_, sg) => sg | _ => n_new end.

Lemma n_over_cost : forall a b, over w_plates (n_cost a b).
Proof. intros a b. constructor; [wf_conc|intros p H; simpl in *; intuition|closed_conc]. Qed.
Lemma n_over_wide : forall a, over w_plates (n_wide a).
Proof. intros a. constructor; [wf_conc|intros p H; simpl in *; intuition|closed_conc]. Qed.
Lemma n_covered : forall c, c = 1 \/ c = 2 -> covered w_eq w_anc w_ops w_exp n_nodes w_plates c [0; c].
Proof.
  intros c Hc. constructor.
  - exact w_plates_ok.
  - destruct Hc as [-> | ->]; apply n_over_cost.
  - destruct Hc as [-> | ->]; reflexivity.
  - destruct Hc as [-> | ->]; intros p Hp; left; simpl in Hp; destruct Hp as [<-|[]]; simpl; intuition.
  - intros p n lp m [<-|[<-|[]]] E.
    + cbn in E. injection E as <- <- <-. split; [|split; [exact w_over_x|destruct Hc as [-> | ->]; reflexivity]].
      exists (Some (moving_average w_eq w_anc w_ops (5, 0)%Z)). split; [reflexivity|]. apply moving_keeps.
    + destruct Hc as [-> | ->]; discriminate.
Qed.
Example C99_own_witness : is_ring w_ops /\ covered w_eq w_anc w_ops w_exp n_nodes w_plates 1 [0; 1] /\ covered w_eq w_anc w_ops w_exp n_nodes w_plates 2 [0; 2] /\
  surrogate_order 20 n_heap 1 = Some [0; 1] /\ surrogate_order 20 n_heap 2 = Some [0; 2] /\
  (forall p q, In p [0; 1] -> In q [0; 2] -> slot (nd_name (n_nodes p)) "a" <> slot (nd_name (n_nodes q)) "b") /\
  n_value (n_loss 2 n_new) = Some (42, 3087)%Z /\ n_value (n_loss 2 (n_after (n_loss 1 n_new))) = Some (42, 3087)%Z.
Proof.
  split; [exact w_ring|]. split; [apply n_covered; auto|]. split; [apply n_covered; auto|]. split; [reflexivity|]. split; [reflexivity|].
  split; [intros p q [<-|[<-|[]]] [<-|[<-|[]]]; discriminate|]. vm_compute. auto.
Qed.

(** Costs 3 and 4 have different names, but the gradient of the loss of cost 4 depends on whether cost 3 was handled before. *)
Example C99_shared_witness : plates_ok w_eq w_plates /\ over w_plates (n_wide 1) /\ over w_plates (n_wide 2) /\ over w_plates t_x /\
  foreign (n_wide 2) (splates t_x) = [w_y] /\ one_number w_y = false /\
  nd_name (n_nodes 3) <> nd_name (n_nodes 4) /\
  n_value (n_loss 4 n_new) = Some (2724, 204372)%Z /\ n_value (n_loss 4 (n_after (n_loss 3 n_new))) = Some (2724, 694332)%Z.
Proof.
  split; [exact w_plates_ok|]. split; [apply n_over_wide|]. split; [apply n_over_wide|]. split; [exact w_over_x|]. split; [reflexivity|]. split; [reflexivity|].
  split; [discriminate|]. split; vm_compute; reflexivity.
Qed.

(** Both orders of costs 1 and 2. *)
Definition n_losses (cs : list nat) : option (list (Z * Z)) :=
  match surrogate_costs w_eq w_anc w_ops w_exp 20 n_heap n_nodes 100 cs n_new with
  | Ok (vs, _) => Some (map (fun v => match v with PT x => el (st x) [] | _ => (0, 0)%Z end) vs)
  | Err _ => None
  end.
Example C99_order_witness : (forall c, In c [1; 2] -> covered w_eq w_anc w_ops w_exp n_nodes w_plates c [0; c] /\ surrogate_order 20 n_heap c = Some [0; c]) /\
  (forall c d, In c [1; 2] -> In d [1; 2] -> c <> d -> forall p q, In p [0; c] -> In q [0; d] ->
    slot (nd_name (n_nodes p)) (nd_name (n_nodes c)) <> slot (nd_name (n_nodes q)) (nd_name (n_nodes d))) /\
  n_losses [1; 2] = Some [(18, 1287)%Z; (42, 3087)%Z] /\ n_losses [2; 1] = Some [(42, 3087)%Z; (18, 1287)%Z] /\
  n_losses [3; 4] <> option_map (@rev (Z * Z)) (n_losses [4; 3]).
Proof.
  split; [intros c [<-|[<-|[]]]; (split; [apply n_covered; auto|reflexivity])|].
  split; [intros c d [<-|[<-|[]]] [<-|[<-|[]]] Hn p q [<-|[<-|[]]] [<-|[<-|[]]]; try (now elim Hn); discriminate|].
  vm_compute. repeat split. discriminate.
Qed.

(** Cost 1 and another cost registered under its name, on the average that starts at 1: 25 + 5 (-4 * 18) - 4 * 42. *)
Definition n_twice (i : nat) : @snode D (averages D) := match i with 2 => mkNode (n_cost 6 8) "a" None | i => n_nodes i end.
Lemma n_averageable : forall a b, averageable w_eq (n_cost a b).
Proof.
  intros a b. assert (I : incl [w_x] w_plates) by (intros p [<-|[]]; left; reflexivity). constructor.
  - exact (sound_sub w_eq w_plates [w_x] w_sound I ltac:(repeat constructor; simpl; intuition discriminate)).
  - exact (ov_wf _ _ (n_over_cost a b)).
  - reflexivity.
  - exact (ov_closed _ _ (n_over_cost a b)).
  - intros C. apply w_acyclic. exact (cyclic_sub _ _ I C).
  - intros p [<-|[]]. split; [left; reflexivity|intros H; exact H].
Qed.
Example C99_same_name_witness : averageable w_eq (n_cost 2 4) /\ averageable w_eq (n_cost 6 8) /\ foreign (n_cost 2 4) (splates t_x) = [] /\
  match surrogate_costs w_eq w_anc w_ops w_exp 20 n_heap n_twice 100 [1; 2] n_new with
  | Ok (_, sg) => el (sg (slot "x" "a")) [] = (25 + 5 * (-4 * 18) + -4 * 42, 0)%Z
  | Err _ => False
  end.
Proof. split; [apply n_averageable|]. split; [apply n_averageable|]. split; [reflexivity|]. vm_compute. reflexivity. Qed.
