(** C36: annealing of temperatures and counting of iterations over backward calls. *)
From Coq Require Import List Arith Bool Lia Reals Lra.
From Coq Require Import Relations.Relation_Operators Relations.Operators_Properties.
From Verif Require Import Base Graph Training SpecGraph SpecTraining TrainingProofs.
Import ListNotations.

(** C36. Over any number of backward calls on any graphs, a method with an annealing rate in [0, 1) and a positive
    temperature: the temperature does not increase, stays positive, and stays above the smaller of its first value and
    (1 - rate) times min_temperature. Missing for the full claim: min_temperature itself is no bound, see
    C36_minimum_refuted. *)
Theorem C36_temperature_partial : forall before after m, backward_calls before after ->
  (0 <= annealing_rate (before m) < 1)%R -> (0 < temperature (before m))%R ->
  (temperature (after m) <= temperature (before m))%R /\ (0 < temperature (after m))%R /\
  (Rmin (temperature (before m)) ((1 - annealing_rate (before m)) * min_temperature (before m)) <= temperature (after m))%R.
Proof. intros before after m H H1 H2. apply annealing; [exact H|split; assumption]. Qed.
Print Assumptions C36_temperature_partial.

(** Until it has reached min_temperature, the temperature falls by the factor 1 - rate with every update; from then on it
    stays what it is. *)
Theorem C36_annealing : forall n m, (0 <= annealing_rate m < 1)%R -> (0 < temperature m)%R ->
  ((forall i, i < n -> (min_temperature m < (1 - annealing_rate m) ^ i * temperature m)%R) ->
   temperature (Nat.iter n update_parameters m) = ((1 - annealing_rate m) ^ n * temperature m)%R) /\
  ((temperature m <= min_temperature m)%R -> temperature (Nat.iter n update_parameters m) = temperature m).
Proof. exact annealing_both. Qed.
Print Assumptions C36_annealing.

(** A cost (2) with one ancestor sampled by method 0 (node 0). *)
Definition t_heap : heap := construct [1] (construct [0] (construct [] empty_heap)).
Definition t_stoch (n : nat) : bool := n =? 0.
Definition t_method (n : nat) : option nat := if n =? 0 then Some 0 else None.
Definition t_ms (_ : nat) : mstate := mkM 7 1%R (1 / 2)%R (3 / 4)%R.

Example C36_witness : exists after, backward_calls t_ms after /\ temperature (after 0) = (1 / 2)%R /\ iterations (after 0) = 8 /\
  (0 <= annealing_rate (t_ms 0) < 1)%R /\ (0 < temperature (t_ms 0))%R.
Proof.
  exists (update_loop t_method [0] t_ms). split.
  - eapply Relation_Operators.rt1n_trans; [|apply rt1n_refl]. exists 9, t_heap, t_stoch, t_method, [2], true. reflexivity.
  - unfold update_loop, t_method, set_at, update_parameters, anneal, t_ms. cbn. destruct (Rlt_dec (3 / 4) 1); [|lra]. cbn. repeat split; lra.
Qed.

(** A single backward call can bring the temperature below min_temperature. *)
Theorem C36_minimum_refuted : exists before after m, backward_call before after /\
  (min_temperature (before m) < temperature (before m))%R /\ (temperature (after m) < min_temperature (before m))%R.
Proof.
  exists t_ms, (update_loop t_method [0] t_ms), 0. split.
  - exists 9, t_heap, t_stoch, t_method, [2], true. reflexivity.
  - unfold update_loop, t_method, set_at, update_parameters, anneal, t_ms. cbn. destruct (Rlt_dec (3 / 4) 1); [|lra]. cbn. lra.
Qed.
Print Assumptions C36_minimum_refuted.

(** In every finite graph a backward call adds to the iterations of a method the number of distinct tensors it sampled
    that some cost depends on, and leaves unused methods unchanged. Missing for the full claim: that this is one step,
    see C36_twice_refuted. *)
Theorem C36_iterations_partial : forall h stoch method costs univ ms l, closed_under (h_parents h) univ -> incl costs univ ->
  sampled_nodes h stoch costs l ->
  exists enough ms', (forall fuel, enough <= fuel -> backward_methods fuel h stoch method costs true ms = Some ms') /\
    forall m, iterations (ms' m) = uses method m l + iterations (ms m) /\ (uses method m l = 0 -> ms' m = ms m).
Proof.
  intros h stoch method costs univ ms l Hcl Hi [D X].
  destruct (backward_updates h stoch method costs univ ms Hcl Hi) as [l' [[D' X'] [enough [ms' [H1 H2]]]]].
  exists enough, ms'. split; [exact H1|]. intros m. rewrite H2.
  rewrite (uses_unique method m l l') by (auto; intros n; rewrite X, X'; reflexivity). split.
  - apply iterations_iter.
  - intros ->. reflexivity.
Qed.
Print Assumptions C36_iterations_partial.

(** A cost (3) computed from two samples (0 and 1) of method 0. *)
Definition u_heap : heap := construct [2] (construct [0; 1] (construct [] (construct [] empty_heap))).
Definition u_stoch (n : nat) : bool := n <? 2.
Definition u_method (n : nat) : option nat := if n <? 2 then Some 0 else None.
Lemma u_reach : forall n, reachable (h_parents u_heap) false 3 n <-> n = 3 \/ n = 2 \/ n = 0 \/ n = 1.
Proof.
  assert (F : forall v w, follows (h_parents u_heap) false v w <-> (v = 3 /\ w = 2) \/ (v = 2 /\ (w = 0 \/ w = 1))).
  { intros v w. split.
    - intros (d & H & _). do 4 (destruct v as [|v]; [cbn in H; intuition congruence|]). cbn in H. destruct H.
    - intros [[-> ->]|[-> [-> | ->]]]; exists false; cbn; split; auto; discriminate. }
  intros n. split.
  - intros H. unfold reachable in H. apply clos_rt1n_rt in H. apply clos_rt_rtn1 in H. induction H as [|y z Hyz _ IH]; auto.
    apply F in Hyz. lia.
  - intros H. destruct H as [->|[->|H]].
    + constructor.
    + eapply Relation_Operators.rt1n_trans; [apply F; auto|constructor].
    + eapply Relation_Operators.rt1n_trans; [apply F; left; auto|].
      eapply Relation_Operators.rt1n_trans; [apply F; right; split; [reflexivity|]|constructor]. lia.
Qed.
Example C36_witness_count : closed_under (h_parents u_heap) [0; 1; 2; 3] /\ incl [3] [0; 1; 2; 3] /\
  sampled_nodes u_heap u_stoch [3] [0; 1] /\ uses u_method 0 [0; 1] = 2 /\ uses t_method 0 [0] = 1.
Proof.
  split; [|split; [intros x [<-|[]]; cbn; auto|split; [|split; reflexivity]]].
  - intros v w d Hv H. do 4 (destruct v as [|v]; [cbn in H; cbn; intuition congruence|]). cbn in H. destruct H.
  - split; [repeat constructor; cbn; intuition discriminate|]. intros n. split.
    + intros [<-|[<-|[]]]; (split; [reflexivity|]); exists 3; (split; [left; auto|]); apply u_reach; auto.
    + intros [Hs [c [[<-|[]] Hr]]]. apply u_reach in Hr. destruct Hr as [->|[->|[->| ->]]]; cbn in Hs; try discriminate; cbn; auto.
Qed.

(** A method sampled from twice advances by two iterations in one backward call. *)
Theorem C36_twice_refuted : forall ms, exists ms', backward_methods 9 u_heap u_stoch u_method [3] true ms = Some ms' /\
  iterations (ms' 0) = 2 + iterations (ms 0).
Proof.
  intros ms. eexists. split; [reflexivity|]. rewrite update_loop_spec, iterations_iter. reflexivity.
Qed.
Print Assumptions C36_twice_refuted.
