(** C28: exact expectations by enumeration. *)
From Coq Require Import Reals List Arith Bool Lia Lra.
From Verif Require Import Base Torch Enumerate EnumerateHot SpecEnumerate EnumerateProofs EnumerateHotProofs.
Import ListNotations.

(** C28. A support of at least two values, plates that all have a dimension (the batch shape starts with [pd]) and at most
    one further dimension of independent components: with the support within the budget, every joint outcome is the value of
    exactly one sample, every sample is a joint outcome, the weights are positive and sum to one, and the weighted sum of any
    cost is its exact expectation; for every choice [s] of the plates. Missing for the full claim: more than one dimension of
    components, plates of size one, and a support of one value; the claim is false for these (C28_two_refuted,
    C28_flat_refuted, C28_plate_refuted, C28_single_refuted). *)
Theorem C28_exact_partial : forall e budget pd sizes, 2 <= e -> sizes = [] \/ (exists d, sizes = [d] /\ 1 <= d) ->
  let c := fold_right Nat.mul 1 sizes in e ^ c <= budget ->
  exists f, enumerate e budget (length pd) (pd ++ sizes) = Ok (e ^ c, f) /\
    forall s,
      (forall t, joint e c t -> exists i, i < e ^ c /\ map (f i) (events_of s sizes) = t /\
         forall j, j < e ^ c -> map (f j) (events_of s sizes) = t -> j = i) /\
      (forall i, i < e ^ c -> joint e c (map (f i) (events_of s sizes))) /\
      (forall lp, (forall x, length (lp x) = e) ->
         (forall i, (0 < enumerate_weight lp (events_of s sizes) (f i))%R) /\
         ((forall x, fold_right Rplus 0%R (map exp (lp x)) = 1%R) ->
            fold_right Rplus 0%R (map (fun i => enumerate_weight lp (events_of s sizes) (f i)) (seq 0 (e ^ c))) = 1%R) /\
         (forall cost, fold_right Rplus 0%R (map (fun i => Rmult (enumerate_weight lp (events_of s sizes) (f i))
                                                               (cost (map (f i) (events_of s sizes)))) (seq 0 (e ^ c)))
                       = expectation (map lp (events_of s sizes)) cost)).
Proof.
  intros e budget pd sizes He Hs c Hb. destruct (enumerate_spec e budget pd sizes He Hs Hb) as [f [E H]]. exists f. split; auto.
  intros s. destruct (H s) as [A [B C]]. split; auto. split; auto. intros lp Hl. split; [|split].
  - intros i. apply exp_pos.
  - intros Hn. specialize (C lp Hl (fun _ => 1%R)). cbn beta in C. rewrite expectation_one in C.
    + rewrite <- C. unfold c. f_equal. apply map_ext. intros i. lra.
    + apply Forall_forall. intros l HI. apply in_map_iff in HI as [x [<- _]]. auto.
  - apply C. auto.
Qed.
Print Assumptions C28_exact_partial.

(** More samples than the budget: always ValueError. *)
Theorem C28_budget : forall e budget pd sizes, (forall d, In d sizes -> 1 <= d) -> budget < e ^ (fold_right Nat.mul 1 sizes) ->
  enumerate e budget (length pd) (pd ++ sizes) = Err ValueError.
Proof. exact enumerate_budget. Qed.
Print Assumptions C28_budget.

(** Two or more dimensions of components, the first above one: always an error, although within the budget. *)
Theorem C28_two_refuted : forall e budget pd d1 d2 r, 2 <= e -> 2 <= d1 -> (forall d, In d (d2 :: r) -> 1 <= d) ->
  e ^ (fold_right Nat.mul 1 (d1 :: d2 :: r)) <= budget -> enumerate e budget (length pd) (pd ++ d1 :: d2 :: r) = Err RuntimeError.
Proof. exact enumerate_two. Qed.
Print Assumptions C28_two_refuted.

(** Components of shape [1, d]: no error, but an outcome with two different components is the value of no sample, and the
    outcome of zeros is the value of several. *)
Theorem C28_flat_refuted : forall e budget d, 2 <= e -> 2 <= d -> e ^ d <= budget ->
  exists f, enumerate e budget 0 [1; d] = Ok (e ^ d, f) /\
    (forall i, (f i [0; 0], f i [0; 1]) <> (0, 1)) /\
    e < e ^ d /\ (forall idx, f 0 idx = 0 /\ f e idx = 0).
Proof.
  intros e budget d He Hd Hb. destruct (enumerate_constant e budget d He Hd Hb) as [f [E [A B]]]. exists f. split; auto.
  split; [|split].
  - intros i Hc. injection Hc as H0 H1. destruct (Nat.lt_ge_cases i e) as [L|L]; [rewrite A in H0, H1 by auto; lia|].
    rewrite B in H1 by auto. lia.
  - rewrite <- (Nat.pow_1_r e) at 1. apply Nat.pow_lt_mono_r; lia.
  - intros idx. split; [apply A; lia|apply B; lia].
Qed.
Print Assumptions C28_flat_refuted.

(** A plate of size one has no dimension but is counted: with d components only the e constant outcomes are enumerated, the
    outcome 0, 1, ... is not, and the weights of two fair bits sum to one half. *)
Theorem C28_plate_refuted : forall e budget d, 2 <= e -> 2 <= d -> e <= budget ->
  exists f, enumerate e budget 1 [d] = Ok (e, f) /\
    (forall i, i < e -> (f i [0], f i [1]) <> (0, 1)) /\
    (e = 2 -> fold_right Rplus 0%R (map (fun i => enumerate_weight (fun _ => [ln (/ 2); ln (/ 2)]) [[0]; [1]] (f i)) (seq 0 2)) = (/ 2)%R).
Proof.
  intros e budget d He Hd Hb. destruct (enumerate_singleton_plate e budget d He Hb) as [f [E A]]. exists f. split; auto. split.
  - intros i Hi Hc. injection Hc as H0 H1. rewrite A in H0, H1 by auto. lia.
  - intros ->. unfold enumerate_weight. cbn [map seq fold_right]. rewrite !A by lia. cbn [nth].
    rewrite Rplus_0_r, exp_plus, exp_ln by lra. lra.
Qed.
Print Assumptions C28_plate_refuted.

(** A support of one value: always an error. *)
Theorem C28_single_refuted : forall budget pd sizes, 1 <= budget -> enumerate 1 budget (length pd) (pd ++ sizes) = Err IndexError.
Proof.
  intros budget pd sizes Hb. unfold enumerate.
  replace (skipn (length pd) (pd ++ sizes)) with sizes by (rewrite skipn_app, skipn_all, Nat.sub_diag; reflexivity).
  assert (G : forall l cp, fst (fold_left (fun '(amt, cp) d => (amt ^ d, match cp with Some (S c) => Some (S c ^ d) | _ => Some d end)) l (1, cp)) = 1).
  { induction l as [|d l IH]; intros cp; cbn [fold_left fst]; auto. rewrite Nat.pow_1_l. apply IH. }
  unfold count_sizes. specialize (G sizes (match sizes with [] => Some 1 | _ => None end)).
  destruct (fold_left _ sizes _) as [amt cp]. cbn [fst] in G. subst amt. destruct (Nat.ltb_spec budget 1); [lia|]. reflexivity.
Qed.
Print Assumptions C28_single_refuted.

(** C28 for distributions of one-hot vectors: sample [i] holds, at every event, the one-hot vector of the option that is enumerated there for a
    distribution of numbers, for which C28_exact_partial holds; and it raises the same errors. *)
Theorem C28_one_hot_partial : forall e budget pd sizes, 2 <= e -> sizes = [] \/ (exists d, sizes = [d] /\ 1 <= d) ->
  let c := fold_right Nat.mul 1 sizes in e ^ c <= budget ->
  exists f g, enumerate e budget (length pd) (pd ++ sizes) = Ok (e ^ c, f) /\ enumerate_hot e budget (length pd) (pd ++ sizes) = Ok (e ^ c, g) /\
    forall i s x, i < e ^ c -> In x (events_of s sizes) -> f i x < e /\ g i x = map (fun j => if j =? f i x then 1 else 0) (seq 0 e).
Proof. exact hot_values. Qed.
Print Assumptions C28_one_hot_partial.
Theorem C28_one_hot_errors : forall e budget np batch x, enumerate e budget np batch = Err x <-> enumerate_hot e budget np batch = Err x.
Proof. exact hot_errors. Qed.
Print Assumptions C28_one_hot_errors.

(** Components of shape [1, d]: most samples are vectors of zeros, which no one-hot variable can take. *)
Theorem C28_one_hot_flat_refuted : forall e budget d, 2 <= e -> 2 <= d -> e ^ d <= budget ->
  exists g, enumerate_hot e budget 0 [1; d] = Ok (e ^ d, g) /\ e < e ^ d /\ forall i idx, e <= i -> g i idx = repeat 0 e.
Proof.
  intros e budget d He Hd Hb. destruct (hot_flat e budget d He Hd Hb) as [g [E H]]. exists g. split; [exact E|]. split; [|exact H].
  rewrite <- (Nat.pow_1_r e) at 1. apply Nat.pow_lt_mono_r; lia.
Qed.
Print Assumptions C28_one_hot_flat_refuted.
Example C28_one_hot_witness : exists g, enumerate_hot 2 100 1 [5; 2] = Ok (4, g) /\
  map (fun i => map (g i) (events_of [4] [2])) (seq 0 4) = [[[1;0];[1;0]];[[1;0];[0;1]];[[0;1];[1;0]];[[0;1];[0;1]]].
Proof. eexists. split; reflexivity. Qed.

(** Two components with three values in a plate of size five. *)
Example C28_witness : exists f, enumerate 3 100 1 [5; 2] = Ok (9, f) /\
  map (fun i => map (f i) (events_of [4] [2])) (seq 0 9) = [[0;0];[0;1];[0;2];[1;0];[1;1];[1;2];[2;0];[2;1];[2;2]] /\
  (2 <= 3 /\ 3 ^ fold_right Nat.mul 1 [2] <= 100) /\ joint 3 2 [2; 0].
Proof. eexists. split; [reflexivity|]. split; [reflexivity|]. split; [split; [lia|apply Nat.leb_le; reflexivity]|]. split; [reflexivity|]. repeat constructor. Qed.
