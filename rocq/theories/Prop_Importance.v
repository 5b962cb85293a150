(** C29: importance sampling. *)
From Coq Require Import String Reals List Arith ZArith Lia Lra.
From Verif Require Import Base Torch Plates Wrap Scalar Reduce Importance SpecImportance ImportanceProofs.
Import ListNotations.

(** C29. ImportanceSampling, any number of samples: the mean over independent draws from the proposal of the weighted
    sum of the costs is the mean of the cost under the target, if the proposal covers the target. *)
Theorem C29_single_partial : forall n p q cost, 1 <= n -> sums_to_one q -> covers q p ->
  mean_all (repeat q n)
    (fun vs => fold_right Rplus 0%R (map (fun i => Rmult (nth i (is_weights n p q vs) 0%R) (cost (nth i vs 0))) (seq 0 n)))
  = mean p cost.
Proof. exact is_weights_mean. Qed.
Print Assumptions C29_single_partial.

(** A biased coin proposes for a fair one; the third option is impossible under both. *)
Example C29_witness : sums_to_one [/ 4; 3 / 4; 0]%R /\ covers [/ 4; 3 / 4; 0]%R [/ 2; / 2; 0]%R /\
  is_weights 2 [/ 2; / 2; 0]%R [/ 4; 3 / 4; 0]%R [0; 1] = [1; / 3]%R /\
  mean [/ 2; / 2; 0]%R (fun v => if v =? 1 then 6%R else 0%R) = 3%R.
Proof.
  split; [unfold sums_to_one, mean; cbn; lra|]. split; [split; auto; intros v Hv; destruct v as [|[|[|v]]]; cbn; lra || (cbn in Hv; lia)|].
  split; [|unfold mean; cbn; lra]. unfold is_weights. cbn. f_equal; [field|]. f_equal. field.
Qed.

(** ImportanceSampleDecoder with epsilon 0: the mean of the weighted cost of the sequences, for any number of variables,
    conditional distributions and proposals that may look at all sequences so far. *)
Theorem C29_sequence_partial : forall n, 1 <= n -> forall target proposal,
  (forall seqs i, sums_to_one (proposal seqs i)) ->
  (forall seqs i, i < length seqs -> covers (proposal seqs i) (target (nth i seqs []))) ->
  forall cost t, 1 <= t ->
  process (fun st : is_state => map (proposal (map fst st)) (seq 0 (length st))) (is_decode 0%R n target proposal) t
          (repeat ([], None) n) (weighted_cost cost)
  = seq_mean target t [] cost.
Proof. exact chain_start. Qed.
Print Assumptions C29_sequence_partial.

(** Conditional distributions that depend on the value before, and a proposal that depends on the number of sequences. *)
Example C29_sequence_witness :
  let target := fun s => match s with 1 :: _ => [0; 1]%R | _ => [/ 2; / 2]%R end in
  let proposal := fun (seqs : list (list nat)) i => if i =? length seqs then [/ 4; 3 / 4]%R else [/ 2; / 2]%R in
  (forall seqs i, sums_to_one (proposal seqs i)) /\
  (forall seqs i, i < length seqs -> covers (proposal seqs i) (target (nth i seqs []))) /\
  seq_mean target 2 [] (fun s => if nth 1 s 0 =? 1 then 1%R else 0%R) = (3 / 4)%R.
Proof.
  cbn zeta. split; [|split].
  - intros seqs i. unfold sums_to_one, mean. destruct (i =? length seqs); cbn; lra.
  - intros seqs i Hi. split; [destruct (nth i seqs []) as [|[|[|x]] s], (i =? length seqs); reflexivity|].
    intros v Hv H. destruct v as [|[|v]]; [exfalso|exfalso|]; [destruct (i =? length seqs); cbn in H; lra..|].
    destruct (nth i seqs []) as [|[|[|x]] s]; cbn in Hv; lia.
  - unfold seq_mean, mean. cbn. lra.
Qed.

(** The weight of a sequence is the product of its ratios divided by the number of samples; for every epsilon and every
    draw. *)
Theorem C29_products : forall n, 1 <= n -> forall eps target q vs vss x,
  In x (fold_left (is_decode eps n target (fun seqs i => q (nth i seqs []))) (vs :: vss) (repeat ([], None) n)) ->
  snd x = Some (Rdiv (path_ratio eps target q (fst x)) (INR n)).
Proof.
  intros n Hn eps target q vs vss x Hx. destruct (decode_ratios n Hn target _ eps q (vs :: vss) (repeat ([], None) n) eq_refl) with (x := x) as [A B]; auto.
  - intros y Hy. apply repeat_spec in Hy. subst y. cbn [fst snd so_far]. unfold path_ratio. cbn. lra.
  - specialize (B ltac:(discriminate)). destruct (snd x) as [w|]; [|congruence]. cbn in A. congruence.
Qed.
Print Assumptions C29_products.

(** With a positive epsilon (1e-7 by default) the sequence weights are biased: already for one variable the mean of the sum of
    the weights, that is the estimate of the constant cost 1, is below 1. *)
Theorem C29_epsilon_refuted : forall n, 1 <= n -> forall eps p q, (0 < eps)%R -> length q = length p ->
  (forall v, v < length q -> (0 < nth v q 0)%R) -> (forall v, v < length p -> (0 <= nth v p 0)%R) -> sums_to_one q -> sums_to_one p ->
  (process (fun st : is_state => map (fun _ => q) (seq 0 (length st))) (is_decode eps n (fun _ => p) (fun _ _ => q)) 1
           (repeat ([], None) n) (weighted_cost (fun _ => 1%R)) < 1)%R.
Proof.
  intros n Hn eps p q He HL Hq Hp Sq Sp. pose proof (eps_total n Hn (fun _ => p) (fun _ _ => q) eps q eq_refl Sq) as E.
  unfold laws in E. rewrite E. apply eps_below; auto.
Qed.
Print Assumptions C29_epsilon_refuted.

(** A distribution with independent components: the weights keep the dimension of the components, so that the reduced cost is not
    a number but a vector, one entry for each component. *)
Theorem C29_components_refuted : forall {V} (o : sops V) veq times_n div (tp pp c : ten V),
  shape tp = [2; 3] -> shape pp = [2; 3] -> shape c = [2] ->
  exists w, is_weight_tensor times_n div tp pp = Ok w /\ shape w = [2; 3] /\
  (forall i j, i < 2 -> j < 3 -> el w [i; j] = div (el tp [i; j]) (times_n (el pp [i; j]))) /\
  let p := mkPlate PlainPlate "z"%string 2 (WStorch 7 w ["z"%string]) [] in
  exists r, plate_reduce veq (fun _ x => Ok x) o top_ctx p (mkS 0 c [p] 1 [] [] true) false 20 = Ok (PT r) /\ shape (st r) = [3].
Proof.
  intros V o veq times_n div [s1 e1] [s2 e2] [s3 e3] H1 H2 H3. cbn in H1, H2, H3. subst. eexists. split; [reflexivity|]. split; [reflexivity|].
  split; [intros i j _ _; reflexivity|]. cbn zeta. eexists. split; [vm_compute; reflexivity|reflexivity].
Qed.
Print Assumptions C29_components_refuted.
