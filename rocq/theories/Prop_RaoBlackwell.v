(** C50: the Rao-Blackwellised score function. *)
From Coq Require Import String List Arith Bool ZArith Lia Reals Lra.
From Verif Require Import Base Torch Plates Wrap OrderPlates Scalar Reduce Graph Surrogate Estimators RaoBlackwell SpecTensor SpecWrap SpecOrder
  SpecReduce SpecGraph SpecSurrogate SpecRaoBlackwell Dual BiasProofs2 ReduceProofs2 RaoBlackwellProofs RaoBatchProofs2.
Import ListNotations.
Open Scope string_scope.
Open Scope nat_scope.
Open Scope list_scope.

(** C50, for one variable without further plates, floating point samples and k > 1. [lp v] and [cost v] are the
    log-probability and the cost of option [v] of [d], as functions of the parameters; [sel] are the k - 1 options that are
    summed over, and the last sample is [v] with the probability [law v] of [v] among the others. The loss the program
    computes, averaged over the sampled option, is the expected cost; as numbers here are functions of the parameters, so
    are all its derivatives. Missing for the full claim: sequences of variables (other plates: C50_batched_partial); it is
    false for integer samples and for k = 1 (below). *)
Theorem C50_unbiased_partial : forall (V S : Type) (veq : V -> V -> bool) anc_unwrap (o : sops V) (o_exp : V -> V), is_ring o ->
  evaluates o o_exp -> (forall x y, o_exp (o_add o x y) = o_mul o (o_exp x) (o_exp y)) ->
  forall name obj d (lp cost : nat -> V) (sel : list nat) (law : nat -> V) cast (x : nat -> ten V) (sg : S) base,
  (forall v, cast v = v) -> sel <> [] -> NoDup sel -> (forall v, In v sel -> v < d) ->
  (forall v, exists ev, shape (x v) = length sel + 1 :: ev) ->
  osum o (map law (rest d sel)) = o_one o ->
  (forall v, In v (rest d sel) ->
     o_mul o (law v) (o_sub o (o_one o) (osum o (map (fun v => o_det o (o_exp (lp v))) sel))) = o_det o (o_exp (lp v))) ->
  exists loss : nat -> V, (forall v, exists t, backward_value veq anc_unwrap o o_exp 20 rb_heap
      (rb_nodes veq anc_unwrap o o_exp name obj (length sel + 1) (map lp (sel ++ [v])) cast (x v) (map cost (sel ++ [v]))) [1] sg base = Ok t /\
      shape t = [] /\ el t [] = loss v) /\
    osum o (map (fun v => o_mul o (law v) (loss v)) (rest d sel)) = osum o (map (fun v => o_mul o (o_exp (lp v)) (cost v)) (seq 0 d)).
Proof. exact (fun V S veq anc o ex H1 H2 H3 name obj => @rb_unbiased V S veq anc o H1 ex H2 H3 name obj). Qed.
Print Assumptions C50_unbiased_partial.

(** With fewer options than k there is no sampling: the loss is the expected cost. *)
Theorem C50_enumerated : forall (V S : Type) (veq : V -> V -> bool) anc_unwrap (o : sops V) (o_exp : V -> V), is_ring o ->
  evaluates o o_exp -> forall name obj k (opts : list nat) (lp cost : nat -> V) cast x (sg : S) base,
  2 <= length opts -> length opts <> k -> (exists ev, shape x = length opts :: ev) ->
  exists t, backward_value veq anc_unwrap o o_exp 20 rb_heap
      (rb_nodes veq anc_unwrap o o_exp name obj k (map lp opts) cast x (map cost opts)) [1] sg base = Ok t /\ shape t = [] /\
    el t [] = osum o (map (fun v => o_mul o (o_exp (lp v)) (cost v)) opts).
Proof. exact (fun V S veq anc o ex H1 H2 name obj => @rb_loss_few V S veq anc o H1 ex H2 name obj). Qed.
Print Assumptions C50_enumerated.

(** Three options with probabilities 1/2, 1/4, 1/4 and derivatives 1/2, -1/4, -1/4; the first is summed over. *)
Definition rb_p (v : nat) : RD := match v with 0 => (ln (1/2), 1)%R | _ => (ln (1/4), -1)%R end.
Definition rb_c (v : nat) : RD := match v with 0 => (3, 0)%R | 1 => (5, 1)%R | _ => (7, 0)%R end.
Definition rb_half (v : nat) : RD := ((1/2)%R, 0%R).
Lemma rb_p_exp : forall v, rd_exp (rb_p v) = match v with 0 => (1/2, 1/2)%R | _ => (1/4, -1/4)%R end.
Proof.
  intros [|v]; unfold rb_p, rd_exp, dual_exp, real_ops; cbn [fst snd o_mul]; rewrite exp_ln by lra; f_equal; lra.
Qed.
Example C50_witness : rest 3 [0] = [1; 2] /\
  osum rd_ops (map rb_half (rest 3 [0])) = o_one rd_ops /\
  (forall v, In v (rest 3 [0]) ->
     o_mul rd_ops (rb_half v) (o_sub rd_ops (o_one rd_ops) (osum rd_ops (map (fun v => o_det rd_ops (rd_exp (rb_p v))) [0]))) = o_det rd_ops (rd_exp (rb_p v))) /\
  osum rd_ops (map (fun v => o_mul rd_ops (rd_exp (rb_p v)) (rb_c v)) (seq 0 3)) = (9/2, -5/4)%R.
Proof.
  split; [reflexivity|]. split; [|split].
  - unfold rb_half, osum, rd_ops, dual_ops, real_ops. cbn. f_equal; lra.
  - intros v Hv. change (rest 3 [0]) with [1; 2] in Hv. cbn [map]. rewrite (rb_p_exp 0).
    destruct Hv as [<-|[<-|[]]]; rewrite rb_p_exp; unfold rb_half, osum, rd_ops, dual_ops, real_ops; cbn; f_equal; lra.
  - cbn [seq map]. rewrite !rb_p_exp. unfold rb_c, osum, rd_ops, dual_ops, real_ops. cbn. f_equal; lra.
Qed.

(** For integer samples (Categorical) the log-probability is stored in a tensor of integers: the sampled option has no score
    term, and the derivative of the expected loss is wrong. *)
Theorem C50_integer_refuted : exists d (lp cost : nat -> RD) sel (law : nat -> RD), sel <> [] /\ NoDup sel /\ (forall v, In v sel -> v < d) /\
  osum rd_ops (map law (rest d sel)) = o_one rd_ops /\
  (forall v, In v (rest d sel) -> o_mul rd_ops (law v) (o_sub rd_ops (o_one rd_ops)
     (osum rd_ops (map (fun v => o_det rd_ops (rd_exp (lp v))) sel))) = o_det rd_ops (rd_exp (lp v))) /\
  forall (S : Type) name obj (round : R -> R) x (sg : S) base, (exists ev, shape x = length sel + 1 :: ev) ->
  exists loss, (forall v, exists t, backward_value rd_eq rd_anc rd_ops rd_exp 20 rb_heap
      (rb_nodes rd_eq rd_anc rd_ops rd_exp name obj (length sel + 1) (map lp (sel ++ [v])) (fun y => (round (fst y), 0%R)) x (map cost (sel ++ [v])))
        [1] sg base = Ok t /\ el t [] = loss v) /\
    fst (osum rd_ops (map (fun v => o_mul rd_ops (law v) (loss v)) (rest d sel))) =
      fst (osum rd_ops (map (fun v => o_mul rd_ops (rd_exp (lp v)) (cost v)) (seq 0 d))) /\
    snd (osum rd_ops (map (fun v => o_mul rd_ops (law v) (loss v)) (rest d sel))) <>
      snd (osum rd_ops (map (fun v => o_mul rd_ops (rd_exp (lp v)) (cost v)) (seq 0 d))).
Proof.
  exists 3, rb_p, rb_c, [0], rb_half. destruct C50_witness as [_ [W1 [W2 W3]]].
  split; [discriminate|]. split; [repeat constructor; intros []|]. split; [intros v [<-|[]]; lia|]. split; [exact W1|]. split; [exact W2|].
  intros S name obj round x sg base Hx.
  exists (fun v => o_add rd_ops (osum rd_ops (map (fun v => o_mul rd_ops (rd_exp (rb_p v)) (rb_c v)) [0]))
      (o_mul rd_ops (o_sub rd_ops (o_one rd_ops) (osum rd_ops (map (fun v => o_det rd_ops (rd_exp (rb_p v))) [0]))) (rb_c v))).
  split; [|split].
  - intros v. destruct (rb_integer (S := S) rd_eq rd_anc rd_ops rd_ring rd_exp rd_evaluates name obj [0] v rb_p rb_c
      (fun y => (round (fst y), 0%R)) x sg base) as [t [E1 [_ E3]]]; auto; [discriminate|]. exists t. split; [exact E1|exact E3].
  - rewrite W3. change (rest 3 [0]) with [1; 2]. cbn [map]. rewrite !rb_p_exp. unfold rb_half, rb_c, osum, rd_ops, dual_ops, real_ops. cbn. lra.
  - rewrite W3. change (rest 3 [0]) with [1; 2]. cbn [map]. rewrite !rb_p_exp. unfold rb_half, rb_c, osum, rd_ops, dual_ops, real_ops. cbn. lra.
Qed.
Print Assumptions C50_integer_refuted.

(** With k = 1 the plate has one sample and no dimension: the estimator raises. *)
Theorem C50_single_refuted : forall (V S : Type) (veq : V -> V -> bool) anc_unwrap (o : sops V) name log_probs cast (x : @sample V) (c : stensor V)
  nm (sg : S) base p, callable veq [c] -> get_plate (sm_t x) name = Ok p -> pn p = 1 -> wf (sm_t x) -> pname p = name ->
  rb_estimator veq anc_unwrap o name 1 log_probs cast x c nm sg base = Err IndexError.
Proof. exact (fun V S veq anc o => @rb_single V S veq anc o). Qed.
Print Assumptions C50_single_refuted.

Example C50_single_witness : let p := rb_plate rd_ops rd_exp "z" 7 1 [rb_p 0] in
  let a := mkS 0 (tscalar (1, 0)%R) [p] 0 [] [] true in
  callable rd_eq [a] /\ get_plate a "z" = Ok p /\ pn p = 1 /\ wf a /\ pname p = "z".
Proof.
  cbv zeta. assert (W : wf (mkS 0 (tscalar (1, 0)%R) [rb_plate rd_ops rd_exp "z" 7 1 [rb_p 0]] 0 [] [] true)).
  { constructor; simpl; auto; [repeat constructor; intros []|]. intros p [<-|[]]. simpl. lia. }
  split; [|split; [reflexivity|split; [reflexivity|split; [exact W|reflexivity]]]].
  apply (SurrogateProofs.over_callable rd_eq [rb_plate rd_ops rd_exp "z" 7 1 [rb_p 0]]).
  - apply (lone_sound rd_eq rd_anc); [reflexivity|reflexivity|simpl; lia|apply PlateEqProofs.peq_refl].
  - constructor; [exact W|constructor].
  - intros t [<-|[]]. apply incl_refl.
Qed.

(** C50 for one variable with other plates [ys] around it: every row [r] (a choice of samples of [ys]) has its own log-probabilities
    [lp r], costs [cost r], summed options [sel r] and independently sampled option [g r]. The loss, averaged over the sampled options
    of all rows, is the weighted sum over the rows of their expected costs. The dimensions of the cost are in the order of [ys] and then
    the samples; with another order it is false (below). Missing for the full claim: sequences of variables. *)
Theorem C50_batched_partial : forall (V S : Type) (veq : V -> V -> bool) anc_unwrap (o : sops V) (o_exp : V -> V), is_ring o ->
  evaluates o o_exp -> (forall x y, o_exp (o_add o x y) = o_mul o (o_exp x) (o_exp y)) ->
  forall name obj k d (ys : list (plate V)) (lp cost : list nat -> nat -> V) (sel : list nat -> list nat) (law : list nat -> nat -> V) cast
    (x : (list nat -> nat) -> ten V) (sg : S) base g0,
  (forall v, cast v = v) -> 2 <= k -> (forall r, length (sel r) + 1 = k /\ NoDup (sel r) /\ forall v, In v (sel r) -> v < d) ->
  (forall g, exists ev, shape (x g) = map pn ys ++ k :: ev) ->
  plates_ok veq ys -> closed ys -> (forall y, In y ys -> 2 <= pn y) -> (forall p, ancestry ys p -> pname p <> name) ->
  (forall r, osum o (map (law r) (rest d (sel r))) = o_one o) ->
  (forall r v, In v (rest d (sel r)) ->
     o_mul o (law r v) (o_sub o (o_one o) (osum o (map (fun v => o_det o (o_exp (lp r v))) (sel r)))) = o_det o (o_exp (lp r v))) ->
  exists loss : (list nat -> nat) -> V, (forall g, exists t, backward_value veq anc_unwrap o o_exp 20 rb_heap
      (rb_batch_nodes veq anc_unwrap o o_exp name obj k ys (ys ++ [rb_batch_plate o o_exp name obj k ys (at_rows (map pn ys) k sel g lp)])
         (at_rows (map pn ys) k sel g lp) cast (x g) (at_rows (map pn ys) k sel g cost)) [1] sg base = Ok t /\ shape t = [] /\ el t [] = loss g) /\
    expect_rows o (fun r => rest d (sel r)) law (indices (map pn ys)) loss g0
    = weighted_sum o false ys ys
        (fun s => let r := map s (map pname ys) in osum o (map (fun v => o_mul o (o_exp (lp r v)) (cost r v)) (seq 0 d))) (fun _ => 0).
Proof. exact (fun V S veq anc o ex H1 H2 H3 => @rb_batch_unbiased V S veq anc o H1 ex H2 H3). Qed.
Print Assumptions C50_batched_partial.

(** With fewer options than k in every row there is no sampling. *)
Theorem C50_batched_enumerated : forall (V S : Type) (veq : V -> V -> bool) anc_unwrap (o : sops V) (o_exp : V -> V), is_ring o ->
  evaluates o o_exp -> forall name obj k L (ys : list (plate V)) (lp cost x : ten V) cast (sg : S) base,
  2 <= L -> L <> k -> shape lp = map pn ys ++ [L] -> shape cost = map pn ys ++ [L] -> (exists ev, shape x = map pn ys ++ L :: ev) ->
  plates_ok veq ys -> closed ys -> (forall y, In y ys -> 2 <= pn y) -> (forall p, ancestry ys p -> pname p <> name) ->
  exists t, backward_value veq anc_unwrap o o_exp 20 rb_heap
      (rb_batch_nodes veq anc_unwrap o o_exp name obj k ys (ys ++ [rb_batch_plate o o_exp name obj k ys lp]) lp cast x cost) [1] sg base = Ok t /\
    shape t = [] /\
    el t [] = weighted_sum o false ys ys
      (fun s => let r := map s (map pname ys) in osum o (map (fun i => o_mul o (o_exp (el lp (r ++ [i]))) (el cost (r ++ [i]))) (seq 0 L))) (fun _ => 0).
Proof. exact (fun V S veq anc o ex H1 H2 => @rb_batch_few V S veq anc o H1 ex H2). Qed.
Print Assumptions C50_batched_enumerated.

(** Two rows with the distribution of C50_witness, equally weighted. *)
Definition rb_y : plate RD := mkPlate PlainPlate "y" 2 (WStorch 8 (mkten [2] (fun _ => (1/2, 0)%R)) ["y"]) [].
Lemma rb_y_ok : plates_ok rd_eq [rb_y] /\ closed [rb_y] /\ (forall y, In y [rb_y] -> 2 <= pn y) /\ (forall p, ancestry [rb_y] p -> pname p <> "z").
Proof.
  assert (An : forall p, ancestry [rb_y] p -> p = rb_y).
  { intros p [[<-|[]]|[q [[<-|[]] H]]]; [reflexivity|]. exfalso. inversion H as [? ? C|? ? ? C]; destruct C. }
  split; [|split; [intros p q [<-|[]] []|split; [intros y [<-|[]]; simpl; lia|intros p Hp; rewrite (An p Hp); discriminate]]].
  constructor.
  - apply (lone_sound rd_eq rd_anc); [reflexivity|reflexivity|simpl; lia|apply PlateEqProofs.peq_refl].
  - intros [c [C1 [C2 C3]]]. destruct c as [|q c]; [congruence|]. destruct (C3 q (or_introl eq_refl)) as [p [_ C]]. rewrite (An q) in C; [destruct C|].
    left. apply C2. now left.
  - intros p [<-|[]]. unfold weight_fits. simpl. split; [lia|]. split; [repeat constructor; intros []|]. split; [now left|]. split; [intros y [<-|[]]; now left|].
    split; [intros q []|]. reflexivity.
Qed.
Example C50_batched_witness : plates_ok rd_eq [rb_y] /\ closed [rb_y] /\ (forall y, In y [rb_y] -> 2 <= pn y) /\ (forall p, ancestry [rb_y] p -> pname p <> "z") /\
  indices (map pn [rb_y]) = [[0]; [1]] /\
  (forall r : list nat, osum rd_ops (map rb_half (rest 3 [0])) = o_one rd_ops) /\
  (forall (r : list nat) v, In v (rest 3 [0]) ->
     o_mul rd_ops (rb_half v) (o_sub rd_ops (o_one rd_ops) (osum rd_ops (map (fun v => o_det rd_ops (rd_exp (rb_p v))) [0]))) = o_det rd_ops (rd_exp (rb_p v))) /\
  weighted_sum rd_ops false [rb_y] [rb_y] (fun s => osum rd_ops (map (fun v => o_mul rd_ops (rd_exp (rb_p v)) (rb_c v)) (seq 0 3))) (fun _ => 0) = (9/2, -5/4)%R.
Proof.
  destruct rb_y_ok as [Y1 [Y2 [Y3 Y4]]]. destruct C50_witness as [_ [W1 [W2 W3]]]. repeat (split; [solve [auto]|]). rewrite W3.
  unfold weighted_sum, osum, oprod, rd_ops, dual_ops, real_ops. cbn. f_equal; lra.
Qed.

(** The estimator takes the log-probability of the last sample at the position the samples have in the cost (17-32), while the
    log-probabilities have the samples in their last dimension. If the cost has the samples first, as the product of a tensor reduced
    over [ys] with another has, the score function of the wrong sample is used and the derivative of the expected loss is wrong; *)
Theorem C50_order_refuted : exists d (ys : list (plate RD)) (lp cost : list nat -> nat -> RD) (sel : list nat -> list nat) (law : list nat -> nat -> RD) g0,
  (forall r, length (sel r) + 1 = 2 /\ NoDup (sel r) /\ forall v, In v (sel r) -> v < d) /\
  plates_ok rd_eq ys /\ closed ys /\ (forall y, In y ys -> 2 <= pn y) /\ (forall p, ancestry ys p -> pname p <> "z") /\
  (forall r, osum rd_ops (map (law r) (rest d (sel r))) = o_one rd_ops) /\
  (forall r v, In v (rest d (sel r)) -> o_mul rd_ops (law r v) (o_sub rd_ops (o_one rd_ops)
     (osum rd_ops (map (fun v => o_det rd_ops (rd_exp (lp r v))) (sel r)))) = o_det rd_ops (rd_exp (lp r v))) /\
  forall (S : Type) (x : (list nat -> nat) -> ten RD) (sg : S) base, (forall g, shape (x g) = map pn ys ++ [2]) ->
  exists loss : (list nat -> nat) -> RD,
    (forall g, exists ct t, transpose 0 1 (at_rows (map pn ys) 2 sel g cost) = Ok ct /\ backward_value rd_eq rd_anc rd_ops rd_exp 20 rb_heap
      (rb_batch_nodes rd_eq rd_anc rd_ops rd_exp "z" 7 2 ys (rb_batch_plate rd_ops rd_exp "z" 7 2 ys (at_rows (map pn ys) 2 sel g lp) :: ys)
         (at_rows (map pn ys) 2 sel g lp) (fun v => v) (x g) ct) [1] sg base = Ok t /\ shape t = [] /\ el t [] = loss g) /\
    let E := expect_rows rd_ops (fun r => rest d (sel r)) law (indices (map pn ys)) loss g0 in
    let F := weighted_sum rd_ops false ys ys
        (fun s => let r := map s (map pname ys) in osum rd_ops (map (fun v => o_mul rd_ops (rd_exp (lp r v)) (cost r v)) (seq 0 d))) (fun _ => 0) in
    fst E = fst F /\ snd E <> snd F.
Proof.
  exists 3, [rb_y], (fun _ => rb_p), (fun _ => rb_c), (fun _ => [0]), (fun _ => rb_half), (fun _ => 0).
  destruct C50_batched_witness as [Y1 [Y2 [Y3 [Y4 [_ [W1 [W2 W3]]]]]]].
  split; [intros r; split; [reflexivity|split; [repeat constructor; intros []|intros v [<-|[]]; lia]]|]. do 6 (split; [assumption|]).
  intros S x sg base Hx.
  exists (fun g => osum rd_ops (map (fun r => o_mul rd_ops (1/2, 0)%R (o_add rd_ops (o_mul rd_ops (rd_exp (rb_p 0)) (rb_c 0))
      (o_mul rd_ops (o_sub rd_ops (o_one rd_ops) (o_det rd_ops (rd_exp (rb_p 0)))) (o_mul rd_ops (box rd_ops rd_exp (rb_p (nth r [0; g [1]] 0))) (rb_c (g [r])))))) [0; 1])).
  split.
  - intros g. pose (A := at_rows [2] 2 (fun _ => [0]) g (fun _ => rb_c)). pose (ct := mkten (swapl 0 1 (shape A)) (fun idx => el A (swapl 0 1 idx))).
    exists ct. destruct (rb_swapped (S := S) rd_eq rd_anc rd_ops rd_ring rd_exp rd_evaluates (1/2, 0)%R (at_rows [2] 2 (fun _ => [0]) g (fun _ => rb_p))
      ct (x g) (fun v => v) sg base (Hx g) eq_refl eq_refl) as [t [T1 [T2 T3]]].
    exists t. split; [reflexivity|]. split; [exact T1|]. split; [exact T2|]. rewrite T3. reflexivity.
  - cbv zeta. change (indices (map pn [rb_y])) with [[0]; [1]]. cbn [map pname rb_y].
    rewrite W3. unfold expect_rows. change (rest 3 [0]) with [1; 2]. cbn [map list_eq_dec nth].
    assert (B0 : box rd_ops rd_exp (rb_p 0) = (1, 1)%R) by (unfold box, rb_p, rd_exp, dual_exp, rd_ops, dual_ops, real_ops; cbn; rewrite Rminus_diag_eq, exp_0 by reflexivity; f_equal; lra).
    assert (B1 : forall v, box rd_ops rd_exp (rb_p (Datatypes.S v)) = (1, -1)%R) by (intros v; unfold box, rb_p, rd_exp, dual_exp, rd_ops, dual_ops, real_ops; cbn; rewrite Rminus_diag_eq, exp_0 by reflexivity; f_equal; lra).
    simpl list_eq_dec. cbn [nth]. rewrite !B0, !B1, !(rb_p_exp 0). unfold rb_half, rb_c, osum, rd_ops, dual_ops, real_ops. cbn. split; lra.
Qed.
Print Assumptions C50_order_refuted.

(** and with fewer rows than samples the estimator raises. *)
Theorem C50_order_raises_refuted : forall (V S : Type) (veq : V -> V -> bool) anc_unwrap (o : sops V) (o_exp : V -> V)
  (h : V) (lp cost x : ten V) cast (sg : S) base, shape x = [2; 3] -> shape lp = [2; 3] -> shape cost = [3; 2] ->
  let y := mkPlate PlainPlate "y" 2 (WStorch 8 (mkten [2] (fun _ => h)) ["y"]) [] in
  backward_value veq anc_unwrap o o_exp 20 rb_heap
    (rb_batch_nodes veq anc_unwrap o o_exp "z" 7 3 [y] [rb_batch_plate o o_exp "z" 7 3 [y] lp; y] lp cast x cost) [1] sg base = Err IndexError.
Proof. exact (fun V S => @rb_swapped_raises V S). Qed.
Print Assumptions C50_order_raises_refuted.
