(** The expected losses of the programs of BiasProofs for x ~ Bernoulli(sigmoid(t)). *)
From Coq Require Import String List Arith Bool ZArith Lia Reals Lra FunctionalExtensionality.
From Verif Require Import Base Torch Plates Wrap OrderPlates Scalar Reduce Graph Surrogate SpecTensor SpecReduce SpecSurrogate SpecProgram
  Dual Curves SurrogateProofs2 SurrogateProofs3 ProgramProofs ProgramWitness BiasProofs.
Import ListNotations.
Open Scope string_scope.
Open Scope nat_scope.
Open Scope list_scope.

(** Real numbers with a derivative. *)
Definition real_ops : sops R := mkOps 0%R 1%R Rplus Rmult Rminus Ropp (fun x => x).
Definition RD : Type := (R * R)%type.
Definition rd_ops : sops RD := dual_ops real_ops.
Definition rd_exp : RD -> RD := dual_exp real_ops exp.
Definition rd_eq (x y : RD) : bool := (if Req_EM_T (fst x) (fst y) then true else false) && (if Req_EM_T (snd x) (snd y) then true else false).
Definition rd_anc (p : plate RD) (a : stensor RD) : res (stensor RD) := Ok a.
Lemma rd_ring : is_ring rd_ops.
Proof. apply dual_ring. constructor; intros; simpl; ring. Qed.
Lemma rd_evaluates : evaluates rd_ops rd_exp.
Proof.
  constructor; intros; unfold rd_ops, rd_exp, dual_ops, dual_exp, real_ops; cbn [o_zero o_one o_add o_mul o_sub o_det fst snd]; auto;
    try (f_equal; cbn [fst snd]; ring). rewrite exp_0. f_equal. ring.
Qed.
Lemma rd_exp_add : forall x y, rd_exp (o_add rd_ops x y) = o_mul rd_ops (rd_exp x) (rd_exp y).
Proof. intros. unfold rd_ops, rd_exp, dual_ops, dual_exp, real_ops. cbn [o_add o_mul fst snd]. rewrite exp_plus. f_equal; cbn [fst snd]; ring. Qed.
Lemma rd_first : first_order rd_ops.
Proof.
  intros [x dx] [y dy] Hx Hy. injection Hx as ->. injection Hy as ->.
  unfold rd_ops, dual_ops, real_ops. cbn [o_zero o_mul o_add fst snd]. f_equal; ring.
Qed.

Section Bernoulli.
Variable t0 : R.
Let p : R := sig t0.
(** The log-probability of a Bernoulli variable with logit t, and its derivative, at t0. *)
Definition d_lgp (v : RD) : RD := ((fst v * ln (sig t0) + (1 - fst v) * ln (1 - sig t0))%R, (fst v - sig t0)%R).
Definition d_val (b : bool) : RD := (num b, 0%R).
Definition d_prog (pl : plate RD) : program RD bool :=
  mkProgram [0] (fun _ => [pl]) (fun _ => []) (fun _ _ _ => [true; false]) (fun _ _ r => d_lgp (d_val (r 0))).
Definition d_half : RD := ((/ 2)%R, 0%R).
Definition d_plate : plate RD := b_plate d_half.
Lemma d_prob : forall b, rd_exp (d_lgp (d_val b)) = if b then (p, (p * (1 - p))%R) else ((1 - p)%R, (- (p * (1 - p)))%R).
Proof.
  intros b. destruct (sig_pos t0) as [H1 H2]. unfold rd_exp, dual_exp, d_lgp, d_val, p. cbn [fst snd o_mul real_ops]. destruct b; cbn [num].
  - replace (1 * ln (sig t0) + (1 - 1) * ln (1 - sig t0))%R with (ln (sig t0)) by ring. rewrite exp_ln by lra. f_equal; ring.
  - replace (0 * ln (sig t0) + (1 - 0) * ln (1 - sig t0))%R with (ln (1 - sig t0)) by ring. rewrite exp_ln by lra. f_equal; ring.
Qed.
Lemma d_box : forall b, bx rd_ops rd_exp d_lgp d_val b = if b then (1%R, (1 - p)%R) else (1%R, (- p)%R).
Proof.
  intros b. unfold bx, box, rd_exp, dual_exp, rd_ops, dual_ops, d_lgp, d_val, p, real_ops. cbn [fst snd o_mul o_sub o_det o_zero].
  replace (num b * ln (sig t0) + (1 - num b) * ln (1 - sig t0) - (num b * ln (sig t0) + (1 - num b) * ln (1 - sig t0)))%R with 0%R by ring.
  rewrite exp_0. destruct b; cbn [num]; f_equal; ring.
Qed.
(** The expectation over two samples. *)
Lemma d_sampled : forall w (g : bool -> bool -> RD), sampled rd_ops rd_exp (d_prog d_plate) w (fun w => g (w 0 [0]) (w 0 [1])) =
  let q (b : bool) := if b then p else (1 - p)%R in
  let e := fun b b' => (q b * q b')%R in
  (((e true true * fst (g true true) + e true false * fst (g true false) + e false true * fst (g false true) + e false false * fst (g false false))%R),
   ((e true true * snd (g true true) + e true false * snd (g true false) + e false true * snd (g false true) + e false false * snd (g false false))%R)).
Proof.
  intros w g. unfold sampled. cbn -[rd_exp rd_ops d_lgp d_val].
  change (SpecProgram.prob rd_exp (d_prog d_plate) 0) with (fun (s : assignment) (r : nat -> bool) x => rd_exp (d_lgp (d_val (put r 0 x 0)))). cbv beta.
  rewrite !put_same, !d_prob. destruct (g true true), (g true false), (g false true), (g false false). cbn.
  f_equal; ring.
Qed.
End Bernoulli.

Section Biased.
Variable t0 : R.
Variable f : bool -> R.
Let p : R := sig t0.
Let fd (b : bool) : RD := (f b, 0%R).
Let nodes {S : Type} (bl : option (@baseline RD S)) c w := b_nodes rd_eq rd_anc rd_ops rd_exp d_half (d_lgp t0) d_val bl c w.
Let cost (w : @world bool) : stensor RD := b_cost d_half fd w.
Let averaged (w : @world bool) : stensor RD := b_mean rd_eq rd_anc rd_ops d_half fd w.
(** The derivative of the expected cost. *)
Definition true_gradient : R := (sig t0 * (1 - sig t0) * (f true - f false))%R.
Ltac open_box := rewrite !d_box; unfold rd_ops, dual_ops, real_ops, d_half, true_gradient, fd, p; cbn; try field.

Theorem averaging_scales : exists direct mean : @world bool -> RD,
  (forall w, exists t, backward_value rd_eq rd_anc rd_ops rd_exp 20 b_heap (nodes (S := unit) None (cost w) w) [1] tt 100 = Ok t /\ el t [] = direct w) /\
  (forall w, exists t, backward_value rd_eq rd_anc rd_ops rd_exp 20 b_heap (nodes (S := unit) None (averaged w) w) [1] tt 100 = Ok t /\ el t [] = mean w) /\
  forall w, snd (sampled rd_ops rd_exp (d_prog t0 d_plate) w direct) = true_gradient /\
            snd (sampled rd_ops rd_exp (d_prog t0 d_plate) w mean) = (true_gradient / 2)%R.
Proof.
  set (g1 := direct_of rd_ops rd_exp d_half (d_lgp t0) d_val fd). set (g2 := mean_of rd_ops rd_exp d_half (d_lgp t0) d_val fd).
  exists (fun w : @world bool => g1 (w 0 [0]) (w 0 [1])), (fun w : @world bool => g2 (w 0 [0]) (w 0 [1])). split; [|split].
  - intros w. exact (direct_loss rd_eq rd_anc rd_ops rd_exp rd_ring d_half (d_lgp t0) d_val fd w).
  - intros w. exact (mean_loss rd_eq rd_anc rd_ops rd_exp rd_ring d_half (d_lgp t0) d_val fd w).
  - intros w. split; [rewrite (d_sampled t0 w g1)|rewrite (d_sampled t0 w g2)]; unfold g1, g2, direct_of, mean_of; open_box.
Qed.

(** One step with the moving average: decay d, and the average m so far. *)
Theorem moving_average_scales : forall d m, exists loss : @world bool -> RD,
  (forall w, exists t, backward_value rd_eq rd_anc rd_ops rd_exp 20 b_heap (nodes (Some (moving_average rd_eq rd_anc rd_ops (d, 0%R))) (cost w) w) [1]
     (fun _ => tscalar (m, 0%R)) 100 = Ok t /\ el t [] = loss w) /\
  forall w, snd (sampled rd_ops rd_exp (d_prog t0 d_plate) w loss) = ((1 - (1 - d) / 2) * true_gradient)%R.
Proof.
  intros d m. set (g := fun x y => with_baseline rd_ops rd_exp d_half (d_lgp t0) d_val fd (moved rd_ops d_half fd (d, 0%R) (m, 0%R) x y) x y).
  exists (fun w : @world bool => g (w 0 [0]) (w 0 [1])). split.
  - intros w. exact (moving_loss rd_eq rd_anc rd_ops rd_exp rd_ring d_half (d_lgp t0) d_val fd (d, 0%R) (fun _ => (m, 0%R)) w).
  - intros w. rewrite (d_sampled t0 w g). unfold g, with_baseline, moved. open_box.
Qed.
End Biased.
