(** A straight-line program with a batch-average baseline for the example of C82. Numbers are real numbers with a derivative. *)
From Coq Require Import String List Arith Bool Lia Reals Lra.
From Verif Require Import Base Torch Plates Wrap Scalar Inference Graph Surrogate Sampling Straight SpecTensor SpecGraph SpecSurrogate SpecReduce SpecProgram
  Dual ReduceProofs2 BroadcastProofs BiasProofs2 ProgramWitness StraightFns StraightWitness SpecStraight.
Import ListNotations.
Open Scope string_scope.
Open Scope nat_scope.
Open Scope list_scope.

Definition b_recip (n : nat) : RD := ((/ INR n)%R, 0%R).
Lemma b_recip_sums : forall n, 1 <= n -> osum rd_ops (repeat (b_recip n) n) = o_one rd_ops.
Proof.
  intros n Hn. assert (G : forall k, osum rd_ops (repeat (b_recip n) k) = ((INR k * / INR n)%R, 0%R)).
  { induction k as [|k IH]; [cbn; f_equal; lra|]. cbn [repeat].
    change (osum rd_ops (b_recip n :: repeat (b_recip n) k)) with (o_add rd_ops (b_recip n) (osum rd_ops (repeat (b_recip n) k))).
    rewrite IH, S_INR. unfold b_recip. cbn. f_equal; lra. }
  rewrite G. cbn. f_equal. apply Rinv_r. apply not_0_INR. lia.
Qed.

Section Program.
Variable t0 : R.
(** log p(v) of a Bernoulli variable with logit t * u, and its derivative, at t0. *)
Definition d_lp (l : list RD) : RD :=
  match l with
  | [v; u] => ((fst v * ln (sig (t0 * fst u)) + (1 - fst v) * ln (1 - sig (t0 * fst u)))%R, ((fst v - sig (t0 * fst u)) * (fst u + t0 * snd u))%R)
  | _ => (0%R, 0%R)
  end.
Definition d_times (l : list RD) : RD := match l with [a; b] => o_mul rd_ops a b | _ => (0%R, 0%R) end.
Definition d_bit (j : nat) : ten RD := tscalar (num (Nat.testbit j 0), 0%R).
(** Two numbers x, 1 and 2; 3 samples of a Bernoulli variable z with logit t * x; the cost is z * x. *)
Definition d_rows : ten RD := mkten [2] (fun i => match i with [0] => (1%R, 0%R) | _ => (2%R, 0%R) end).
Definition scaled_coin : list (line RD) := [
  (Data "x" d_rows, MData);
  (Draw "z" 3 [] [0] true (elementwise d_lp), MDraw 2 d_bit [] (each [] d_lp));
  (Call (elementwise d_times) [1; 0], MCall [] (each [] d_times))].
Lemma d_coin : forall u : RD, rd_exp (d_lp [(1%R, 0%R) : RD; u]) = (sig (t0 * fst u), (sig (t0 * fst u) * (1 - sig (t0 * fst u)) * (fst u + t0 * snd u))%R) /\
  rd_exp (d_lp [(0%R, 0%R) : RD; u]) = ((1 - sig (t0 * fst u))%R, (- (sig (t0 * fst u) * (1 - sig (t0 * fst u)) * (fst u + t0 * snd u)))%R).
Proof.
  intros u. destruct (bern_one (fun _ => t0 * fst u)%R 0%R) as [A B]. unfold bern in *. unfold rd_exp, dual_exp, d_lp, real_ops. cbn [fst snd o_mul]. rewrite A, B. split; f_equal; ring.
Qed.
Lemma scaled_coin_ok : straight_ok rd_ops rd_exp scaled_coin.
Proof.
  split; [repeat constructor; cbn; intuition discriminate|]. intros i x Hx.
  destruct i as [|[|[|i]]]; cbn in Hx; try (injection Hx as <-); try (destruct i; discriminate Hx); (split; [cbn; intros a Ha; lia|]).
  - exists 2, []. split; [reflexivity|lia].
  - split; [lia|]. split; [apply (elementwise_leading rd_ops); fits|]. split; [|discriminate].
    intros s r. set (X := nth 0 (values rd_ops s r scaled_coin) (scalar0 rd_ops)).
    assert (E : shape X = []) by reflexivity.
    unfold density, evened, padded_to, rank, named. cbn [snd fst args_of map]. fold X. rewrite E. cbn -[rd_exp d_lp X rd_ops].
    destruct (d_coin (el X [])) as [A B].
    assert (Z : forall z : RD, o_add rd_ops z (o_zero rd_ops) = z) by (intros [z1 z2]; cbn; f_equal; lra).
    unfold osum. cbn [fold_right]. rewrite !Z. change (bidx (shape X) []) with (@nil nat). etransitivity; [exact (f_equal2 (o_add rd_ops) B A)|]. cbn. f_equal; ring.
  - split; [discriminate|]. apply (elementwise_leading rd_ops); fits.
Qed.
Lemma scaled_coin_expected : expected rd_ops rd_exp b_recip scaled_coin [] (total_cost rd_ops [2]) =
  ((/ 2 * (sig t0 + 2 * sig (2 * t0)))%R, (/ 2 * (sig t0 * (1 - sig t0) + 4 * (sig (2 * t0) * (1 - sig (2 * t0)))))%R).
Proof.
  cbn -[rd_exp d_lp rd_ops b_recip].
  assert (Z : forall z : RD, o_add rd_ops z (o_zero rd_ops) = z) by (intros [z1 z2]; cbn; f_equal; lra).
  unfold osum. cbn [fold_right]. rewrite !Z.
  destruct (d_coin (1%R, 0%R)) as [A1 B1], (d_coin (2%R, 0%R)) as [A2 B2]. rewrite A1, B1, A2, B2. cbn [fst snd].
  replace (t0 * 1)%R with t0 by ring. replace (t0 * 2)%R with (2 * t0)%R by ring. unfold b_recip. cbn. f_equal; field.
Qed.
End Program.
