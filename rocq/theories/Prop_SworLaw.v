(** C73: the distribution of a variable sampled without replacement, as an expectation over the uniform noise. *)
From Coq Require Import Reals List Arith Bool Lia Lra.
From Verif Require Import Base Ancestral Swor Gumbel SpecSwor SpecArm ArmMean SworLaw.
Import ListNotations.
Local Open Scope R_scope.

(** The probability that sample_var returns the options [s] in this order, when it samples [k] without replacement, is that of
    drawing them one after another from the options that are left: for every number of options and samples and all
    log-probabilities. [F] is the indicator of this event: it is fixed by the program for all noise without ties. The noise of
    option [j] is the number [u [j]]; the Gumbels and their conditioning on the maximum 0 are those of the program. *)
Theorem C73_distribution : forall topk, topk_fn ple topk -> forall lp k s u0, fold_right Rplus 0 (map exp lp) = 1 -> (1 <= k)%nat ->
  NoDup s -> (forall i, In i s -> (i < length lp)%nat) -> length s = Nat.min k (length lp) ->
  exists F,
    (forall u, (forall j, (j < length lp)%nat -> 0 < u [j] < 1) ->
       (forall i j, (i < length lp)%nat -> (j < length lp)%nat -> i <> j -> gumbel_rsample (nth i lp 0) (u [i]) <> gumbel_rsample (nth j lp 0) (u [j])) ->
       exists rows p st,
         sample_var (select_swor topk k) k None
           (mkVar [] false (fun _ _ => lp) (fun _ _ => map (fun j => gumbel_rsample (nth j lp 0) (u [j])) (seq 0 (length lp)))) sstart = Ok (rows, p, st) /\
         F u = if list_eq_dec (list_eq_dec Nat.eq_dec) rows (map (fun i => [i]) s) then 1 else 0) /\
    mean (map (fun j => [j]) (s ++ leftover (length lp) s)) F u0 (successive (fun j => exp (nth j lp 0)) 1 s).
Proof. exact swor_law. Qed.
Print Assumptions C73_distribution.

(** With probabilities 1/2, 1/3 and 1/6 the options 2 and 0 are drawn in this order with probability 1/6 * (1/2) / (5/6) = 1/10. *)
Example C73_witness :
  let lp := [ln (1 / 2); ln (1 / 3); ln (1 / 6)] in
  fold_right Rplus 0 (map exp lp) = 1 /\ NoDup [2; 0]%nat /\ leftover (length lp) [2; 0]%nat = [1%nat] /\ length [2; 0]%nat = Nat.min 2 (length lp) /\
  successive (fun j => exp (nth j lp 0)) 1 [2; 0]%nat = 1 / 10.
Proof.
  intros lp. unfold lp. cbn [map fold_right successive nth length leftover seq filter]. rewrite !exp_ln by lra. split; [lra|]. split; [repeat constructor; simpl; intuition lia|].
  split; [reflexivity|]. split; [reflexivity|]. field.
Qed.
