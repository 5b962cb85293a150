(** C68: the gradient of a program with DisARM. *)
From Coq Require Import String List Arith Bool ZArith Lia Reals Lra.
From Coquelicot Require Import Coquelicot.
From Verif Require Import Base Torch Plates Wrap Scalar Reduce Graph Sampling Surrogate Estimators Arm SpecTensor SpecArm Dual ProgramWitness BiasProofs2 BiasProofs3 ArmProofs ArmMean ArmProofs2
  Prop_Arm DisarmProofs DisarmProofs2.
Import ListNotations.
Open Scope string_scope.
Open Scope nat_scope.
Open Scope list_scope.

(** The program is that of C67 with DisARM for the method. [dw b b' l] is "(-1) ** b' * ~b.eq(b') * sigmoid(|l|)"; it is detached, so its
    derivative does not matter. *)
Definition disarm_run veq anc_unwrap dw (name : string) (n : nat) (ev : list nat) (l : idx -> R -> R) dl (f : (idx -> bool) -> R -> R) df (t0 : R) (u : idx -> R) base : res (ten RD) :=
  disarm_program veq anc_unwrap rd_ops rd_exp rd_recip d_half rd_gt0 dw name n (fun v => (f (bits v) t0, df (bits v)))
    (noise ev u) (mkten ev (fun e => (l e t0, dl e))) base.

(** C68 in part: what the estimator returns for the first sample of a pair has the right derivative on average when it is multiplied by the
    difference of the costs of the two samples. Missing: that the program computes this; it does not (below). *)
Theorem C68_term_partial : forall veq anc_unwrap dw name n ev (l : idx -> R -> R) dl (f : (idx -> bool) -> R -> R) df t0 base u0 nm k lp0, 1 <= n -> ev <> [] ->
  (forall e, valid e ev -> derivable_pt_lim (l e) t0 (dl e)) -> (forall b, derivable_pt_lim (f b) t0 (df b)) ->
  (forall b b', (forall e, valid e ev -> b e = b' e) -> forall t, f b t = f b' t) ->
  (forall b b' x : RD, fst (dw b b' x) = disarm_weight (fst b) (fst b') (fst x)) ->
  let F v := (f (bits v) t0, df (bits v)) in let logits := mkten ev (fun e => (l e t0, dl e)) in
  exists (terms costs : (idx -> R) -> nat -> RD) gradient,
    (forall u, exists x rg g cv,
       method_sample veq rd_recip name n (fun k => sample_disarm rd_ops rd_gt0 (noise ev u k) logits) None None [ParT true] [] [] 0 = Ok (x, rg) /\
       me_estimator (method_of (fun _ _ => Ok false) (disarm_estimator veq anc_unwrap rd_ops d_half dw (PRaw logits))) (mkSample x name k lp0) (row_cost 1 F x) nm tt base
         = Ok (Some (PT g), Some cv, tt) /\
       forall i, i < 2 * n -> el (st g) [i] = terms u i /\ el (st (row_cost 1 F x)) [i] = costs u i) /\
    derivable_pt_lim (expected_cost ev l f) t0 gradient /\
    forall i, i < n -> mean (indices (n :: ev)) (fun u => snd (terms u i) * (fst (costs u i) - fst (costs u (n + i)%nat)))%R u0
                         (gradient - expected_cost ev l (fun b _ => df b) t0)%R.
Proof.
  intros veq anc dw name n ev l dl f df t0 base u0 nm k lp0 Hn Hev Hl Hf He Hdw.
  exact (disarm_term name n ev Hn Hev l dl f df t0 Hl Hf He dw Hdw veq anc base u0 nm k lp0).
Qed.
Print Assumptions C68_term_partial.

(** C68 is false: the expected derivative of the loss is one and a half times the expected derivative of the cost itself, and the logits
    have no part in it; the expected loss is one and a half times the expected cost. *)
Theorem C68_gradient_refuted : forall veq anc_unwrap dw name n ev (l : idx -> R -> R) dl (f : (idx -> bool) -> R -> R) df t0 base u0, 1 <= n -> ev <> [] ->
  (forall e, valid e ev -> derivable_pt_lim (l e) t0 (dl e)) -> (forall b, derivable_pt_lim (f b) t0 (df b)) ->
  (forall b b', (forall e, valid e ev -> b e = b' e) -> forall t, f b t = f b' t) ->
  (forall b b' x : RD, fst (dw b b' x) = disarm_weight (fst b) (fst b') (fst x)) ->
  exists loss : (idx -> R) -> RD,
    (forall u, exists t, disarm_run veq anc_unwrap dw name n ev l dl f df t0 u base = Ok t /\ shape t = [] /\ el t [] = loss u) /\
    mean (indices (n :: ev)) (fun u => snd (loss u)) u0 (3 / 2 * expected_cost ev l (fun b _ => df b) t0)%R /\
    mean (indices (n :: ev)) (fun u => fst (loss u)) u0 (3 / 2 * expected_cost ev l f t0)%R.
Proof.
  intros veq anc dw name n ev l dl f df t0 base u0 Hn Hev Hl Hf He Hdw.
  exact (disarm_gradient name n ev Hn Hev l dl f df t0 Hf He dw Hdw veq anc base u0).
Qed.
Print Assumptions C68_gradient_refuted.

(** In particular a cost that depends on the parameter through the samples only has the gradient 0 on average, whatever its true gradient. *)
Theorem C68_vanishes_refuted : forall veq anc_unwrap dw name n ev (l : idx -> R -> R) dl (f : (idx -> bool) -> R) t0 base, 1 <= n -> ev <> [] ->
  (forall e, valid e ev -> derivable_pt_lim (l e) t0 (dl e)) ->
  (forall b b', (forall e, valid e ev -> b e = b' e) -> f b = f b') ->
  (forall b b' x : RD, fst (dw b b' x) = disarm_weight (fst b) (fst b') (fst x)) ->
  forall loss : (idx -> R) -> RD,
  (forall u, exists t, disarm_run veq anc_unwrap dw name n ev l dl (fun b _ => f b) (fun _ => 0%R) t0 u base = Ok t /\ el t [] = loss u) ->
  forall u0 v, mean (indices (n :: ev)) (fun u => snd (loss u)) u0 v -> v = 0%R.
Proof.
  intros veq anc dw name n ev l dl f t0 base Hn Hev Hl He Hdw loss Hloss u0 v Mv.
  destruct (C68_gradient_refuted veq anc dw name n ev l dl (fun b _ => f b) (fun _ => 0%R) t0 base u0 Hn Hev Hl) as [loss' [H1 [H2 _]]]; auto.
  { intros b. apply derivable_pt_lim_const. }
  apply (mean_ext _ _ (fun u => snd (loss u))) in H2.
  2:{ intros u _. destruct (H1 u) as [t [E1 [_ E2]]], (Hloss u) as [t' [E1' E2']]. rewrite E1 in E1'. injection E1' as <-. congruence. }
  rewrite (mean_unique _ _ _ _ _ Mv H2). unfold expected_cost. rewrite bernoulli_zero. ring.
Qed.
Print Assumptions C68_vanishes_refuted.

(** With a single binary variable of shape [] there is no gradient at all: backward raises an exception, because the sum over the event
    dimensions is a sum over all dimensions if there are no event dimensions. *)
Theorem C68_scalar_refuted : forall veq anc_unwrap dw name n (l : idx -> R -> R) dl (f : (idx -> bool) -> R -> R) df t0 u base, 1 <= n ->
  (forall b, derivable_pt_lim (f b) t0 (df b)) -> (forall b b', b [] = b' [] -> forall t, f b t = f b' t) ->
  disarm_run veq anc_unwrap dw name n [] l dl f df t0 u base = Err ValueError.
Proof.
  intros veq anc dw name n l dl f df t0 u base Hn Hf He. unfold disarm_run.
  apply (disarm_scalar veq anc rd_ops rd_ring rd_exp rd_recip d_half rd_gt0 dw name n []); auto.
  apply (F_ext [] f df t0 Hf). intros b b' H. apply He, H. constructor.
Qed.
Print Assumptions C68_scalar_refuted.

(** A weight as in the code, and a program whose true gradient is not 0: two variables with the logit t, and the cost 1 if the first is 1. *)
Definition some_weight (b b' x : RD) : RD := (disarm_weight (fst b) (fst b') (fst x), 0%R).
Example C68_witness : let l (e : idx) (t : R) := t in let f (b : idx -> bool) := if b [0] then 1%R else 0%R in
  [2] <> [] /\ (forall e, valid e [2] -> derivable_pt_lim (l e) 0%R 1%R) /\ (forall b b', (forall e, valid e [2] -> b e = b' e) -> f b = f b') /\
  (forall b b' x : RD, fst (some_weight b b' x) = disarm_weight (fst b) (fst b') (fst x)) /\
  some_weight (1%R, 0%R) (0%R, 0%R) (0%R, 1%R) <> (0%R, 0%R) /\
  derivable_pt_lim (expected_cost [2] l (fun b _ => f b)) 0%R (1/4)%R /\
  exists loss : (idx -> R) -> RD, (forall u, exists t, disarm_run rd_eq rd_anc some_weight "z" 3 [2] l (fun _ => 1%R) (fun b _ => f b) (fun _ => 0%R) 0%R u 100 = Ok t /\ el t [] = loss u) /\
    forall u0 v, mean (indices [3; 2]) (fun u => snd (loss u)) u0 v -> v = 0%R.
Proof.
  cbv zeta. set (f := fun b : idx -> bool => if b [0] then 1%R else 0%R).
  assert (Hl : forall e, valid e [2] -> derivable_pt_lim (fun t : R => t) 0%R 1%R) by (intros; apply derivable_pt_lim_id).
  assert (Hx : forall b b', (forall e, valid e [2] -> b e = b' e) -> f b = f b') by (intros b b' H; unfold f; rewrite H; [reflexivity|repeat constructor]).
  assert (Hw : forall b b' x : RD, fst (some_weight b b' x) = disarm_weight (fst b) (fst b') (fst x)) by reflexivity.
  split; [discriminate|]. split; [exact Hl|]. split; [exact Hx|]. split; [exact Hw|]. split; [|split].
  - unfold some_weight, disarm_weight. cbn [fst]. destruct (Req_EM_T 1 0) as [H|_]; [lra|]. destruct (Req_EM_T 0 1) as [H|_]; [lra|].
    intros E. injection E as E. pose proof (sig_pos (Rabs 0)). lra.
  - assert (E : forall t, expected_cost [2] (fun _ t => t) (fun b _ => f b) t = sig t).
    { intros t. unfold expected_cost, f. cbn -[sig]. ring. }
    apply (derivable_pt_lim_ext sig); [intros t; now rewrite E|].
    replace (1 / 4)%R with (sig 0 * (1 - sig 0))%R.
    + apply sig_deriv.
    + unfold sig. rewrite Ropp_0, exp_0. field.
  - destruct (C68_gradient_refuted rd_eq rd_anc some_weight "z" 3 [2] (fun _ t => t) (fun _ => 1%R) (fun b _ => f b) (fun _ => 0%R) 0%R 100 (fun _ => 0%R)) as [loss [H _]]; auto; try lia; try discriminate.
    { intros b. apply derivable_pt_lim_const. }
    assert (H' : forall u, exists t, disarm_run rd_eq rd_anc some_weight "z" 3 [2] (fun _ t => t) (fun _ => 1%R) (fun b _ => f b) (fun _ => 0%R) 0%R u 100 = Ok t /\ el t [] = loss u).
    { intros u. destruct (H u) as [t [E1 [_ E2]]]. eauto. }
    exists loss. split; [exact H'|].
    apply (C68_vanishes_refuted rd_eq rd_anc some_weight "z" 3 [2] (fun _ t => t) (fun _ => 1%R) f 0%R 100); auto; try lia; try discriminate.
Qed.
