(** Derivatives of relaxed samples with respect to the parameter, uniformly in the noise. *)
From Coq Require Import List Arith Bool Lia Reals Lra.
From Coquelicot Require Import Rcomplements.
From Verif Require Import SpecArm SpecExpect SpecRelax ArmMean Expect Expect2 RelaxSubst RelaxRows.
Import ListNotations.
Local Open Scope R_scope.

Lemma exp_near : forall x, Rabs x <= 1 / 2 -> Rabs (exp x - 1 - x) <= 2 * (x * x).
Proof.
  intros x H. apply Rabs_le_between in H. pose proof (exp_ineq1_le x) as L. pose proof (exp_ineq1_le (- x)) as L'. rewrite exp_Ropp in L'. pose proof (exp_pos x) as P.
  assert (U : exp x * (1 - x) <= 1). { apply (Rmult_le_compat_l (exp x)) in L'; [|lra]. rewrite Rinv_r in L' by lra. lra. }
  rewrite Rabs_pos_eq by lra. assert (exp x <= 1 + x + 2 * (x * x)); [|lra]. apply (Rmult_le_reg_r (1 - x)); [lra|]. nra.
Qed.
Lemma ln_near : forall x, Rabs x <= 1 / 2 -> Rabs (ln (1 + x) - x) <= 2 * (x * x).
Proof.
  intros x H. apply Rabs_le_between in H. assert (Q : forall y, 0 < y -> ln y <= y - 1).
  { intros y Hy. pose proof (exp_ineq1_le (ln y)) as E. rewrite exp_ln in E by exact Hy. lra. }
  pose proof (Q (1 + x) ltac:(lra)) as U. pose proof (Q (/ (1 + x)) ltac:(apply Rinv_0_lt_compat; lra)) as L. rewrite ln_Rinv in L by lra.
  assert (E : / (1 + x) - 1 = - x + x * x * / (1 + x)) by (field; lra). assert (I : / (1 + x) <= 2) by (replace 2 with (/ (1 / 2)) by field; apply Rinv_le_contravar; lra).
  rewrite Rabs_left1 by lra. assert (x * x * / (1 + x) <= 2 * (x * x)); [|lra]. rewrite (Rmult_comm 2). apply Rmult_le_compat_l; [nra|exact I].
Qed.

(** ** Terms of smaller order, uniformly in the noise *)
Section Uniform.
Variable dom : (idx -> R) -> Prop.
Definition small (G : R -> (idx -> R) -> R) : Prop := forall eps, 0 < eps -> exists q, 0 < q /\ forall h u, Rabs h < q -> dom u -> Rabs (G h u) <= eps * Rabs h.
Definition bounded (f : (idx -> R) -> R) : Prop := exists B, forall u, dom u -> Rabs (f u) <= B.
Definition linear_small (G : R -> (idx -> R) -> R) : Prop := exists A q, 0 < q /\ forall h u, Rabs h < q -> dom u -> Rabs (G h u) <= A * Rabs h.
Lemma small_ext : forall G G' q, 0 < q -> (forall h u, Rabs h < q -> dom u -> G h u = G' h u) -> small G -> small G'.
Proof.
  intros G G' q Hq E H eps He. destruct (H eps He) as [q' [Hq' Q]]. exists (Rmin q q'). split; [now apply Rmin_glb_lt|]. intros h u Hh Hu. pose proof (Rmin_l q q'). pose proof (Rmin_r q q').
  rewrite <- E by (auto; lra). apply Q; auto; lra.
Qed.
Lemma small_plus : forall G G', small G -> small G' -> small (fun h u => G h u + G' h u).
Proof.
  intros G G' H H' eps He. destruct (H (eps / 2) ltac:(lra)) as [q [Hq Q]]. destruct (H' (eps / 2) ltac:(lra)) as [q' [Hq' Q']]. exists (Rmin q q'). split; [now apply Rmin_glb_lt|].
  intros h u Hh Hu. pose proof (Rmin_l q q'). pose proof (Rmin_r q q'). specialize (Q h u ltac:(lra) Hu). specialize (Q' h u ltac:(lra) Hu). pose proof (Rabs_triang (G h u) (G' h u)). lra.
Qed.
Lemma small_mult : forall f G, bounded f -> small G -> small (fun h u => f u * G h u).
Proof.
  intros f G [B HB] H eps He. assert (PB : 0 < Rabs B + 1) by (pose proof (Rabs_pos B); lra). destruct (H (eps / (Rabs B + 1)) ltac:(now apply Rdiv_lt_0_compat)) as [q [Hq Q]]. exists q. split; [exact Hq|].
  intros h u Hh Hu. specialize (Q h u Hh Hu). rewrite Rabs_mult. specialize (HB u Hu). pose proof (Rle_abs B). pose proof (Rabs_pos (f u)). pose proof (Rabs_pos (G h u)). pose proof (Rabs_pos h).
  apply Rle_trans with ((Rabs B + 1) * (eps / (Rabs B + 1) * Rabs h)); [apply Rmult_le_compat; lra|]. right. field. lra.
Qed.
Lemma small_zero : small (fun _ _ => 0).
Proof. intros eps He. exists 1. split; [lra|]. intros h u _ _. rewrite Rabs_R0. pose proof (Rabs_pos h). nra. Qed.
Lemma small_sum : forall {A} (xs : list A) (G : A -> R -> (idx -> R) -> R), (forall x, In x xs -> small (G x)) -> small (fun h u => rsum (fun x => G x h u) xs).
Proof.
  intros A xs G. induction xs as [|x xs IH]; intros H; [exact small_zero|]. apply (small_plus (G x) (fun h u => rsum (fun x => G x h u) xs)); [apply H; now left|]. apply IH. intros; apply H; now right.
Qed.
Lemma small_square : forall G C q, 0 < q -> (forall h u, Rabs h < q -> dom u -> Rabs (G h u) <= C * (Rabs h * Rabs h)) -> small G.
Proof.
  intros G C q Hq H eps He. assert (PC : 0 < Rabs C + 1) by (pose proof (Rabs_pos C); lra). exists (Rmin q (eps / (Rabs C + 1))). split; [apply Rmin_glb_lt; [exact Hq|now apply Rdiv_lt_0_compat]|].
  intros h u Hh Hu. pose proof (Rmin_l q (eps / (Rabs C + 1))). pose proof (Rmin_r q (eps / (Rabs C + 1))). specialize (H h u ltac:(lra) Hu). pose proof (Rabs_pos h). pose proof (Rle_abs C).
  apply Rle_trans with ((Rabs C + 1) * (Rabs h * Rabs h)); [nra|]. rewrite <- Rmult_assoc. apply Rmult_le_compat_r; [lra|]. apply Rle_trans with ((Rabs C + 1) * (eps / (Rabs C + 1))); [apply Rmult_le_compat_l; lra|]. right. field. lra.
Qed.
Lemma small_linear : forall G f, small (fun h u => G h u - h * f u) -> bounded f -> linear_small G.
Proof.
  intros G f H [B HB]. destruct (H 1 ltac:(lra)) as [q [Hq Q]]. exists (B + 1), q. split; [exact Hq|]. intros h u Hh Hu. specialize (Q h u Hh Hu). specialize (HB u Hu).
  replace (G h u) with ((G h u - h * f u) + h * f u) by ring. eapply Rle_trans; [apply Rabs_triang|]. rewrite Rabs_mult. pose proof (Rabs_pos h). pose proof (Rabs_pos (f u)). nra.
Qed.
Lemma linear_all : forall {A} (xs : list A) (G : A -> R -> (idx -> R) -> R), (forall x, In x xs -> linear_small (G x)) ->
  exists C q, 0 <= C /\ 0 < q /\ forall h u x, Rabs h < q -> dom u -> In x xs -> Rabs (G x h u) <= C * Rabs h.
Proof.
  intros A xs G. induction xs as [|x xs IH]; intros H; [exists 0, 1; repeat split; try lra; intros h u x _ _ []|]. destruct (IH (fun y Hy => H y (or_intror Hy))) as [C [q [HC [Hq Q]]]].
  destruct (H x (or_introl eq_refl)) as [C' [q' [Hq' Q']]]. exists (Rmax C C'), (Rmin q q'). pose proof (Rmax_l C C'). pose proof (Rmax_r C C'). split; [lra|]. split; [now apply Rmin_glb_lt|].
  intros h u y Hh Hu Hy. pose proof (Rmin_l q q'). pose proof (Rmin_r q q'). pose proof (Rabs_pos h). destruct Hy as [<-|Hy].
  - specialize (Q' h u ltac:(lra) Hu). nra.
  - specialize (Q h u y ltac:(lra) Hu Hy). nra.
Qed.
End Uniform.

(** ** Rows of weights and their normalisation *)
Section Shift.
Variable K : nat.
Notation cells := (cells K).
Notation noise := (noise K).
Definition rowsum (f : idx -> R) (r : idx) : R := rsum (fun k => f (key r k)) (seq 0 K).
Definition row_of (e : idx) : idx := removelast e.
Lemma row_key : forall r j, row_of (key r j) = r. Proof. intros. apply removelast_last. Qed.
Definition norm (w : idx -> R) : idx -> R := fun e => w e / rowsum w (row_of e).
Definition shift (z d : idx -> R) : idx -> R := norm (fun e => z e * exp (d e)).
Definition lin (z d : idx -> R) : idx -> R := fun e => z e * (d e - rowsum (fun e' => z e' * d e') (row_of e)).
Definition simplex (rows : list idx) (z : idx -> R) : Prop := forall r, In r rows -> (forall j, (j < K)%nat -> 0 <= z (key r j)) /\ rowsum z r = 1.

Lemma rsum_ge : forall (f : nat -> R) l x, (forall y, In y l -> 0 <= f y) -> In x l -> f x <= rsum f l.
Proof.
  intros f l x. induction l as [|y l IH]; intros Hp Hx; [destruct Hx|]. change (f x <= f y + rsum f l). pose proof (rsum_pos f l (fun z Hz => Hp z (or_intror Hz))). destruct Hx as [->|Hx]; [lra|].
  specialize (IH (fun z Hz => Hp z (or_intror Hz)) Hx). specialize (Hp y (or_introl eq_refl)). lra.
Qed.
Lemma simplex_le : forall rows z r j, simplex rows z -> In r rows -> (j < K)%nat -> 0 <= z (key r j) <= 1.
Proof.
  intros rows z r j H Hr Hj. destruct (H r Hr) as [H1 H2]. split; [now apply H1|]. rewrite <- H2. apply (rsum_ge (fun k => z (key r k))); [|apply in_seq; lia]. intros k Hk. apply in_seq in Hk. apply H1. lia.
Qed.
Lemma simplex_cube : forall rows z, simplex rows z -> cube (noise rows) z.
Proof. intros rows z H e He. apply in_noise in He. destruct He as [r [j [Hr [-> Hj]]]]. now apply (simplex_le rows). Qed.
Lemma weighted : forall rows z d r M, simplex rows z -> In r rows -> (forall j, (j < K)%nat -> Rabs (d (key r j)) <= M) -> Rabs (rowsum (fun e => z e * d e) r) <= M.
Proof.
  intros rows z d r M H Hr Hd. destruct (H r Hr) as [H1 H2]. apply Rle_trans with (M * rowsum z r); [|rewrite H2; lra]. unfold rowsum.
  assert (Q : forall l, (forall j, In j l -> (j < K)%nat) -> Rabs (rsum (fun k => z (key r k) * d (key r k)) l) <= M * rsum (fun k => z (key r k)) l).
  { induction l as [|j l IH]; intros Hl; [cbn; rewrite Rabs_R0; lra|]. change (Rabs (z (key r j) * d (key r j) + rsum (fun k => z (key r k) * d (key r k)) l) <= M * (z (key r j) + rsum (fun k => z (key r k)) l)).
    eapply Rle_trans; [apply Rabs_triang|]. specialize (IH (fun i Hi => Hl i (or_intror Hi))). rewrite Rabs_mult. assert (Hj : (j < K)%nat) by (apply Hl; now left). specialize (H1 j Hj). specialize (Hd j Hj).
    rewrite (Rabs_pos_eq (z (key r j))) by exact H1. nra. }
  apply Q. intros j Hj. apply in_seq in Hj. lia.
Qed.
Lemma rowsum_ext : forall f g r, (forall j, (j < K)%nat -> f (key r j) = g (key r j)) -> rowsum f r = rowsum g r.
Proof. intros f g r H. unfold rowsum. apply rsum_ext'. intros j Hj. apply in_seq in Hj. apply H. lia. Qed.
Lemma rowsum_plus : forall f g r, rowsum (fun e => f e + g e) r = rowsum f r + rowsum g r.
Proof. intros. unfold rowsum. apply (rsum_plus (fun k => f (key r k)) (fun k => g (key r k))). Qed.
Lemma rowsum_scal : forall c f r, rowsum (fun e => c * f e) r = c * rowsum f r.
Proof. intros. unfold rowsum. apply (rsum_scal c (fun k => f (key r k))). Qed.
Lemma rowsum_pos : forall w r j, (forall j, (j < K)%nat -> 0 < w (key r j)) -> (j < K)%nat -> 0 < rowsum w r.
Proof.
  intros w r j H Hj. apply Rlt_le_trans with (w (key r j)); [now apply H|]. apply (rsum_ge (fun k => w (key r k))); [|apply in_seq; lia]. intros k Hk. apply in_seq in Hk. left. apply H. lia.
Qed.
Lemma norm_simplex : forall rows w, (0 < K)%nat -> (forall r j, In r rows -> (j < K)%nat -> 0 < w (key r j)) -> simplex rows (norm w).
Proof.
  intros rows w HK H r Hr. pose proof (rowsum_pos w r 0 (fun j Hj => H r j Hr Hj) HK) as P. split.
  - intros j Hj. unfold norm. rewrite row_key. left. apply Rdiv_lt_0_compat; [now apply H|exact P].
  - rewrite (rowsum_ext _ (fun e => / rowsum w r * w e)) by (intros j Hj; unfold norm; rewrite row_key; unfold Rdiv; ring). rewrite rowsum_scal. field. lra.
Qed.
Lemma norm_shift : forall rows w d r j, (forall r j, In r rows -> (j < K)%nat -> 0 < w (key r j)) -> In r rows -> (j < K)%nat ->
  norm (fun e => w e * exp (d e)) (key r j) = shift (norm w) d (key r j).
Proof.
  intros rows w d r j H Hr Hj. unfold shift. unfold norm at 1 2. rewrite row_key.
  pose proof (rowsum_pos w r j (fun j Hj => H r j Hr Hj) Hj) as P.
  rewrite (rowsum_ext (fun e => norm w e * exp (d e)) (fun e => / rowsum w r * (w e * exp (d e)))) by (intros i Hi; unfold norm; rewrite row_key; unfold Rdiv; ring).
  rewrite rowsum_scal. assert (P2 : 0 < rowsum (fun e => w e * exp (d e)) r) by (apply (rowsum_pos _ r j); [intros i Hi; apply Rmult_lt_0_compat; [now apply H|apply exp_pos]|exact Hj]).
  unfold norm. rewrite row_key. field. split; lra.
Qed.

Lemma shift_lin : forall rows z d r j M, simplex rows z -> In r rows -> (j < K)%nat -> 0 <= M <= 1 / 4 -> (forall i, (i < K)%nat -> Rabs (d (key r i)) <= M) ->
  Rabs (shift z d (key r j) - z (key r j) - lin z d (key r j)) <= 16 * (M * M).
Proof.
  intros rows z d r j M Hz Hr Hj HM Hd. unfold shift, norm, lin. rewrite row_key. set (m := rowsum (fun e => z e * d e) r). set (rho := fun e => exp (d e) - 1 - d e).
  assert (Hrho : forall i, (i < K)%nat -> Rabs (rho (key r i)) <= 2 * (M * M)).
  { intros i Hi. specialize (Hd i Hi). unfold rho. eapply Rle_trans; [apply exp_near; lra|]. apply Rmult_le_compat_l; [lra|]. pose proof (Rabs_pos (d (key r i))).
    replace (d (key r i) * d (key r i)) with (Rabs (d (key r i)) * Rabs (d (key r i))) by (rewrite <- Rabs_mult; apply Rabs_pos_eq; nra). nra. }
  assert (Hm : Rabs m <= M) by now apply (weighted rows). set (s := rowsum (fun e => z e * rho e) r). assert (Hs : Rabs s <= 2 * (M * M)) by now apply (weighted rows).
  assert (ES : rowsum (fun e => z e * exp (d e)) r = 1 + m + s).
  { unfold m, s. destruct (Hz r Hr) as [_ <-]. rewrite <- !rowsum_plus. apply rowsum_ext. intros i _. unfold rho. ring. }
  rewrite ES. pose proof (simplex_le rows z r j Hz Hr Hj) as Z. specialize (Hrho j Hj). specialize (Hd j Hj). set (x := z (key r j)) in *. set (y := d (key r j)) in *.
  replace (exp y) with (1 + y + rho (key r j)) by (unfold rho; fold y; ring). set (q := rho (key r j)) in *.
  apply Rabs_le_between in Hm, Hs, Hd, Hrho. assert (P : 1 / 2 <= 1 + m + s) by nra.
  replace (x * (1 + y + q) / (1 + m + s) - x - x * (y - m)) with (x * ((q - m * (y - m) - (1 + y - m) * s) / (1 + m + s))) by (field; lra).
  assert (MY : Rabs (m * (y - m)) <= 2 * (M * M)) by (rewrite Rabs_mult; replace (2 * (M * M)) with (M * (2 * M)) by ring; apply Rmult_le_compat; try apply Rabs_pos; apply Rabs_le; lra).
  assert (SS : Rabs ((1 + y - m) * s) <= 4 * (M * M)) by (rewrite Rabs_mult; replace (4 * (M * M)) with (2 * (2 * (M * M))) by ring; apply Rmult_le_compat; try apply Rabs_pos; apply Rabs_le; lra).
  apply Rabs_le_between in MY, SS. set (N := q - m * (y - m) - (1 + y - m) * s) in *. assert (HN : Rabs N <= 8 * (M * M)) by (unfold N; apply Rabs_le; lra).
  rewrite Rabs_mult, (Rabs_pos_eq x) by lra. unfold Rdiv. rewrite Rabs_mult, (Rabs_pos_eq (/ (1 + m + s))) by (left; apply Rinv_0_lt_compat; lra).
  assert (I : 0 < / (1 + m + s) <= 2) by (split; [apply Rinv_0_lt_compat; lra|replace 2 with (/ (1 / 2)) by field; apply Rinv_le_contravar; lra]). pose proof (Rabs_pos N).
  assert (Rabs N * / (1 + m + s) <= 8 * (M * M) * 2) by (apply Rmult_le_compat; lra). assert (0 <= Rabs N * / (1 + m + s)) by (apply Rmult_le_pos; lra). nra.
Qed.
Lemma lin_minus : forall z d d' h r j, lin z d (key r j) - h * lin z d' (key r j) = lin z (fun e => d e - h * d' e) (key r j).
Proof.
  intros z d d' h r j. unfold lin. rewrite row_key. rewrite (rowsum_ext (fun e => z e * (d e - h * d' e)) (fun e => z e * d e + - h * (z e * d' e))) by (intros; ring). rewrite rowsum_plus, rowsum_scal. ring.
Qed.
Lemma lin_le : forall rows z d r j M, simplex rows z -> In r rows -> (j < K)%nat -> (forall i, (i < K)%nat -> Rabs (d (key r i)) <= M) -> Rabs (lin z d (key r j)) <= 2 * M.
Proof.
  intros rows z d r j M Hz Hr Hj Hd. unfold lin. rewrite row_key, Rabs_mult. pose proof (weighted rows z d r M Hz Hr Hd) as W. pose proof (simplex_le rows z r j Hz Hr Hj) as Z. rewrite Rabs_pos_eq by lra.
  specialize (Hd j Hj). apply Rabs_le_between in W, Hd. assert (Rabs (d (key r j) - rowsum (fun e => z e * d e) r) <= 2 * M) by (apply Rabs_le; lra). pose proof (Rabs_pos (d (key r j) - rowsum (fun e => z e * d e) r)). nra.
Qed.

(** ** Functions of relaxed samples *)
Section Compose.
Variable dom : (idx -> R) -> Prop.
Variable rows : list idx.
Variable w : (idx -> R) -> idx -> R.
Variable d : R -> (idx -> R) -> idx -> R.
Variable d' : (idx -> R) -> idx -> R.
Hypothesis HK : (0 < K)%nat.
Hypothesis Hw : forall u r j, dom u -> In r rows -> (j < K)%nat -> 0 < w u (key r j).
Hypothesis Hd : forall r j, In r rows -> (j < K)%nat -> small dom (fun h u => d h u (key r j) - h * d' u (key r j)).
Hypothesis Hd' : forall r j, In r rows -> (j < K)%nat -> bounded dom (fun u => d' u (key r j)).
Let z (u : idx -> R) : idx -> R := norm (w u).
Lemma z_simplex : forall u, dom u -> simplex rows (z u).
Proof. intros u Hu. apply norm_simplex; [exact HK|]. intros r j Hr Hj. now apply Hw. Qed.
Lemma norm_pos : forall u r j, dom u -> In r rows -> (j < K)%nat -> 0 < z u (key r j).
Proof. intros u r j Hu Hr Hj. unfold z, norm. rewrite row_key. apply Rdiv_lt_0_compat; [now apply Hw|]. apply (rowsum_pos _ r j); [intros i Hi; now apply Hw|exact Hj]. Qed.
Lemma lin_sum : forall x dd r j, lin x dd (key r j) = x (key r j) * dd (key r j) + rsum (fun k => - (x (key r j) * x (key r k)) * dd (key r k)) (seq 0 K).
Proof.
  intros x dd r j. unfold lin. rewrite row_key. unfold rowsum. rewrite (rsum_ext' (fun k => - (x (key r j) * x (key r k)) * dd (key r k)) (fun k => - x (key r j) * (x (key r k) * dd (key r k)))) by (intros; ring).
  rewrite (rsum_scal (- x (key r j)) (fun k => x (key r k) * dd (key r k))). ring.
Qed.
Lemma z_bounded : forall r j, In r rows -> (j < K)%nat -> bounded dom (fun u => z u (key r j)).
Proof. intros r j Hr Hj. exists 1. intros u Hu. pose proof (simplex_le rows _ r j (z_simplex u Hu) Hr Hj). apply Rabs_le. lra. Qed.
Lemma bounded_mult : forall f g, bounded dom f -> bounded dom g -> bounded dom (fun u => f u * g u).
Proof. intros f g [B HB] [B' HB']. exists (B * B'). intros u Hu. rewrite Rabs_mult. apply Rmult_le_compat; try apply Rabs_pos; auto. Qed.
Lemma bounded_opp : forall f, bounded dom f -> bounded dom (fun u => - f u).
Proof. intros f [B HB]. exists B. intros u Hu. rewrite Rabs_Ropp. now apply HB. Qed.
Lemma bounded_plus : forall f g, bounded dom f -> bounded dom g -> bounded dom (fun u => f u + g u).
Proof. intros f g [B HB] [B' HB']. exists (B + B'). intros u Hu. eapply Rle_trans; [apply Rabs_triang|]. specialize (HB u Hu). specialize (HB' u Hu). lra. Qed.
Lemma bounded_sum : forall {A} (xs : list A) (f : A -> (idx -> R) -> R), (forall x, In x xs -> bounded dom (f x)) -> bounded dom (fun u => rsum (fun x => f x u) xs).
Proof.
  intros A xs f. induction xs as [|x xs IH]; intros H; [exists 0; intros u _; cbn; rewrite Rabs_R0; lra|]. apply (bounded_plus (f x) (fun u => rsum (fun x => f x u) xs)); [apply H; now left|]. apply IH. intros; apply H; now right.
Qed.
Lemma lin_bounded : forall r j, In r rows -> (j < K)%nat -> bounded dom (fun u => lin (z u) (d' u) (key r j)).
Proof.
  intros r j Hr Hj. assert (Q : bounded dom (fun u => z u (key r j) * d' u (key r j) + rsum (fun k => - (z u (key r j) * z u (key r k)) * d' u (key r k)) (seq 0 K))).
  { apply bounded_plus; [apply bounded_mult; [now apply z_bounded|now apply Hd']|]. apply (bounded_sum (seq 0 K) (fun k u => - (z u (key r j) * z u (key r k)) * d' u (key r k))). intros k Hk. apply in_seq in Hk.
    apply bounded_mult; [|apply Hd'; auto; lia]. apply bounded_opp, bounded_mult; apply z_bounded; auto; lia. }
  destruct Q as [B HB]. exists B. intros u Hu. rewrite lin_sum. now apply HB.
Qed.
Lemma shift_diff : forall r j, In r rows -> (j < K)%nat -> small dom (fun h u => shift (z u) (d h u) (key r j) - z u (key r j) - h * lin (z u) (d' u) (key r j)).
Proof.
  intros r j Hr Hj.
  assert (A1 : small dom (fun h u => shift (z u) (d h u) (key r j) - z u (key r j) - lin (z u) (d h u) (key r j))).
  { destruct (linear_all dom (seq 0 K) (fun k h u => d h u (key r k))) as [C [q [HC [Hq Q]]]].
    { intros k Hk. apply in_seq in Hk. apply (small_linear dom _ (fun u => d' u (key r k))); [apply Hd; auto; lia|apply Hd'; auto; lia]. }
    assert (P4 : 0 < 4 * (C + 1)) by lra. apply (small_square dom _ (16 * (C * C)) (Rmin q (1 / (4 * (C + 1))))); [apply Rmin_glb_lt; [exact Hq|apply Rdiv_lt_0_compat; lra]|].
    intros h u Hh Hu. pose proof (Rmin_l q (1 / (4 * (C + 1)))). pose proof (Rmin_r q (1 / (4 * (C + 1)))). pose proof (Rabs_pos h).
    replace (16 * (C * C) * (Rabs h * Rabs h)) with (16 * (C * Rabs h * (C * Rabs h))) by ring. apply (shift_lin rows); [now apply z_simplex|exact Hr|exact Hj| |].
    - split; [apply Rmult_le_pos; lra|]. apply Rle_trans with ((C + 1) * (1 / (4 * (C + 1)))); [apply Rmult_le_compat; lra|]. right. field. lra.
    - intros i Hi. apply Q; [lra|exact Hu|apply in_seq; lia]. }
  assert (A2 : small dom (fun h u => lin (z u) (fun e => d h u e - h * d' u e) (key r j))).
  { apply (small_ext dom (fun h u => z u (key r j) * (d h u (key r j) - h * d' u (key r j)) + rsum (fun k => - (z u (key r j) * z u (key r k)) * (d h u (key r k) - h * d' u (key r k))) (seq 0 K))) with (q := 1); [lra| |].
    - intros h u _ _. now rewrite lin_sum.
    - apply (small_plus dom (fun h u => z u (key r j) * (d h u (key r j) - h * d' u (key r j)))).
      + apply (small_mult dom (fun u => z u (key r j))); [now apply z_bounded|now apply Hd].
      + apply (small_sum dom (seq 0 K) (fun k h u => - (z u (key r j) * z u (key r k)) * (d h u (key r k) - h * d' u (key r k)))). intros k Hk. apply in_seq in Hk.
        apply (small_mult dom (fun u => - (z u (key r j) * z u (key r k)))); [|apply Hd; auto; lia]. apply bounded_opp, bounded_mult; apply z_bounded; auto; lia. }
  apply (small_ext dom (fun h u => (shift (z u) (d h u) (key r j) - z u (key r j) - lin (z u) (d h u) (key r j)) + lin (z u) (fun e => d h u e - h * d' u e) (key r j))) with (q := 1); [lra| |now apply small_plus].
  intros h u _ _. rewrite <- lin_minus. ring.
Qed.

Theorem compose_diff : forall c dc, smooth (noise rows) c dc ->
  small dom (fun h u => c (shift (z u) (d h u)) - c (z u) - h * rsum (fun e => dc e (z u) * lin (z u) (d' u) e) (noise rows)).
Proof.
  intros c dc [Cc [Cd Sm]].
  assert (SD : forall e, In e (noise rows) -> small dom (fun h u => shift (z u) (d h u) e - z u e - h * lin (z u) (d' u) e)).
  { intros e He. apply in_noise in He. destruct He as [r [j [Hr [-> Hj]]]]. now apply shift_diff. }
  assert (LD : forall e, In e (noise rows) -> linear_small dom (fun h u => shift (z u) (d h u) e - z u e)).
  { intros e He. apply (small_linear dom _ (fun u => lin (z u) (d' u) e)); [now apply SD|]. apply in_noise in He. destruct He as [r [j [Hr [-> Hj]]]]. now apply lin_bounded. }
  destruct (linear_all dom (noise rows) (fun e h u => shift (z u) (d h u) e - z u e) LD) as [C [q [HC [Hq Q]]]].
  assert (Cz : forall u, dom u -> cube (noise rows) (z u)) by (intros u Hu; apply simplex_cube; now apply z_simplex).
  assert (Cs : forall h u, dom u -> cube (noise rows) (shift (z u) (d h u))).
  { intros h u Hu. apply simplex_cube. apply norm_simplex; [exact HK|]. intros r j Hr Hj. apply Rmult_lt_0_compat; [now apply norm_pos|apply exp_pos]. }
  set (N := INR (length (noise rows))). assert (HN : 0 <= N) by apply pos_INR.
  assert (A1 : small dom (fun h u => c (shift (z u) (d h u)) - c (z u) - rsum (fun e => dc e (z u) * (shift (z u) (d h u) e - z u e)) (noise rows))).
  { intros eps He. assert (PD0 : 0 <= N * C) by now apply Rmult_le_pos. assert (PD : 0 < N * C + 1) by lra. destruct (Sm (eps / (N * C + 1)) ltac:(now apply Rdiv_lt_0_compat)) as [dd [Hdd Sd]].
    exists (Rmin q (dd / (C + 1))). split; [apply Rmin_glb_lt; [exact Hq|apply Rdiv_lt_0_compat; lra]|]. intros h u Hh Hu. pose proof (Rmin_l q (dd / (C + 1))). pose proof (Rmin_r q (dd / (C + 1))). pose proof (Rabs_pos h).
    assert (Hc : (C + 1) * Rabs h < dd) by (apply Rlt_le_trans with ((C + 1) * (dd / (C + 1))); [apply Rmult_lt_compat_l; lra|right; field; lra]).
    eapply Rle_trans; [apply (Sd (z u) (shift (z u) (d h u))); auto|].
    - intros e Hin. eapply Rle_lt_trans; [apply (Q h u e); auto; lra|]. lra.
    - change (eps / (N * C + 1) * rsum (fun e => Rabs (shift (z u) (d h u) e - z u e)) (noise rows) <= eps * Rabs h).
      assert (X : rsum (fun e => Rabs (shift (z u) (d h u) e - z u e)) (noise rows) <= N * (C * Rabs h)).
      { unfold N. assert (G : forall l, incl l (noise rows) -> rsum (fun e => Rabs (shift (z u) (d h u) e - z u e)) l <= INR (length l) * (C * Rabs h)).
        { induction l as [|e l IH]; intros Hi; [cbn; lra|]. change (Rabs (shift (z u) (d h u) e - z u e) + rsum (fun e => Rabs (shift (z u) (d h u) e - z u e)) l <= INR (S (length l)) * (C * Rabs h)).
          rewrite S_INR. specialize (IH (fun x Hx => Hi x (or_intror Hx))). pose proof (Q h u e ltac:(lra) Hu (Hi e (or_introl eq_refl))). lra. }
        apply G, incl_refl. }
      apply Rle_trans with (eps / (N * C + 1) * (N * (C * Rabs h))); [apply Rmult_le_compat_l; [left; now apply Rdiv_lt_0_compat|exact X]|].
      apply Rle_trans with (eps / (N * C + 1) * ((N * C + 1) * Rabs h)); [apply Rmult_le_compat_l; [left; now apply Rdiv_lt_0_compat|nra]|]. right. field. lra. }
  assert (A2 : small dom (fun h u => rsum (fun e => dc e (z u) * (shift (z u) (d h u) e - z u e - h * lin (z u) (d' u) e)) (noise rows))).
  { apply (small_sum dom (noise rows) (fun e h u => dc e (z u) * (shift (z u) (d h u) e - z u e - h * lin (z u) (d' u) e))). intros e He. apply (small_mult dom (fun u => dc e (z u))); [|now apply SD].
    destruct (Cd e He) as [[B HB] _]. exists B. intros u Hu. apply HB. now apply Cz. }
  apply (small_ext dom (fun h u => (c (shift (z u) (d h u)) - c (z u) - rsum (fun e => dc e (z u) * (shift (z u) (d h u) e - z u e)) (noise rows)) + rsum (fun e => dc e (z u) * (shift (z u) (d h u) e - z u e - h * lin (z u) (d' u) e)) (noise rows)))
    with (q := 1); [lra| |now apply small_plus].
  intros h u _ _. rewrite (rsum_ext' (fun e => dc e (z u) * (shift (z u) (d h u) e - z u e - h * lin (z u) (d' u) e)) (fun e => dc e (z u) * (shift (z u) (d h u) e - z u e) + - h * (dc e (z u) * lin (z u) (d' u) e))) by (intros; ring).
  rewrite (rsum_plus (fun e => dc e (z u) * (shift (z u) (d h u) e - z u e))), (rsum_scal (- h) (fun e => dc e (z u) * lin (z u) (d' u) e)). ring.
Qed.
End Compose.
End Shift.
