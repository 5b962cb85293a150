(** Proofs about the weights. *)
From Coq Require Import Reals List Arith Bool Lia Lra.
From Verif Require Import Base Swor SpecSwor SworProofs2 SworTotal SworWeights.
Import ListNotations.

Lemma q_pos : forall kappa l, (0 < iw_q kappa l)%R.
Proof.
  intros [t|] l; unfold iw_q; [|lra]. pose proof (exp_pos (l - t)).
  assert (exp (- exp (l - t)) < exp 0)%R by (apply exp_increasing; lra). rewrite exp_0 in H0. lra.
Qed.

Lemma iw_shape : forall lp pert, length lp = length pert -> pert <> [] ->
  compute_iw lp pert = map (fun l => (exp l / (iw_q (nth (length pert - 1) pert None) l + iw_eps))%R) (firstn (length pert - 1) lp) ++ [0%R].
Proof.
  intros lp pert HL Hne. unfold compute_iw. rewrite firstn_map. f_equal. f_equal.
  rewrite skipn_all2; auto. rewrite map_length. lia.
Qed.

Lemma iw_length : forall lp pert, length lp = length pert -> pert <> [] -> length (compute_iw lp pert) = length pert.
Proof.
  intros lp pert HL Hne. rewrite iw_shape by auto. rewrite app_length, map_length, firstn_length. simpl.
  destruct pert; [congruence|]. simpl in *. lia.
Qed.

Lemma iw_last : forall lp pert, length lp = length pert -> pert <> [] -> nth (length pert - 1) (compute_iw lp pert) 1%R = 0%R.
Proof.
  intros lp pert HL Hne. rewrite iw_shape by auto. rewrite app_nth2; rewrite map_length, firstn_length.
  - replace (_ - _) with 0 by (destruct pert; [congruence|]; simpl in *; lia). reflexivity.
  - lia.
Qed.

Lemma iw_value : forall lp pert j, length lp = length pert -> j < length pert - 1 ->
  nth j (compute_iw lp pert) 0%R = (exp (nth j lp 0) / (iw_q (nth (length pert - 1) pert None) (nth j lp 0) + iw_eps))%R.
Proof.
  intros lp pert j HL Hj. assert (Hne : pert <> []) by (intros ->; simpl in *; lia). rewrite iw_shape by auto.
  rewrite app_nth1 by (rewrite map_length, firstn_length; lia).
  set (f := fun l => _). rewrite nth_indep with (d' := f 0%R) by (rewrite map_length, firstn_length; lia). rewrite map_nth.
  assert (EN : nth j (firstn (length pert - 1) lp) 0%R = nth j lp 0%R).
  { rewrite <- (firstn_skipn (length pert - 1) lp) at 2. rewrite app_nth1 by (rewrite firstn_length; lia). reflexivity. }
  rewrite EN. reflexivity.
Qed.

Lemma eps_pos : (0 < iw_eps)%R.
Proof. unfold iw_eps. lra. Qed.

Lemma iw_term_pos : forall kappa l, (0 < exp l / (iw_q kappa l + iw_eps))%R.
Proof. intros. pose proof (q_pos kappa l). pose proof eps_pos. apply Rdiv_lt_0_compat; [apply exp_pos|lra]. Qed.

Lemma rsum_nonneg : forall l, Forall (Rle 0) l -> (0 <= rsum l)%R.
Proof. unfold rsum. induction 1; simpl; lra. Qed.

Lemma iw_sum_pos : forall lp pert, length lp = length pert -> 2 <= length pert ->
  (0 < rsum (compute_iw lp pert))%R /\ Forall (Rle 0) (compute_iw lp pert).
Proof.
  intros lp pert HL H2. assert (Hne : pert <> []) by (intros ->; simpl in *; lia). rewrite iw_shape by auto.
  set (f := fun l => _). assert (Fp : forall l, (0 < f l)%R) by (intros; apply iw_term_pos).
  assert (FA : forall l, Forall (Rle 0) (map f l ++ [0%R])).
  { intros l. apply Forall_app. split; [|repeat constructor; lra]. apply Forall_forall. intros y Hy. apply in_map_iff in Hy as [x [<- _]].
    specialize (Fp x). lra. }
  split; auto. destruct lp as [|a lp]; [simpl in HL; lia|]. replace (length pert - 1) with (S (length pert - 2)) by lia. simpl firstn.
  simpl map. simpl app. unfold rsum. simpl. specialize (FA (firstn (length pert - 2) lp)). apply rsum_nonneg in FA. unfold rsum in FA.
  specialize (Fp a). lra.
Qed.

Lemma swor_normalised : forall lp pert, length lp = length pert -> 2 <= length pert ->
  exists ws, swor_weights true lp pert = map Some ws /\ total ws = 1%R /\ nth (length pert - 1) ws 1%R = 0%R /\ Forall (Rle 0) ws.
Proof.
  intros lp pert HL H2. destruct (iw_sum_pos lp pert HL H2) as [SP FN].
  assert (Hne : pert <> []) by (intros ->; simpl in *; lia).
  unfold swor_weights. set (iw := compute_iw lp pert) in *. set (W := rsum iw) in *.
  exists (map (Rmult (/ W)) iw). split; [|split; [|split]].
  - rewrite map_map. apply map_ext. intros a. unfold fdiv. destruct (Req_EM_T W 0); [lra|]. f_equal. unfold Rdiv. lra.
  - rewrite total_scale. change (total iw) with W. field. lra.
  - rewrite nth_indep with (d' := (/ W * 1)%R) by (rewrite map_length; unfold iw; rewrite iw_length by auto; lia).
    rewrite (map_nth (Rmult (/ W))). unfold iw. rewrite iw_last by auto. lra.
  - apply Forall_forall. intros y Hy. apply in_map_iff in Hy as [x [<- Hx]]. rewrite Forall_forall in FN. specialize (FN x Hx).
    assert (0 < / W)%R by (apply Rinv_0_lt_compat; auto). apply Rmult_le_pos; lra.
Qed.

Lemma swor_unnormalised : forall lp pert, length lp = length pert -> pert <> [] -> nth (length pert - 1) (swor_weights false lp pert) None = Some 0%R.
Proof.
  intros lp pert HL Hne. unfold swor_weights. rewrite nth_indep with (d' := Some 1%R).
  - rewrite (map_nth Some). now rewrite iw_last.
  - rewrite map_length, iw_length by auto. destruct pert; [congruence|]. simpl. lia.
Qed.

Lemma swor_single : forall l p, swor_weights true [l] [p] = [None].
Proof. intros l p. unfold swor_weights, compute_iw. cbn [length Nat.sub map firstn skipn app]. unfold rsum. simpl. unfold fdiv.
  destruct (Req_EM_T (0 + 0) 0); auto. exfalso. lra. Qed.

Lemma rb_sum : forall k lp, length lp = k -> total (rb_weights k lp) = 1%R /\ length (rb_weights k lp) = Nat.max 1 k.
Proof.
  intros k lp H. unfold rb_weights. apply Nat.eqb_eq in H as E. rewrite E. cbv zeta. split.
  - rewrite total_app. unfold total, rsum. simpl. lra.
  - rewrite app_length, map_length, removelast_firstn_len, firstn_length. cbn [length]. clear E. destruct lp; cbn [length] in *; lia.
Qed.

Lemma tensor_bool_err : forall l e, tensor_bool l = Err e -> e = RuntimeError.
Proof. intros [|b [|c l]] e H; inversion H; reflexivity. Qed.
Lemma mc_eos : forall t fin d, mc_step (Some (S t)) fin d = Err RuntimeError.
Proof.
  intros t fin d. unfold mc_step. destruct fin as [f|].
  - destruct (tensor_bool f) as [b|e] eqn:E; cbn [bind]; [|now rewrite (tensor_bool_err _ _ E)].
    destruct (tensor_bool (map _ _)) as [[|]|e] eqn:F; cbn [bind]; try reflexivity. now rewrite (tensor_bool_err _ _ F).
  - cbn [bind]. destruct (tensor_bool (map _ _)) as [[|]|e] eqn:F; cbn [bind]; try reflexivity. now rewrite (tensor_bool_err _ _ F).
Qed.
