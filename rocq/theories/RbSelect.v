(** The selection of RaoBlackwellizedSample. *)
From Coq Require Import Reals List Arith Bool Lia Lra.
From Verif Require Import Base Gumbel Swor SpecSwor SworProofs SworProofs2 SworProofs3.
Import ListNotations.

Lemma nth_error_scatter : forall {A} (l : list A) idx v i, nth_error (scatter l idx v) i =
  if i <? length l then Some (if existsb (Nat.eqb i) idx then v else nth i l v) else None.
Proof.
  intros A l idx v i. unfold scatter. destruct (Nat.ltb_spec i (length l)) as [Lt|Ge].
  - rewrite (nth_error_nth' _ v) by (now rewrite map_length, seq_length). now rewrite nth_map_seq.
  - apply nth_error_None. rewrite map_length, seq_length. auto.
Qed.

Lemma existsb_In : forall i l, existsb (Nat.eqb i) l = true <-> In i l.
Proof.
  intros i l. rewrite existsb_exists. split.
  - intros [x [H E]]. apply Nat.eqb_eq in E. now subst.
  - intros H. exists i. split; auto. apply Nat.eqb_refl.
Qed.

Lemma rb_spec : forall tp am k pert joint, topk_fn Rle tp -> argmax_fn ple am -> 1 <= k -> length pert = length joint -> k <= length pert ->
  Forall (fun p => exists r, p = Some r /\ (- (10 ^ 10) < r)%R) pert ->
  exists top j, select_rb tp am k pert joint = top ++ [j] /\ is_topk Rle joint (k - 1) top /\ ~ In j top /\ j < length pert /\
    forall i, i < length pert -> ~ In i top -> ple (nth i pert None) (nth j pert None).
Proof.
  intros tp am k pert joint Htp Ham Hk HL Hge HP. unfold select_rb. rewrite (Nat.min_l k (length pert)) by lia.
  rewrite Nat.eqb_refl. rewrite (Nat.min_l (k - 1) k) by lia. set (top := tp joint (k - 1)).
  assert (Ht : is_topk Rle joint (k - 1) top) by (apply Htp; lia).
  set (f := scatter pert top (Some (- (10 ^ 10))%R)). exists top, (am f).
  assert (Lf : length f = length pert) by (unfold f, scatter; now rewrite map_length, seq_length).
  destruct (Ham f) as [A1 A2]; [intros E; rewrite E in Lf; simpl in Lf; lia|]. rewrite Lf in A1.
  assert (NE : forall i, i < length pert -> nth_error f i = Some (if existsb (Nat.eqb i) top then Some (- 10 ^ 10)%R else nth i pert None)).
  { intros i Hi. unfold f. rewrite nth_error_scatter. apply Nat.ltb_lt in Hi as Hb. rewrite Hb. destruct (existsb _ _); auto. f_equal. apply nth_indep; auto. }
  rewrite Forall_forall in HP.
  assert (NI : ~ In (am f) top).
  { intros Hin. destruct Ht as [ND [LT [RT _]]].
    assert (exists i, i < length pert /\ ~ In i top) as [i [Hi Hn]].
    { destruct (existsb (fun i => negb (existsb (Nat.eqb i) top)) (seq 0 (length pert))) eqn:E.
      - apply existsb_exists in E as [i [Hi E]]. apply in_seq in Hi. exists i. split; [lia|]. intros Hin'. apply existsb_In in Hin'. now rewrite Hin' in E.
      - exfalso. assert (incl (seq 0 (length pert)) top).
        { intros i Hi. apply existsb_In. destruct (existsb (Nat.eqb i) top) eqn:E2; auto.
          assert (existsb (fun i => negb (existsb (Nat.eqb i) top)) (seq 0 (length pert)) = true) by (apply existsb_exists; exists i; rewrite E2; auto). congruence. }
        apply NoDup_incl_length in H; [|apply seq_NoDup]. rewrite seq_length in H. lia. }
    pose proof (NE _ A1) as N1. apply existsb_In in Hin. rewrite Hin in N1.
    pose proof (NE i Hi) as N2. destruct (existsb (Nat.eqb i) top) eqn:E; [apply existsb_In in E; contradiction|].
    specialize (A2 i _ _ N1 N2). destruct (HP (nth i pert None)) as [r [Er Hr]]; [apply nth_In; auto|]. rewrite Er in A2. simpl in A2. lra. }
  split; auto. split; auto. split; auto. split; auto. intros i Hi Hn.
  pose proof (NE _ A1) as N1. pose proof (NE i Hi) as N2.
  destruct (existsb (Nat.eqb (am f)) top) eqn:E1; [apply existsb_In in E1; contradiction|].
  destruct (existsb (Nat.eqb i) top) eqn:E2; [apply existsb_In in E2; contradiction|].
  exact (A2 i _ _ N1 N2).
Qed.

(** With nothing but minus infinity outside the most probable options, one of these is selected twice. *)
Lemma rb_twice : forall tp am k pert joint, topk_fn Rle tp -> argmax_fn ple am -> 2 <= k -> length pert = length joint -> k <= length pert ->
  (forall i, i < length pert -> ~ In i (tp joint (k - 1)) -> nth i pert None = None) -> ~ NoDup (select_rb tp am k pert joint).
Proof.
  intros tp am k pert joint Htp Ham Hk HL Hge HP. unfold select_rb. rewrite (Nat.min_l k (length pert)) by lia.
  rewrite Nat.eqb_refl. rewrite (Nat.min_l (k - 1) k) by lia. set (top := tp joint (k - 1)) in *.
  destruct (Htp joint (k - 1)) as [ND [LT [RT _]]]; [lia|]. fold top in ND, LT, RT.
  set (f := scatter pert top (Some (- (10 ^ 10))%R)).
  assert (Lf : length f = length pert) by (unfold f, scatter; now rewrite map_length, seq_length).
  destruct (Ham f) as [A1 A2]; [intros E; rewrite E in Lf; simpl in Lf; lia|]. rewrite Lf in A1.
  assert (NE : forall i, i < length pert -> nth_error f i = Some (if existsb (Nat.eqb i) top then Some (- 10 ^ 10)%R else nth i pert None)).
  { intros i Hi. unfold f. rewrite nth_error_scatter. apply Nat.ltb_lt in Hi as Hb. rewrite Hb. destruct (existsb _ _); auto. f_equal. apply nth_indep; auto. }
  assert (In (am f) top).
  { destruct (existsb (Nat.eqb (am f)) top) eqn:E; [now apply existsb_In|]. exfalso.
    assert (Hn : ~ In (am f) top) by (intros H; apply existsb_In in H; congruence).
    destruct top as [|i top'] eqn:Etop; [simpl in LT; lia|].
    assert (Hi : i < length pert) by (rewrite HL; apply RT; left; auto).
    pose proof (NE _ A1) as N1. rewrite E, (HP _ A1 Hn) in N1. pose proof (NE i Hi) as N2.
    replace (existsb (Nat.eqb i) (i :: top')) with true in N2 by (symmetry; apply existsb_In; left; auto).
    exact (A2 i _ _ N1 N2). }
  intros ND2. apply NoDup_remove_2 in ND2. rewrite app_nil_r in ND2. contradiction.
Qed.
