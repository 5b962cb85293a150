(** Functions that do what torch.topk and torch.max promise exist: sorting of the indices. *)
From Coq Require Import Reals List Arith Bool Lia Lra Permutation Sorting.Sorted.
From Verif Require Import Base Swor SpecSwor.
Import ListNotations.

Section Ref.
Context {A : Type}.
Variable le : A -> A -> Prop.
Variable leb : A -> A -> bool.
Hypothesis leb_le : forall a b, leb a b = true -> le a b.
Hypothesis leb_total : forall a b, leb a b = false -> le b a.
Hypothesis le_refl : forall a, le a a.
Hypothesis le_trans : forall a b c, le a b -> le b c -> le a c.
Variable z : A.

Fixpoint ins (l : list A) (i : nat) (s : list nat) : list nat :=
  match s with
  | [] => [i]
  | j :: r => if leb (nth j l z) (nth i l z) then i :: s else j :: ins l i r
  end.
Definition sorted_idx (l : list A) : list nat := fold_right (ins l) [] (seq 0 (length l)).
Definition topk_ref (l : list A) (m : nat) : list nat := firstn m (sorted_idx l).
Definition argmax_ref (l : list A) : nat := hd 0 (sorted_idx l).

Definition desc (l : list A) (i j : nat) : Prop := le (nth j l z) (nth i l z).

Lemma ins_perm : forall l i s, Permutation (ins l i s) (i :: s).
Proof.
  intros l i. induction s as [|j s IH]; simpl; auto. destruct (leb _ _); auto.
  eapply perm_trans; [apply perm_skip, IH|apply perm_swap].
Qed.
Lemma ins_sorted : forall l i s, StronglySorted (desc l) s -> StronglySorted (desc l) (ins l i s).
Proof.
  intros l i. induction s as [|j s IH]; intros H; simpl; [repeat constructor|].
  inversion H as [|? ? Hs Hj]; subst. destruct (leb _ _) eqn:E.
  - constructor; auto. constructor; [apply leb_le; auto|]. eapply Forall_impl; [|exact Hj]. intros x Hx. unfold desc in *.
    eapply le_trans; [exact Hx|]. apply leb_le; auto.
  - constructor; auto. apply Forall_forall. intros x Hx. apply (Permutation_in _ (ins_perm l i s)) in Hx as [<-|Hx].
    + apply leb_total; auto.
    + rewrite Forall_forall in Hj. auto.
Qed.
Lemma fold_perm : forall l s, Permutation (fold_right (ins l) [] s) s.
Proof. induction s as [|i s IH]; simpl; auto. eapply perm_trans; [apply ins_perm|]. auto. Qed.
Lemma fold_sorted : forall l s, StronglySorted (desc l) (fold_right (ins l) [] s).
Proof. induction s as [|i s IH]; simpl; [constructor|]. now apply ins_sorted. Qed.

Lemma ss_nth : forall (P : nat -> nat -> Prop) s, StronglySorted P s -> forall x y i j, x < y -> nth_error s x = Some i -> nth_error s y = Some j -> P i j.
Proof.
  induction 1 as [|a s Hs IH Hf]; intros x y i j Hxy Hx Hy; [destruct x; discriminate|].
  destruct y; [lia|]. simpl in Hy. destruct x; simpl in Hx.
  - injection Hx as <-. rewrite Forall_forall in Hf. apply Hf. eapply nth_error_In; eauto.
  - eapply IH; [|eauto|eauto]. lia.
Qed.

Lemma topk_ref_ok : topk_fn le topk_ref.
Proof.
  intros l m Hm. unfold topk_ref. pose proof (fold_perm l (seq 0 (length l))) as P. fold (sorted_idx l) in P.
  pose proof (fold_sorted l (seq 0 (length l))) as SS. fold (sorted_idx l) in SS. set (s := sorted_idx l) in *.
  assert (ND : NoDup s) by (eapply Permutation_NoDup; [apply Permutation_sym, P|apply seq_NoDup]).
  assert (Ls : length s = length l) by (rewrite (Permutation_length P); apply seq_length).
  assert (NE : forall i a, nth_error l i = Some a -> nth i l z = a) by (intros; now apply nth_error_nth).
  assert (FI : forall x i, nth_error (firstn m s) x = Some i -> nth_error s x = Some i).
  { intros x i Hx. assert (x < length (firstn m s)) by (apply nth_error_Some; congruence).
    rewrite <- (firstn_skipn m s). rewrite nth_error_app1; auto. }
  split; [|split; [|split; [|split]]].
  - rewrite <- (firstn_skipn m s) in ND. clear - ND. induction (firstn m s) as [|i r IH]; simpl in *; constructor.
    + inversion ND; subst. intros H. apply H1. apply in_or_app; auto.
    + inversion ND; subst; auto.
  - rewrite firstn_length. lia.
  - intros i Hi. assert (In i s) by (rewrite <- (firstn_skipn m s); apply in_or_app; auto).
    apply (Permutation_in _ P) in H. apply in_seq in H. lia.
  - intros i j a b Hi Hj Ha Hb. rewrite <- (NE _ _ Ha), <- (NE _ _ Hb). change (desc l i j).
    apply In_nth_error in Hi as [x Hx].
    assert (Js : In j s). { apply (Permutation_in _ (Permutation_sym P)). apply in_seq. split; [lia|]. simpl. apply nth_error_Some. congruence. }
    rewrite <- (firstn_skipn m s) in Js. apply in_app_or in Js as [Js|Js]; [contradiction|]. apply In_nth_error in Js as [y Hy].
    eapply (ss_nth (desc l) s SS x (length (firstn m s) + y)).
    + assert (x < length (firstn m s)) by (apply nth_error_Some; congruence). lia.
    + apply FI; auto.
    + rewrite <- (firstn_skipn m s) at 1. rewrite nth_error_app2 by lia.
      replace (length (firstn m s) + y - length (firstn m s)) with y by lia. exact Hy.
  - intros x y i j a b Hxy Hx Hy Ha Hb. rewrite <- (NE _ _ Ha), <- (NE _ _ Hb). change (desc l i j).
    eapply (ss_nth (desc l) s SS x y); auto.
Qed.

Lemma argmax_ref_ok : argmax_fn le argmax_ref.
Proof.
  intros l Hl. unfold argmax_ref. pose proof (fold_perm l (seq 0 (length l))) as P. fold (sorted_idx l) in P.
  pose proof (fold_sorted l (seq 0 (length l))) as SS. fold (sorted_idx l) in SS.
  destruct (sorted_idx l) as [|i s] eqn:E.
  - apply Permutation_length in P. rewrite seq_length in P. destruct l; [congruence|discriminate].
  - simpl. split.
    + assert (In i (seq 0 (length l))) by (eapply Permutation_in; [exact P|left; auto]). apply in_seq in H. lia.
    + intros j a b Ha Hb. assert (J : In j (i :: s)).
      { apply (Permutation_in _ (Permutation_sym P)). apply in_seq. split; [lia|]. simpl. apply nth_error_Some. congruence. }
      rewrite <- (nth_error_nth l i z Ha), <- (nth_error_nth l j z Hb). destruct J as [<-|J]; auto.
      inversion SS as [|? ? _ F]; subst. rewrite Forall_forall in F. exact (F j J).
Qed.

End Ref.

Definition pleb (a b : option R) : bool :=
  match a, b with None, _ => true | Some x, Some y => if Rle_dec x y then true else false | Some _, None => false end.
Definition rleb (a b : R) : bool := if Rle_dec a b then true else false.

Lemma pleb_ok : (forall a b, pleb a b = true -> ple a b) /\ (forall a b, pleb a b = false -> ple b a) /\
  (forall a, ple a a) /\ (forall a b c, ple a b -> ple b c -> ple a c).
Proof.
  split; [|split; [|split]].
  - intros [x|] [y|]; simpl; auto; try discriminate. destruct (Rle_dec x y); auto; discriminate.
  - intros [x|] [y|]; simpl; auto; try discriminate. destruct (Rle_dec x y); [discriminate|]. intros _. lra.
  - intros [x|]; simpl; auto. apply Rle_refl.
  - intros [x|] [y|] [w|]; simpl; auto; try tauto. intros; lra.
Qed.

Definition topk_perturbed : list (option R) -> nat -> list nat := topk_ref pleb None.
Definition argmax_perturbed : list (option R) -> nat := argmax_ref pleb None.
Definition topk_real : list R -> nat -> list nat := topk_ref rleb 0%R.

Lemma topk_perturbed_ok : topk_fn ple topk_perturbed.
Proof. destruct pleb_ok as [A [B [C D]]]. apply topk_ref_ok; auto. Qed.
Lemma argmax_perturbed_ok : argmax_fn ple argmax_perturbed.
Proof. destruct pleb_ok as [A [B [C D]]]. apply argmax_ref_ok; auto. Qed.
Lemma topk_real_ok : topk_fn Rle topk_real.
Proof.
  apply topk_ref_ok; unfold rleb.
  - intros a b. destruct (Rle_dec a b); auto; discriminate.
  - intros a b. destruct (Rle_dec a b); [discriminate|]. intros _. lra.
  - intros a b c. apply Rle_trans.
Qed.
