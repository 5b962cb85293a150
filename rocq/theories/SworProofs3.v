(** Sampling without replacement: chains of variables. *)
From Coq Require Import Reals List Arith Bool Lia Lra.
From Verif Require Import Base Gumbel GumbelProofs Swor SpecSwor SworProofs SworProofs2.
Import ListNotations.

Lemma NoDup_map_seq : forall {A} (f : nat -> A) n s, (forall i j, s <= i < s + n -> s <= j < s + n -> f i = f j -> i = j) -> NoDup (map f (seq s n)).
Proof.
  intros A f. induction n as [|n IH]; intros s H; simpl; constructor.
  - intros Hin. apply in_map_iff in Hin as [j [E Hj]]. apply in_seq in Hj. assert (j = s) by (apply H; auto; lia). lia.
  - apply IH. intros i j Hi Hj. apply H; lia.
Qed.

Lemma app_inj_len : forall {A} (a b c d : list A), length b = length d -> a ++ b = c ++ d -> a = c /\ b = d.
Proof.
  intros A a b c d HL H. assert (length a = length c) by (apply (f_equal (@length A)) in H; rewrite !app_length in H; lia).
  revert c H0 H. induction a as [|x a IH]; intros [|y c] H0 H; simpl in *; try discriminate; auto.
  injection H as -> H. destruct (IH c) as [-> ->]; auto; lia.
Qed.

Lemma continue_length : forall F o, length (continue_with F o) = length (fst o).
Proof. intros. unfold continue_with. now rewrite map_length, seq_length. Qed.

Lemma nth_map_seq : forall {A} (f : nat -> A) n j d, j < n -> nth j (map f (seq 0 n)) d = f j.
Proof. intros A f n j d H. rewrite nth_indep with (d' := f 0) by (now rewrite map_length, seq_length).
  rewrite map_nth, seq_nth; auto. Qed.

Lemma drawn_lp : forall k n x d base rows parent joint prev, drawn k n x d base rows parent joint ->
  (forall i, i < n -> base i = nth i prev 0%R) -> joint = continue_lp prev (x, (rows, parent)).
Proof.
  intros k n x d base rows parent joint prev D HB. apply nth_ext with (d := 0%R) (d' := 0%R).
  - rewrite (d_joint _ _ _ _ _ _ _ _ D). unfold continue_lp. now rewrite map_length, seq_length.
  - intros j Hj. rewrite (d_joint _ _ _ _ _ _ _ _ D) in Hj. unfold continue_lp. rewrite nth_map_seq by auto.
    rewrite (d_lp _ _ _ _ _ _ _ _ D) by auto. cbv zeta. f_equal. apply HB.
    pose proof (d_par _ _ _ _ _ _ _ _ D) as P. destruct parent as [p|]; [|lia]. destruct P as [P1 P2]. apply P2. apply nth_In. lia.
Qed.

Lemma min_chain : forall k N M, 1 <= M -> Nat.min k (Nat.min k N * M) = Nat.min k (N * M).
Proof. intros k N M H. destruct (Nat.le_ge_cases k N); [rewrite (Nat.min_l k N) by lia|rewrite (Nat.min_r k N) by lia]; nia. Qed.

Lemma pow_pos : forall d e, 1 <= d -> 1 <= d ^ e.
Proof. intros. pose proof (Nat.pow_nonzero d e). lia. Qed.

Section Chain.
Variable k : nat.
Hypothesis Hk : 1 <= k.
Variable select : list (option R) -> list R -> list nat.
Hypothesis Hsel : good_select k select.

Definition fin_ok (eos : option nat) (s : sstate) : Prop :=
  match ss_fin s with None => True | Some (ev, _) => ev = [] /\ exists t, eos = Some (S t) end.

Lemma fin_compute : forall eos s, fin_ok eos s -> exists fin,
  match ss_fin s with
  | None => Ok None
  | Some (ev, f) => match ev, eos with
                    | [], Some t => Ok (Some (t, map (fun r => nth 0 r false) f))
                    | _, _ => Err IndexError
                    end
  end = Ok fin.
Proof.
  intros eos s H. unfold fin_ok in H. destruct (ss_fin s) as [[ev f]|]; [|eexists; reflexivity].
  destruct H as [-> [t ->]]. eexists; reflexivity.
Qed.

Lemma fin_next : forall eos x s rows joint pert, eos_ok eos x -> fin_ok eos s ->
  fin_ok eos (mkSState joint pert match eos with Some (S t) => Some (v_events x, map (map (Nat.eqb (S t))) rows) | _ => ss_fin s end).
Proof.
  intros eos x s rows joint pert H1 H2. unfold fin_ok, eos_ok in *. cbn [ss_fin]. destruct eos as [[|t]|]; auto. split; eauto.
Qed.

Definition chain_ok (F : list (list nat)) (xs : list var) (ds : list nat) (N : nat) (l : list R)
  (outs : list (list (list nat) * option (list nat))) (s : sstate) : Prop :=
  let F' := fold_left continue_with outs F in
  NoDup F' /\ length F' = Nat.min k (N * outcomes xs ds) /\
  (forall q, In q F' -> exists f t, q = f ++ t /\ In f F /\ outcome xs ds t) /\
  ss_joint s = Some (fold_left continue_lp (combine xs outs) l) /\ length outs = length xs /\
  length (ss_pert s) = length F' /\ length (fold_left continue_lp (combine xs outs) l) = length F'.

Lemma chain_next : forall eos xs ds, Forall2 has_domain xs ds -> Forall2 (slice_ok k false) xs ds -> Forall (eos_ok eos) xs ->
  forall F s l N, NoDup F -> 1 <= length F -> length F = Nat.min k N -> ss_joint s = Some l -> length l = length F ->
    length (ss_pert s) = length F -> fin_ok eos s ->
    exists outs s', sample_vars select k eos xs s = Ok (outs, s') /\ chain_ok F xs ds N l outs s'.
Proof.
  intros eos. induction xs as [|x xs IH]; intros ds HD HS HEos F s l N ND Hge HN HJ HL HP HF.
  - inversion HD; subst. exists [], s. split; auto. unfold chain_ok. cbn [fold_left combine]. repeat split; auto.
    + unfold outcomes. simpl. lia.
    + intros q Hq. exists q, []. rewrite app_nil_r. repeat split; auto. 
  - inversion HD as [|? d ? ds' Dx Dxs]; subst. inversion HS as [|? ? ? ? Sx Sxs]; subst.
    apply Forall_cons_iff in HEos as [Ex Exs].
    cbn [sample_vars]. unfold sample_var. destruct (fin_compute eos s HF) as [fin EF]. rewrite EF, HJ. cbn [bind].
    destruct (decode_next k Hk select Hsel fin x d l (ss_pert s)) as [b [joint [E [BJ [BP [D P]]]]]]; auto; try lia.
    rewrite E, BJ. rewrite (d_joint _ _ _ _ _ _ _ _ D), Nat.eqb_refl, andb_false_r. cbn [bind].
    destruct (b_parent b) as [p|] eqn:EP; [|congruence].
    pose proof (d_par _ _ _ _ _ _ _ _ D) as [PL PR].
    pose proof (d_count _ _ _ _ _ _ _ _ D) as CN. rewrite HL, HN in CN.
    assert (Dpow : 1 <= d ^ lprod (v_events x)) by (apply pow_pos; apply Dx).
    rewrite min_chain in CN by auto.
    set (F1 := continue_with F (b_rows b, Some p)).
    assert (LF1 : length F1 = length (b_rows b)) by (unfold F1; rewrite continue_length; reflexivity).
    destruct (IH ds' Dxs Sxs Exs F1 (mkSState (Some joint) (b_pert b) match eos with Some (S t) => Some (v_events x, map (map (Nat.eqb (S t))) (b_rows b)) | _ => ss_fin s end) joint (N * d ^ lprod (v_events x))) as [outs [s' [EQ C]]]; auto.
    + unfold F1, continue_with. apply NoDup_map_seq. cbn [fst snd]. intros i j Hi Hj EQ.
      apply app_inj_len in EQ.
      2: { rewrite !(d_len _ _ _ _ _ _ _ _ D); auto; apply nth_In; lia. }
      destruct EQ as [E1 E2]. apply (d_key _ _ _ _ _ _ _ _ D); try lia; auto.
      apply (NoDup_nth F []); auto; rewrite <- HL; apply PR; apply nth_In; lia.
    + rewrite LF1, CN. destruct N; [simpl in HN; lia|]. nia.
    + lia.
    + rewrite LF1. apply (d_joint _ _ _ _ _ _ _ _ D).
    + simpl. lia.
    + now apply fin_next.
    + rewrite EQ. cbn [bind]. exists ((b_rows b, Some p) :: outs), s'. split; auto.
      destruct C as [C1 [C2 [C3 [C4 [C5 C6]]]]]. unfold chain_ok. cbn [fold_left combine]. fold F1.
      assert (EJ : joint = continue_lp l (x, (b_rows b, Some p))) by (eapply drawn_lp; [exact D|reflexivity]).
      rewrite <- EJ. repeat (split; [solve [auto]|]).
      split. { rewrite C2. unfold outcomes. cbn [combine fold_right fst snd]. f_equal. lia. }
      split.
      { intros q Hq. destruct (C3 q Hq) as [f [t [-> [If Ot]]]]. unfold F1, continue_with in If. apply in_map_iff in If as [j [<- Hj]].
        apply in_seq in Hj. cbn [fst snd] in *. exists (nth (nth j p 0) F []), (nth j (b_rows b) [] ++ t). rewrite app_assoc.
        split; auto. split.
        - apply nth_In. rewrite <- HL. apply PR. apply nth_In. lia.
        - cbn [outcome]. exists (nth j (b_rows b) []), t. split; auto. split; [apply (d_len _ _ _ _ _ _ _ _ D); apply nth_In; lia|].
          split; auto. apply Forall_forall. intros v. apply (d_dom _ _ _ _ _ _ _ _ D). apply nth_In. lia. }
      split; [solve [auto]|]. split; [simpl; lia|]. auto.
Qed.

Lemma chain_all : forall eos x xs d ds, Forall2 has_domain (x :: xs) (d :: ds) -> slice_ok k true x d ->
  Forall2 (slice_ok k false) xs ds -> Forall (eos_ok eos) (x :: xs) ->
  exists outs s, sample_vars select k eos (x :: xs) sstart = Ok (outs, s) /\ length outs = length (x :: xs) /\
    NoDup (sequences outs) /\ length (sequences outs) = Nat.min k (outcomes (x :: xs) (d :: ds)) /\
    (forall q, In q (sequences outs) -> outcome (x :: xs) (d :: ds) q) /\
    ss_joint s = Some (sequence_log_probs (x :: xs) outs) /\ length (sequence_log_probs (x :: xs) outs) = length (sequences outs).
Proof.
  intros eos x xs d ds HD Sx Sxs HEos. apply Forall_cons_iff in HEos as [Ex Exs]. inversion HD as [|? ? ? ? Dx Dxs]; subst.
  cbn [sample_vars]. unfold sample_var. cbn [ss_fin ss_joint ss_pert sstart bind].
  destruct (decode_first k Hk select Hsel None x d [] Dx Sx) as [b [joint [E [BJ [BP [D P]]]]]].
  rewrite E, BJ. rewrite (d_joint _ _ _ _ _ _ _ _ D), Nat.eqb_refl, andb_false_r. cbn [bind]. rewrite BP.
  pose proof (d_count _ _ _ _ _ _ _ _ D) as CN.
  assert (Dpow : 1 <= d ^ lprod (v_events x)) by (apply pow_pos; apply Dx).
  set (F1 := continue_with [] (b_rows b, None)).
  assert (LF1 : length F1 = length (b_rows b)) by (unfold F1; rewrite continue_length; reflexivity).
  destruct (chain_next eos xs ds Dxs Sxs Exs F1 (mkSState (Some joint) (b_pert b) match eos with Some (S t) => Some (v_events x, map (map (Nat.eqb (S t))) (b_rows b)) | _ => None end) joint (d ^ lprod (v_events x))) as [outs [s' [EQ C]]]; auto.
  - unfold F1, continue_with. apply NoDup_map_seq. cbn [fst snd]. intros i j Hi Hj EQ. simpl in EQ.
    apply (d_key _ _ _ _ _ _ _ _ D); auto; lia.
  - lia.
  - lia.
  - rewrite LF1. apply (d_joint _ _ _ _ _ _ _ _ D).
  - simpl. lia.
  - apply (fin_next eos x sstart); auto. exact I.
  - rewrite EQ. cbn [bind]. exists ((b_rows b, None) :: outs), s'. split; auto.
    destruct C as [C1 [C2 [C3 [C4 [C5 [C6 C7]]]]]]. unfold sequences, sequence_log_probs. cbn [fold_left combine]. fold F1.
    assert (EJ : joint = continue_lp [] (x, (b_rows b, None))).
    { eapply drawn_lp; [exact D|]. intros [|i] Hi; [reflexivity|lia]. }
    rewrite <- EJ. split; [simpl; lia|]. repeat (split; [solve [auto]|]).
    split. { intros q Hq. destruct (C3 q Hq) as [f [t [-> [If Ot]]]]. unfold F1, continue_with in If. apply in_map_iff in If as [j [<- Hj]].
      apply in_seq in Hj. cbn [fst snd app] in *. cbn [outcome]. exists (nth j (b_rows b) []), t. split; auto.
      split; [apply (d_len _ _ _ _ _ _ _ _ D); apply nth_In; lia|].
      split; auto. apply Forall_forall. intros v. apply (d_dom _ _ _ _ _ _ _ _ D). apply nth_In. lia. }
    split; auto.
Qed.

End Chain.
