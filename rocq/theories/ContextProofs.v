(** Proofs about the wrapping context. *)
From Coq Require Import String List Arith Bool Lia.
From Verif Require Import Base Context SpecContext.
Import ListNotations.

Lemma same_refl : forall g, same_ctx g g.
Proof. intros g. repeat split. Qed.
Lemma same_trans : forall a b c, same_ctx a b -> same_ctx b c -> same_ctx a c.
Proof. unfold same_ctx. intros a b c [A1 [A2 [A3 [A4 A5]]]] [B1 [B2 [B3 [B4 B5]]]]. repeat split; congruence. Qed.
Lemma same_tidy : forall a b, same_ctx a b -> tidy a -> tidy b.
Proof. unfold same_ctx, tidy. intros a b [A1 [A2 [A3 [A4 A5]]]] H E. rewrite A3, A4, A5. apply H. congruence. Qed.

Lemma run_restores : forall p g, tidy g -> same_ctx g (fst (run p g)).
Proof.
  induction p as [|e|p IHp q IHq|p IHp h IHh|k IHk| |prep body IH out|name prep body IH out|body IH]; intros g T; simpl.
  - apply same_refl.
  - apply same_refl.
  - specialize (IHp g T). destruct (run p g) as [g' [e|]]; simpl in *; auto.
    eapply same_trans; [exact IHp|]. apply IHq. eapply same_tidy; eauto.
  - specialize (IHp g T). destruct (run p g) as [g' [e|]]; simpl in *; auto.
    eapply same_trans; [exact IHp|]. apply IHh. eapply same_tidy; eauto.
  - apply IHk. exact T.
  - destruct (_ || _); apply same_refl.
  - destruct (g_stochastic g) eqn:S; [apply same_refl|]. destruct prep as [[[|x l] pl]|e]; try apply same_refl.
    + apply IH; auto.
    + assert (T1 : tidy (set_det (Datatypes.S (g_deterministic g)) g)) by (intros E; apply T; exact S).
      specialize (IH _ T1). destruct (run body _) as [g1 r] eqn:E. simpl in IH.
      assert (R : same_ctx g (set_det (g_deterministic g1 - 1) g1)).
      { unfold same_ctx in *. simpl in *. destruct IH as [A1 [A2 [A3 [A4 A5]]]]. rewrite A2. repeat split; auto. lia. }
      destruct r; auto. simpl. destruct (g_ignore g1); auto.
  - destruct (g_stochastic g || (0 <? g_deterministic g)) eqn:S; [apply same_refl|].
    apply orb_false_iff in S. destruct S as [S D]. destruct prep as [[pa pl]|e]; [|apply same_refl].
    assert (T1 : tidy (enter_stoch pa name pl g)) by (intros E; discriminate).
    specialize (IH _ T1). destruct (run body _) as [g1 r] eqn:E. simpl in IH. destruct (T S) as [T2 [T3 T4]].
    assert (R : same_ctx g (leave_stoch g1)).
    { unfold same_ctx in *. simpl in *. destruct IH as [A1 [A2 [A3 [A4 A5]]]]. rewrite A2, T2, T3, T4, S. repeat split. }
    destruct r; auto.
  - specialize (IH (set_ignore true g)). destruct (run body (set_ignore true g)) as [g1 [e|]]; simpl in *.
    + eapply same_trans; [|apply IH; exact T]. repeat split.
    + eapply same_trans; [|eapply same_trans; [apply IH; exact T|]]; repeat split.
Qed.


Lemma no_blocks_ignore : forall p, no_blocks p -> forall g, g_ignore (fst (run p g)) = g_ignore g.
Proof.
  intros p H. induction H as [|e|p q Hp IHp Hq IHq|p h Hp IHp Hh IHh|k Hk IHk| |prep b o Hb IH|n prep b o Hb IH]; intros g; simpl; auto.
  - specialize (IHp g). destruct (run p g) as [g' [e|]]; simpl in *; auto. rewrite IHq; auto.
  - specialize (IHp g). destruct (run p g) as [g' [e|]]; simpl in *; auto. rewrite IHh; auto.
  - destruct (_ || _); reflexivity.
  - destruct (g_stochastic g); auto. destruct prep as [[[|x l] pl]|e]; auto.
    specialize (IH (set_det (S (g_deterministic g)) g)). destruct (run b _) as [g1 [e|]]; simpl in *; auto.
    destruct (g_ignore g1) eqn:Q; simpl; congruence.
  - destruct (_ || _); auto. destruct prep as [[pa pl]|e]; auto.
    specialize (IH (enter_stoch pa n pl g)). destruct (run b _) as [g1 [e|]]; simpl in *; auto.
Qed.

Lemma calm_restores : forall p, calm p -> forall g, g_ignore g = false -> g_ignore (fst (run p g)) = false.
Proof.
  intros p H. induction H as [|e|p q Hp IHp Hq IHq|p h Hp IHp Hh IHh|k Hk IHk| |prep b o Hb IH|n prep b o Hb IH|b Hb Hn]; intros g Hg; simpl; auto.
  - specialize (IHp g Hg). destruct (run p g) as [g' [e|]]; simpl in *; auto.
  - specialize (IHp g Hg). destruct (run p g) as [g' [e|]]; simpl in *; auto.
  - destruct (_ || _); auto.
  - destruct (g_stochastic g); auto. destruct prep as [[[|x l] pl]|e]; auto.
    specialize (IH (set_det (S (g_deterministic g)) g) Hg). destruct (run b _) as [g1 [e|]]; simpl in *; auto.
    destruct (g_ignore g1) eqn:Q; simpl; congruence.
  - destruct (_ || _); auto. destruct prep as [[pa pl]|e]; auto.
    specialize (IH (enter_stoch pa n pl g) Hg). destruct (run b _) as [g1 [e|]]; simpl in *; auto.
  - specialize (Hn (set_ignore true g)). destruct (run b (set_ignore true g)) as [g1 r]. simpl in Hn. subst r. reflexivity.
Qed.

Lemma raise_keeps_ignoring : forall b g g' e, no_blocks b -> run (PIgnore b) g = (g', Some e) -> g_ignore g' = true.
Proof.
  intros b g g' e Hb H. simpl in H. pose proof (no_blocks_ignore b Hb (set_ignore true g)) as K.
  destruct (run b (set_ignore true g)) as [g1 [e'|]]; [|discriminate]. injection H as <- <-. exact K.
Qed.
