(** Proofs about plate comparison. *)
From Coq Require Import String List Arith Bool Lia.
From Verif Require Import Base Torch Plates ListLemmas SpecTensor WrapProofs.
Import ListNotations.

Section PlateEq.
Context {V : Type}.
Variable veq : V -> V -> bool.
Notation plate := (plate V).

Lemma list_eqb_eq : forall l m, list_eqb l m = true <-> l = m.
Proof.
  induction l; destruct m; simpl; split; intros H; try discriminate; auto.
  - apply andb_prop in H. destruct H as [H1 H2]. apply Nat.eqb_eq in H1. apply IHl in H2. congruence.
  - injection H as -> ->. rewrite Nat.eqb_refl. simpl. now apply IHl.
Qed.

Lemma base_refl : forall p : plate, plate_eq_base veq p p = true.
Proof.
  intros p. unfold plate_eq_base. rewrite String.eqb_refl, Nat.eqb_refl. simpl.
  destruct (pweight p); auto. now rewrite Nat.eqb_refl.
Qed.

Lemma peq_refl : forall p : plate, peq veq p p = true.
Proof.
  intros p. unfold peq, anc_eq. destruct (pcls p) as [|vi ov] eqn:E.
  - apply base_refl.
  - rewrite String.eqb_refl, base_refl, Nat.eqb_refl. now destruct ov.
Qed.

Lemma all_eq_sym : (forall x y, veq x y = veq y x) -> forall t u : ten V, shape t = shape u -> all_eq veq t u = all_eq veq u t.
Proof.
  intros Hs t u E. unfold all_eq. rewrite E. induction (indices (shape u)); simpl; auto. now rewrite IHl, Hs.
Qed.

Lemma base_sym : (forall x y, veq x y = veq y x) -> forall p q : plate, plate_eq_base veq p q = plate_eq_base veq q p.
Proof.
  intros Hs p q. unfold plate_eq_base. rewrite (String.eqb_sym (pname q)), (Nat.eqb_sym (pn q)).
  destruct (String.eqb (pname p) (pname q)); simpl; auto. destruct (pn p =? pn q); simpl; auto.
  destruct (pweight p), (pweight q); auto.
  rewrite (Nat.eqb_sym obj0). destruct (obj =? obj0); auto.
  destruct (list_eqb (shape t) (shape t0)) eqn:E.
  - apply list_eqb_eq in E. rewrite E. replace (list_eqb (shape t0) (shape t0)) with true by (symmetry; now apply list_eqb_eq).
    simpl. now apply all_eq_sym.
  - destruct (list_eqb (shape t0) (shape t)) eqn:E'; auto. apply list_eqb_eq in E'. rewrite E' in E.
    assert (list_eqb (shape t) (shape t) = true) by now apply list_eqb_eq. congruence.
Qed.

Lemma peq_sym : (forall x y, veq x y = veq y x) -> forall p q : plate, peq veq p q = peq veq q p.
Proof.
  intros Hs p q. unfold peq, anc_eq. destruct (pcls p) as [|vi ov] eqn:Ep, (pcls q) as [|vi' ov'] eqn:Eq; auto using base_sym.
  rewrite (orb_comm ov'). rewrite (String.eqb_sym (pname p)). destruct (ov || ov'); auto.
  rewrite (base_sym Hs p q). now rewrite (Nat.eqb_sym vi').
Qed.

Lemma base_trans : (forall x y z, veq x y = true -> veq y z = true -> veq x z = true) ->
  forall p q r : plate,
  (forall o t w o' t' w', pweight p = WStorch o t w -> pweight q = WStorch o' t' w' -> o = o' -> t = t') ->
  (forall o t w o' t' w', pweight q = WStorch o t w -> pweight r = WStorch o' t' w' -> o = o' -> t = t') ->
  plate_eq_base veq p q = true -> plate_eq_base veq q r = true -> plate_eq_base veq p r = true.
Proof.
  intros Ht p q r O1 O2. unfold plate_eq_base.
  destruct (String.eqb_spec (pname p) (pname q)) as [E1|]; simpl; [|discriminate].
  destruct (String.eqb_spec (pname q) (pname r)) as [E2|]; simpl; [|discriminate].
  rewrite E1, E2, String.eqb_refl. simpl.
  destruct (Nat.eqb_spec (pn p) (pn q)) as [F1|]; simpl; [|discriminate].
  destruct (Nat.eqb_spec (pn q) (pn r)) as [F2|]; simpl; [|discriminate].
  rewrite F1, F2, Nat.eqb_refl. simpl.
  destruct (pweight p) as [t|o t w], (pweight q) as [t'|o' t' w'], (pweight r) as [t''|o'' t'' w'']; auto; try discriminate.
  destruct (Nat.eqb_spec o o') as [Eo|].
  - subst o'. rewrite (O1 o t w o t' w') by auto. auto.
  - destruct (list_eqb (shape t) (shape t')) eqn:El; simpl; [|discriminate]. intros H1.
    destruct (Nat.eqb_spec o' o'') as [Eo'|].
    + subst o''. rewrite <- (O2 o' t' w' o' t'' w'') by auto. destruct (Nat.eqb_spec o o'); [contradiction|].
      now rewrite El.
    + destruct (list_eqb (shape t') (shape t'')) eqn:El'; simpl; [|discriminate]. intros H2.
      apply list_eqb_eq in El. apply list_eqb_eq in El'.
      destruct (o =? o''); auto.
      replace (list_eqb (shape t) (shape t'')) with true by (symmetry; apply list_eqb_eq; congruence). simpl.
      unfold all_eq in *. rewrite forallb_forall in *. intros i Hi. apply Ht with (y := el t' i); auto.
      apply H2. now rewrite <- El.
Qed.

Lemma peq_trans : (forall x y z, veq x y = true -> veq y z = true -> veq x z = true) ->
  forall p q r : plate, settled p -> settled q -> settled r -> obj_ok p q -> obj_ok q r ->
  peq veq p q = true -> peq veq q r = true -> peq veq p r = true.
Proof.
  intros Ht p q r Sp Sq Sr O1 O2. unfold peq, anc_eq, settled in *.
  destruct (pcls p) as [|vi ov], (pcls q) as [|vi' ov'], (pcls r) as [|vi'' ov'']; try discriminate.
  - now apply base_trans.
  - subst. simpl. intros H1 H2. apply andb_prop in H1. apply andb_prop in H2. destruct H1 as [H1 H1'], H2 as [H2 H2'].
    rewrite (base_trans Ht p q r) by auto. apply Nat.eqb_eq in H1'. apply Nat.eqb_eq in H2'. subst.
    now rewrite Nat.eqb_refl.
Qed.

Lemma peq_size : forall p q : plate, settled p -> settled q -> peq veq p q = true -> pn p = pn q.
Proof.
  intros p q Sp Sq. unfold peq, anc_eq, settled in *.
  assert (B : forall a b : plate, plate_eq_base veq a b = true -> pn a = pn b).
  { intros a b. unfold plate_eq_base. destruct (String.eqb _ _); simpl; [|discriminate].
    destruct (Nat.eqb_spec (pn a) (pn b)); simpl; auto; discriminate. }
  destruct (pcls p) as [|vi ov], (pcls q) as [|vi' ov']; try discriminate; auto. subst. simpl.
  intros H. apply andb_prop in H. apply B; tauto.
Qed.

(** Equal plates with storch weights have elementwise equal weights. *)
Lemma peq_storch_weights : forall p q : plate, settled p -> settled q -> obj_ok p q ->
  (forall x, veq x x = true) ->
  peq veq p q = true -> forall o t w o' t' w', pweight p = WStorch o t w -> pweight q = WStorch o' t' w' ->
  shape t = shape t' /\ forall i, valid i (shape t) -> veq (el t i) (el t' i) = true.
Proof.
  intros p q Sp Sq O Hr H o t w o' t' w' Hp Hq.
  assert (B : plate_eq_base veq p q = true).
  { unfold peq, anc_eq, settled in *. destruct (pcls p) as [|vi ov], (pcls q) as [|vi' ov']; try discriminate; auto.
    subst. simpl in H. apply andb_prop in H. tauto. }
  unfold plate_eq_base in B. destruct (String.eqb _ _); simpl in B; [|discriminate].
  destruct (pn p =? pn q); simpl in B; [|discriminate]. rewrite Hp, Hq in B.
  destruct (Nat.eqb_spec o o') as [E|].
  - assert (t = t') by (eapply O; eauto). subst. auto.
  - destruct (list_eqb (shape t) (shape t')) eqn:El; simpl in B; [|discriminate]. apply list_eqb_eq in El.
    split; auto. intros i Hi. unfold all_eq in B. rewrite forallb_forall in B. apply B. now apply in_indices.
Qed.
End PlateEq.
