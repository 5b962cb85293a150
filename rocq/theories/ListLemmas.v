(** Facts about the list functions of Base.v. *)
From Coq Require Import String List Arith Bool Lia Permutation.
From Verif Require Import Base Torch.
Import ListNotations.

Lemma upd_length : forall {A} i (x : A) l, length (upd i x l) = length l.
Proof. induction i; destruct l; simpl; auto. Qed.

Lemma nth_error_upd_same : forall {A} i (x : A) l, i < length l -> nth_error (upd i x l) i = Some x.
Proof. induction i; destruct l; simpl; intros; try lia; auto. apply IHi; lia. Qed.

Lemma nth_error_upd_other : forall {A} i j (x : A) l, i <> j -> nth_error (upd i x l) j = nth_error l j.
Proof. induction i; destruct l, j; simpl; intros; try congruence; auto. Qed.

Lemma map_upd : forall {A B} (f : A -> B) i x l, map f (upd i x l) = upd i (f x) (map f l).
Proof. induction i; destruct l; simpl; auto. intros; now rewrite IHi. Qed.

Lemma upd_app_l : forall {A} i (x : A) l m, i < length l -> upd i x (l ++ m) = upd i x l ++ m.
Proof. induction i; destruct l; simpl; intros; try lia; auto. rewrite IHi; auto; lia. Qed.

Lemma nth_error_ext : forall {A} (l m : list A), (forall i, nth_error l i = nth_error m i) -> l = m.
Proof.
  induction l; destruct m; intros H; auto.
  - specialize (H 0); discriminate.
  - specialize (H 0); discriminate.
  - f_equal. + specialize (H 0); simpl in H; congruence. + apply IHl. intros i. apply (H (S i)).
Qed.

Lemma nth_error_lt : forall {A} (l : list A) i, i < length l -> exists x, nth_error l i = Some x.
Proof. intros A l i H. destruct (nth_error l i) eqn:E; eauto. apply nth_error_None in E; lia. Qed.

Lemma swapl_length : forall {A} i j (l : list A), length (swapl i j l) = length l.
Proof. intros; unfold swapl. destruct (nth_error l i), (nth_error l j); auto. now rewrite !upd_length. Qed.

Lemma map_swapl : forall {A B} (f : A -> B) i j l, map f (swapl i j l) = swapl i j (map f l).
Proof.
  intros; unfold swapl. rewrite !nth_error_map.
  destruct (nth_error l i), (nth_error l j); simpl; auto. now rewrite !map_upd.
Qed.

Lemma swapl_app_l : forall {A} i j (l m : list A), i < length l -> j < length l ->
  swapl i j (l ++ m) = swapl i j l ++ m.
Proof.
  intros A i j l m Hi Hj; unfold swapl. rewrite !nth_error_app1 by auto.
  destruct (nth_error_lt l i Hi) as [a Ha], (nth_error_lt l j Hj) as [b Hb]. rewrite Ha, Hb.
  rewrite upd_app_l by auto. rewrite upd_app_l by (rewrite upd_length; auto). auto.
Qed.

Lemma nth_error_swapl : forall {A} i j (l : list A) k, i < length l -> j < length l ->
  nth_error (swapl i j l) k = if k =? j then nth_error l i else if k =? i then nth_error l j else nth_error l k.
Proof.
  intros A i j l k Hi Hj; unfold swapl.
  destruct (nth_error_lt l i Hi) as [a Ha], (nth_error_lt l j Hj) as [b Hb]. rewrite Ha, Hb.
  destruct (Nat.eqb_spec k j).
  - subst. apply nth_error_upd_same. now rewrite upd_length.
  - rewrite nth_error_upd_other by auto. destruct (Nat.eqb_spec k i).
    + subst. now apply nth_error_upd_same.
    + now rewrite nth_error_upd_other by auto.
Qed.

Lemma swapl_invol : forall {A} i j (l : list A), i < length l -> j < length l -> swapl i j (swapl i j l) = l.
Proof.
  intros A i j l Hi Hj. apply nth_error_ext; intros k.
  rewrite nth_error_swapl by (rewrite swapl_length; auto). rewrite !nth_error_swapl by auto.
  destruct (Nat.eqb_spec k j), (Nat.eqb_spec k i), (Nat.eqb_spec i j), (Nat.eqb_spec j i), (Nat.eqb_spec i i), (Nat.eqb_spec j j);
    subst; try congruence; auto.
Qed.

Lemma swapl_comm : forall {A} i j (l : list A), i < length l -> j < length l -> swapl i j l = swapl j i l.
Proof.
  intros A i j l Hi Hj. apply nth_error_ext; intros k. rewrite !nth_error_swapl by auto.
  destruct (Nat.eqb_spec k j), (Nat.eqb_spec k i); subst; auto.
Qed.

Lemma upd_perm_aux : forall {A} i (x y : A) l, nth_error l i = Some y -> Permutation (y :: upd i x l) (x :: l).
Proof.
  induction i; destruct l; simpl; intros H; try discriminate.
  - injection H as ->. apply perm_swap.
  - rewrite perm_swap. etransitivity; [apply perm_skip, IHi, H|]. apply perm_swap.
Qed.

Lemma swapl_perm : forall {A} i j (l : list A), Permutation (swapl i j l) l.
Proof.
  intros A i j l. unfold swapl. destruct (nth_error l i) as [a|] eqn:Ha; auto.
  destruct (nth_error l j) as [b|] eqn:Hb; auto.
  destruct (Nat.eq_dec i j).
  - subst. assert (a = b) by congruence; subst.
    assert (H : nth_error (upd j b l) j = Some b).
    { apply nth_error_upd_same. apply nth_error_Some. congruence. }
    pose proof (upd_perm_aux j b b _ H) as P1. apply Permutation_cons_inv in P1.
    pose proof (upd_perm_aux j b b _ Hb) as P2. apply Permutation_cons_inv in P2.
    etransitivity; eauto.
  - assert (H : nth_error (upd i b l) j = Some b) by (rewrite nth_error_upd_other; auto).
    pose proof (upd_perm_aux j a b _ H) as P1.
    pose proof (upd_perm_aux i b a _ Ha) as P2.
    assert (P3 : Permutation (b :: a :: upd j a (upd i b l)) (b :: a :: l)).
    { rewrite perm_swap. etransitivity; [apply perm_skip, P1|]. rewrite P2. apply perm_swap. }
    apply Permutation_cons_inv in P3. now apply Permutation_cons_inv in P3.
Qed.

Lemma remove_at_app : forall {A} (l m : list A) x, remove_at (length l) (l ++ x :: m) = l ++ m.
Proof.
  intros A l m x. unfold remove_at. f_equal.
  - induction l; simpl; [reflexivity|]. f_equal. exact IHl.
  - induction l as [|a l IH]; [reflexivity|]. exact IH.
Qed.

Lemma insert_remove : forall {A} i (x : A) l, i <= length l -> remove_at i (insert_at i x l) = l.
Proof.
  intros. unfold insert_at. assert (L : length (firstn i l) = i) by (rewrite firstn_length; lia).
  rewrite <- L at 1. rewrite remove_at_app. apply firstn_skipn.
Qed.

Lemma insert_at_app : forall {A} (l m : list A) x, insert_at (length l) x (l ++ m) = l ++ x :: m.
Proof.
  intros. unfold insert_at. rewrite firstn_app, firstn_all, Nat.sub_diag. simpl. rewrite app_nil_r. f_equal. f_equal.
  rewrite skipn_app, skipn_all, Nat.sub_diag. reflexivity.
Qed.

Lemma skipn_app_exact : forall {A} (l m : list A), skipn (length l) (l ++ m) = m.
Proof. intros. rewrite skipn_app, skipn_all, Nat.sub_diag. reflexivity. Qed.

Lemma firstn_app_exact : forall {A} (l m : list A), firstn (length l) (l ++ m) = l.
Proof. intros. rewrite firstn_app, firstn_all, Nat.sub_diag. simpl. apply app_nil_r. Qed.

Lemma NoDup_map_inj : forall {A B} (f : A -> B) l a b, NoDup (map f l) -> In a l -> In b l -> f a = f b -> a = b.
Proof.
  induction l; simpl; intros x y H Hx Hy E; [tauto|]. inversion H; subst.
  destruct Hx as [<-|Hx], Hy as [<-|Hy]; auto.
  - exfalso. apply H2. rewrite E. now apply in_map.
  - exfalso. apply H2. rewrite <- E. now apply in_map.
Qed.

Lemma NoDup_map_filter : forall {A B} (f : A -> B) g l, NoDup (map f l) -> NoDup (map f (filter g l)).
Proof.
  induction l; simpl; intros H; auto. inversion H; subst. destruct (g a); simpl; auto. constructor; auto.
  rewrite in_map_iff in *. intros [x [E I]]. apply filter_In in I. apply H2. exists x; tauto.
Qed.

Lemma indexb_some : forall {A} (eqb : A -> A -> bool) x l i, indexb eqb x l = Some i ->
  exists y, nth_error l i = Some y /\ eqb y x = true.
Proof.
  induction l; simpl; intros i H; [discriminate|]. destruct (eqb a x) eqn:E.
  - injection H as <-. exists a; auto.
  - destruct (indexb eqb x l) eqn:F; [|discriminate]. simpl in H. injection H as <-. simpl. apply IHl; auto.
Qed.

Lemma indexb_inb : forall {A} (eqb : A -> A -> bool) x l, inb eqb x l = true -> exists i, indexb eqb x l = Some i.
Proof.
  unfold inb. induction l; simpl; intros H; [discriminate|]. destruct (eqb a x); [eauto|]. simpl in H.
  destruct (IHl H) as [i ->]. simpl; eauto.
Qed.

Lemma inb_spec : forall {A} (eqb : A -> A -> bool) x l, inb eqb x l = true <-> exists y, In y l /\ eqb y x = true.
Proof. intros. unfold inb. apply existsb_exists. Qed.

Lemma valid_length : forall idx shp, valid idx shp -> length idx = length shp.
Proof. intros idx shp H; induction H; simpl; auto. Qed.

Lemma valid_app : forall i1 i2 s1 s2, valid i1 s1 -> valid i2 s2 -> valid (i1 ++ i2) (s1 ++ s2).
Proof. intros; now apply Forall2_app. Qed.

Lemma valid_app_inv : forall idx s1 s2, valid idx (s1 ++ s2) ->
  exists i1 i2, idx = i1 ++ i2 /\ valid i1 s1 /\ valid i2 s2.
Proof. intros idx s1 s2 H. apply Forall2_app_inv_r in H. destruct H as [i1 [i2 [H1 [H2 E]]]]. eauto. Qed.

Lemma in_indices : forall shp idx, In idx (indices shp) <-> valid idx shp.
Proof.
  induction shp as [|n r IH]; simpl; intros idx.
  - split.
    + intros [<-|[]]. constructor.
    + intros H; inversion H; auto.
  - rewrite in_flat_map. split.
    + intros [i [Hi H]]. apply in_map_iff in H. destruct H as [x [<- Hx]]. constructor.
      * apply in_seq in Hi; lia.
      * now apply IH.
    + intros H; inversion H; subst. exists x. split; [apply in_seq; lia|]. apply in_map. now apply IH.
Qed.

Lemma NoDup_app_intro : forall {A} (l m : list A), NoDup l -> NoDup m -> (forall x, In x l -> ~ In x m) ->
  NoDup (l ++ m).
Proof.
  induction l; simpl; intros m Hl Hm D; auto. inversion Hl; subst. constructor.
  - rewrite in_app_iff. intros [I|I]; auto. apply (D a); auto.
  - apply IHl; auto.
Qed.

Lemma NoDup_map_inj_intro : forall {A B} (f : A -> B) l, (forall x y, f x = f y -> x = y) -> NoDup l -> NoDup (map f l).
Proof.
  induction l; simpl; intros Hf H; constructor; inversion H; subst; auto.
  rewrite in_map_iff. intros [x [E I]]. apply Hf in E. now subst.
Qed.

Lemma NoDup_indices : forall shp, NoDup (indices shp).
Proof.
  induction shp as [|n r IH]; simpl.
  - repeat constructor; simpl; tauto.
  - generalize (seq_NoDup n 0). generalize (seq 0 n) as l.
    induction l as [|a l IHl]; simpl; intros H; [constructor|]. inversion H; subst.
    apply NoDup_app_intro.
    + apply NoDup_map_inj_intro; auto. intros x y E; now injection E.
    + auto.
    + intros x Hx Hy. apply in_flat_map in Hy. destruct Hy as [i [Hi Hy]].
      apply in_map_iff in Hx. apply in_map_iff in Hy. destruct Hx as [u [<- _]], Hy as [v [E _]].
      injection E as E _. subst. auto.
Qed.
