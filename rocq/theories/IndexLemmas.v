(** Facts about row-major positions and broadcasting indices (Torch.v). *)
From Coq Require Import List Arith Bool Lia.
From Verif Require Import Base Torch ListLemmas SpecTensor.
Import ListNotations.

Lemma lprod_app : forall a b, lprod (a ++ b) = lprod a * lprod b.
Proof. induction a as [|x a IH]; intros b; [unfold lprod; simpl; lia|]. simpl. rewrite IH. lia. Qed.

Lemma valid_lprod_pos : forall shp idx, valid idx shp -> 0 < lprod shp.
Proof. intros shp idx H; induction H; simpl; nia. Qed.

Lemma ravel_lt : forall shp idx, valid idx shp -> ravel shp idx < lprod shp.
Proof.
  intros shp idx H. induction H as [|i n is' ns Hi Hv IH]; simpl; [lia|]. nia.
Qed.

Lemma unravel_ravel : forall shp idx, valid idx shp -> unravel shp (ravel shp idx) = idx.
Proof.
  intros shp idx H. induction H as [|i n is' ns Hi Hv IH]; simpl; auto.
  pose proof (ravel_lt _ _ Hv) as Hlt.
  f_equal.
  - rewrite Nat.div_add_l by lia. rewrite Nat.div_small; lia.
  - rewrite Nat.add_comm, Nat.mod_add by lia. rewrite Nat.mod_small by lia. exact IH.
Qed.

Lemma unravel_valid : forall shp k, k < lprod shp -> valid (unravel shp k) shp.
Proof.
  induction shp as [|n r IH]; simpl; intros k Hk; constructor.
  - apply Nat.div_lt_upper_bound; nia.
  - apply IH. apply Nat.mod_upper_bound. nia.
Qed.

Lemma ravel_unravel : forall shp k, k < lprod shp -> ravel shp (unravel shp k) = k.
Proof.
  induction shp as [|n r IH]; simpl; intros k Hk; [lia|].
  rewrite IH by (apply Nat.mod_upper_bound; nia).
  rewrite (Nat.div_mod k (lprod r)) at 3; nia.
Qed.

Lemma ravel_app : forall s1 i1 s2 i2, length i1 = length s1 ->
  ravel (s1 ++ s2) (i1 ++ i2) = ravel s1 i1 * lprod s2 + ravel s2 i2.
Proof.
  induction s1 as [|n s1 IH]; destruct i1 as [|i i1]; simpl; intros s2 i2 H; try discriminate; auto.
  rewrite IH by lia. rewrite lprod_app. lia.
Qed.

Lemma zip_clip_app : forall s1 i1 s2 i2, length i1 = length s1 ->
  zip_clip (s1 ++ s2) (i1 ++ i2) = zip_clip s1 i1 ++ zip_clip s2 i2.
Proof.
  induction s1 as [|n s1 IH]; destruct i1 as [|i i1]; simpl; intros s2 i2 H; try discriminate; auto.
  rewrite IH by lia. reflexivity.
Qed.

Lemma zip_clip_valid : forall shp idx, valid idx shp -> zip_clip shp idx = idx.
Proof.
  intros shp idx H; induction H as [|i n is' ns Hi Hv IH]; simpl; auto. rewrite IH. f_equal.
  destruct (Nat.eqb_spec n 1); lia.
Qed.

Lemma zip_clip_length : forall shp idx, length idx = length shp -> length (zip_clip shp idx) = length shp.
Proof. induction shp; destruct idx; simpl; intros; try discriminate; auto. Qed.

Lemma bidx_same : forall shp idx, length idx = length shp -> bidx shp idx = zip_clip shp idx.
Proof. intros. unfold bidx. rewrite H, Nat.sub_diag. reflexivity. Qed.

Lemma bidx_valid : forall shp idx, valid idx shp -> bidx shp idx = idx.
Proof. intros. rewrite bidx_same by now apply valid_length. now apply zip_clip_valid. Qed.

Lemma proj_zip_clip : forall ev e, proj ev e = zip_clip ev e.
Proof. induction ev; destruct e; simpl; auto; now rewrite IHev. Qed.

Lemma proj_valid : forall ev e, valid e ev -> proj ev e = e.
Proof. intros. rewrite proj_zip_clip. now apply zip_clip_valid. Qed.

Lemma zip_clip_prefix : forall s1 s2 idx, length idx = length (s1 ++ s2) ->
  firstn (length s1) (zip_clip (s1 ++ s2) idx) = zip_clip s1 idx.
Proof.
  induction s1 as [|n s1 IH]; simpl; intros s2 idx H.
  - destruct (zip_clip s2 idx); reflexivity.
  - destruct idx as [|i idx]; [discriminate|]. simpl. f_equal. apply IH. simpl in H; lia.
Qed.

Lemma bshape_rev_app : forall a1 b1 a2 b2, length a1 = length b1 ->
  bshape_rev (a1 ++ a2) (b1 ++ b2) =
  match bshape_rev a1 b1, bshape_rev a2 b2 with Some x, Some y => Some (x ++ y) | _, _ => None end.
Proof.
  induction a1 as [|x a1 IH]; destruct b1 as [|y b1]; simpl; intros a2 b2 H; try discriminate.
  - destruct (bshape_rev a2 b2); reflexivity.
  - rewrite IH by lia. destruct (bshape_rev a1 b1), (bshape_rev a2 b2); auto;
      destruct (x =? y), (x =? 1), (y =? 1); auto.
Qed.

Lemma broadcasts_length : forall a b c, broadcasts a b c -> length a = length c /\ length b = length c.
Proof. intros a b c H; induction H; simpl; intuition. Qed.

Lemma broadcasts_bshape : forall a b c, broadcasts a b c -> bshape a b = Some c.
Proof.
  intros a b c H. unfold bshape.
  enough (E : bshape_rev (rev a) (rev b) = Some (rev c)) by (rewrite E; simpl; now rewrite rev_involutive).
  induction H as [|n a b c H IH|n a b c H IH|n a b c H IH]; simpl; auto;
    destruct (broadcasts_length _ _ _ H) as [La Lb];
    rewrite bshape_rev_app by (rewrite !rev_length; lia); rewrite IH; simpl.
  - rewrite Nat.eqb_refl. reflexivity.
  - destruct n as [|[|n]]; reflexivity.
  - destruct (Nat.eqb_spec n 1); [subst; reflexivity|]. reflexivity.
Qed.

Lemma broadcasts_app : forall a b c a' b' c', broadcasts a b c -> broadcasts a' b' c' ->
  broadcasts (a ++ a') (b ++ b') (c ++ c').
Proof. intros a b c a' b' c' H H'. induction H; simpl; auto; constructor; auto. Qed.

Lemma broadcasts_refl : forall a, broadcasts a a a.
Proof. induction a; constructor; auto. Qed.

(** The broadcast of a shape with anything is what bshape computes, in the equal-rank case. *)
Lemma bshape_broadcasts : forall a b c, length a = length b -> bshape a b = Some c -> broadcasts a b c.
Proof.
  intros a. induction a as [|x a IH]; destruct b as [|y b]; simpl; intros c L H; try discriminate.
  - injection H as <-. constructor.
  - unfold bshape in H. simpl in H.
    rewrite bshape_rev_app in H by (rewrite !rev_length; lia).
    destruct (bshape_rev (rev a) (rev b)) as [r|] eqn:E; [|discriminate].
    assert (HI : broadcasts a b (rev r)).
    { apply IH; [lia|]. unfold bshape. rewrite E. reflexivity. }
    simpl in H. destruct (x =? y) eqn:E1.
    + apply Nat.eqb_eq in E1; subst. injection H as <-. rewrite rev_app_distr. simpl. constructor; auto.
    + destruct (x =? 1) eqn:E2.
      * apply Nat.eqb_eq in E2; subst. injection H as <-. rewrite rev_app_distr. simpl. constructor; auto.
      * destruct (y =? 1) eqn:E3; [|discriminate].
        apply Nat.eqb_eq in E3; subst. injection H as <-. rewrite rev_app_distr. simpl. constructor; auto.
Qed.

Lemma broadcasts_valid_l : forall a b c idx, broadcasts a b c -> valid idx c -> valid (zip_clip a idx) a.
Proof.
  intros a b c idx H; revert idx; induction H; intros idx Hv; inversion Hv; subst; simpl; constructor;
    try (now apply IHbroadcasts); destruct (Nat.eqb_spec n 1); try lia; auto.
  all: simpl; lia.
Qed.

Lemma broadcasts_sym : forall a b c, broadcasts a b c -> broadcasts b a c.
Proof. intros a b c H; induction H; constructor; auto. Qed.

Lemma broadcasts_valid_r : forall a b c idx, broadcasts a b c -> valid idx c -> valid (zip_clip b idx) b.
Proof. intros a b c idx H. apply broadcasts_valid_l with (b := a). now apply broadcasts_sym. Qed.

Lemma expandable_rev_app : forall a1 b1 a2 b2, length a1 = length b1 ->
  expandable_rev (a1 ++ a2) (b1 ++ b2) = expandable_rev a1 b1 && expandable_rev a2 b2.
Proof.
  induction a1 as [|x a1 IH]; destruct b1 as [|y b1]; simpl; intros a2 b2 H; try discriminate; auto.
  rewrite IH by lia. now rewrite andb_assoc.
Qed.

Lemma expandable_Forall2 : forall a b, Forall2 (fun x y => x = y \/ x = 1) a b ->
  expandable_rev (rev a) (rev b) = true.
Proof.
  intros a b H. induction H as [|x y a b Hxy H IH]; simpl; auto.
  rewrite expandable_rev_app by (rewrite !rev_length; clear -H; induction H; simpl; auto).
  rewrite IH. simpl. destruct Hxy as [->| ->].
  - now rewrite Nat.eqb_refl.
  - rewrite Nat.eqb_refl. now rewrite orb_true_r.
Qed.
