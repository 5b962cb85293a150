(** Elementwise functions, sums over trailing dimensions and compositions treat leading dimensions as batch dimensions. *)
From Coq Require Import String List Arith Bool Lia.
From Verif Require Import Base Torch Plates Scalar TensorFns Straight ListLemmas IndexLemmas SpecTensor SharedProofs BroadcastProofs ReduceProofs2 SpecStraight.
Import ListNotations.
Open Scope nat_scope.

Section Fns.
Context {V : Type}.
Variable o : sops V.

Fixpoint ors (ks : list (list bool)) (n : nat) : list bool :=
  match ks with [] => repeat false n | k :: r => map (fun x => orb (fst x) (snd x)) (combine k (ors r n)) end.
Lemma masked_length : forall k one B, length k = length B -> length (masked k one B) = length B.
Proof. intros k one B H. unfold masked. rewrite map_length, combine_length. lia. Qed.
Lemma masked_or : forall B k k', length k = length B -> length k' = length B ->
  bshape (masked k 1 B) (masked k' 1 B) = Some (masked (map (fun x => orb (fst x) (snd x)) (combine k k')) 1 B).
Proof.
  intros B k k' L L'. apply broadcasts_bshape. revert k k' L L'. induction B as [|n B IH]; intros [|x k] [|y k'] L L'; try discriminate; [constructor|].
  unfold masked in *. cbn [combine map fst snd]. injection L as L. injection L' as L'. specialize (IH k k' L L'). destruct x, y; cbn [orb]; constructor; exact IH.
Qed.
Lemma masked_true : forall B one, masked (repeat true (length B)) one B = B.
Proof. induction B as [|n B IH]; intros one; [reflexivity|]. unfold masked in *. cbn. now rewrite IH. Qed.
Lemma masked_all : forall k B one, length k = length B -> (forall d, d < length B -> nth d k false = true) -> masked k one B = B.
Proof.
  induction k as [|x k IH]; intros [|n B] one L H; try discriminate; [reflexivity|]. unfold masked in *. cbn [combine map fst snd]. injection L as L.
  rewrite (H 0 ltac:(cbn; lia) : x = true). f_equal. apply IH; auto. intros d Hd. apply (H (S d)). cbn. lia.
Qed.
Lemma or_nth : forall k k' d, length k = length k' -> nth d (map (fun x : bool * bool => orb (fst x) (snd x)) (combine k k')) false = orb (nth d k false) (nth d k' false).
Proof. induction k as [|x k IH]; intros [|y k'] [|d] L; try discriminate; cbn; auto. Qed.
Lemma or_length : forall k k' : list bool, length k = length k' -> length (map (fun x : bool * bool => orb (fst x) (snd x)) (combine k k')) = length k.
Proof. intros k k' L. rewrite map_length, combine_length. lia. Qed.

Lemma fold_masked : forall (l : list (list bool * list nat * ten V)) B k r0 ev,
  (forall k r u, In (k, r, u) l -> length k = length B /\ shape u = masked k 1 B ++ r /\ length r = length r0) -> length k = length B ->
  foldM step (map (fun x => snd (fst x)) l) r0 = Ok ev ->
  exists k', length k' = length B /\ foldM step (map (fun x => shape (snd x)) l) (masked k 1 B ++ r0) = Ok (masked k' 1 B ++ ev) /\
    forall d, (nth d k false = true \/ exists q r u, In (q, r, u) l /\ nth d q false = true) -> nth d k' false = true.
Proof.
  induction l as [|[[q r] u] l IH]; intros B k r0 ev Hl Lk Hf; cbn [map foldM fst snd] in *.
  - injection Hf as <-. exists k. split; auto. split; auto. intros d [H|[q [r [u [[] _]]]]]; auto.
  - destruct (Hl q r u (or_introl eq_refl)) as [L1 [L2 L3]]. rewrite L2. unfold step at 1. unfold step at 1 in Hf.
    rewrite bshape_app by (rewrite ?masked_length; lia). rewrite masked_or by auto. destruct (bshape r0 r) as [c|] eqn:E; cbn [bind] in Hf |- *; [|discriminate].
    assert (Lc : length c = length r0) by (apply (bshape_len r0 r); auto; lia).
    destruct (IH B (map (fun x => orb (fst x) (snd x)) (combine k q)) c ev) as [k' [K1 [K2 K3]]]; auto.
    + intros q' r' u' H. destruct (Hl q' r' u' (or_intror H)) as [A1 [A2 A3]]. rewrite Lc. auto.
    + rewrite or_length; lia.
    + exists k'. split; auto. split; auto. intros d H. apply K3. rewrite or_nth by lia. destruct H as [H|[q' [r' [u' [[H|H] G]]]]].
      * left. rewrite H. reflexivity.
      * injection H as <- <- <-. left. rewrite G. apply orb_true_r.
      * right. eauto.
Qed.
Definition mask_of (ev r : list nat) : list bool := map (fun x => fst x =? snd x) (combine r ev).
Lemma mask_of_spec : forall ev r, length r = length ev -> (forall d, d < length ev -> nth d r 0 = nth d ev 0 \/ nth d r 0 = 1) -> masked (mask_of ev r) 1 ev = r.
Proof.
  induction ev as [|n ev IH]; intros [|m r] L H; try discriminate; [reflexivity|]. unfold masked, mask_of in *. cbn [combine map fst snd]. injection L as L.
  rewrite IH; auto; [|intros d Hd; apply (H (S d)); cbn; lia]. f_equal. destruct (H 0 ltac:(cbn; lia)) as [E|E]; cbn in E; subst; [now rewrite Nat.eqb_refl|].
  destruct (Nat.eqb_spec 1 n); auto.
Qed.
Lemma mask_of_nth : forall ev r d, length r = length ev -> d < length ev -> nth d r 0 = nth d ev 0 -> nth d (mask_of ev r) false = true.
Proof.
  induction ev as [|n ev IH]; intros [|m r] [|d] L Hd E; cbn in *; try discriminate; try lia; [subst; apply Nat.eqb_refl|]. apply IH; auto; lia.
Qed.
Lemma broadcast_fold : forall rows ev, broadcast_to rows ev -> foldM step rows [] = Ok ev.
Proof.
  intros rows ev [H1 H2]. destruct rows as [|r rows].
  { destruct ev as [|n ev]; [reflexivity|]. destruct (H2 0 ltac:(cbn; lia)) as [? [[] _]]. }
  cbn [foldM]. unfold step at 1. assert (E0 : forall z : list nat, bshape [] z = Some z) by (intros z; unfold bshape; cbn; now rewrite rev_involutive). rewrite E0. cbn [bind].
  destruct (H1 r (or_introl eq_refl)) as [L1 L2].
  destruct (fold_masked (map (fun r => (mask_of ev r, [], mkten r (fun _ => o_zero o))) rows) ev (mask_of ev r) [] []) as [k' [K1 [K2 K3]]].
  - intros k q u H. apply in_map_iff in H. destruct H as [r' [E H]]. injection E as <- <- <-. destruct (H1 r' (or_intror H)) as [A1 A2].
    split; [unfold mask_of; rewrite map_length, combine_length; lia|]. split; [|reflexivity]. cbn [shape]. rewrite app_nil_r. symmetry. now apply mask_of_spec.
  - unfold mask_of. rewrite map_length, combine_length. lia.
  - rewrite map_map. cbn [fst snd]. clear. induction rows as [|x rows IH]; [reflexivity|]. cbn. exact IH.
  - rewrite map_map in K2. cbn [snd shape] in K2. rewrite map_id, !app_nil_r in K2. rewrite mask_of_spec in K2 by auto. rewrite K2. f_equal. apply masked_all; auto.
    intros d Hd. apply K3. destruct (H2 d Hd) as [r' [[<-|H] E]]; [left; now apply mask_of_nth|right].
    exists (mask_of ev r'), [], (mkten r' (fun _ => o_zero o)). split; [apply in_map_iff; eauto|]. apply mask_of_nth; auto. now destruct (H1 r' (or_intror H)).
Qed.
Lemma zip_masked : forall k B b, length k = length B -> valid b B -> (forall d, d < length B -> 2 <= nth d B 0) -> zip_clip (masked k 1 B) b = masked k 0 b.
Proof.
  induction k as [|x k IH]; intros [|n B] b L Hb H2; try discriminate; inversion Hb; subst; [reflexivity|]. unfold masked in *. cbn [combine map fst snd zip_clip].
  injection L as L. rewrite IH; auto; [|intros d Hd; apply (H2 (S d)); cbn; lia]. f_equal. destruct x; [|reflexivity]. specialize (H2 0 ltac:(cbn; lia)). cbn in H2.
  destruct (Nat.eqb_spec n 1); [lia|reflexivity].
Qed.

Lemma elementwise_leading : forall (f : list V -> V) rows ev, broadcast_to rows ev -> leading rows ev (each ev f) (elementwise f).
Proof.
  intros f rows ev HB0. pose proof (broadcast_fold rows ev HB0) as Hf. assert (Hlen : forall r, In r rows -> length r = length ev) by (intros r Hr; apply (proj1 HB0 r Hr)). split.
  - intros B l Hr Hl HB.
    assert (HS : foldM step (map shape (map snd l)) [] = Ok (B ++ ev)).
    { rewrite map_map. destruct l as [|[[k r] u] l].
      - cbn in Hr. subst rows. cbn in Hf. injection Hf as <-. destruct B as [|n B]; [reflexivity|]. destruct (HB 0 ltac:(cbn; lia)) as [_ [? [? [? [[] _]]]]].
      - cbn [map fst snd foldM] in *. destruct (Hl k r u (or_introl eq_refl)) as [L1 L2]. unfold step at 1. rewrite L2.
        assert (E0 : forall z : list nat, bshape [] z = Some z) by (intros z; unfold bshape; cbn; now rewrite rev_involutive). rewrite E0. cbn [bind].
        rewrite <- Hr in Hf. cbn [foldM] in Hf. unfold step at 1 in Hf. rewrite E0 in Hf. cbn [bind] in Hf.
        assert (Lr : length r = length ev) by (apply Hlen; rewrite <- Hr; now left).
        destruct (fold_masked l B k r ev) as [k' [K1 [K2 K3]]]; auto.
        + intros q r' u' H. destruct (Hl q r' u' (or_intror H)) as [A1 A2]. split; auto. split; auto. rewrite Lr. apply Hlen. rewrite <- Hr. right.
          apply in_map_iff. exists (q, r', u'). auto.
        + rewrite K2. rewrite (masked_all k' B 1); auto. intros d Hd. apply K3. destruct (HB d Hd) as [_ [q [r' [u' [[H|H] G]]]]]; [injection H as <- <- <-; auto|right; eauto]. }
    unfold elementwise. rewrite (broadcast_ok _ _ HS). cbn [bind]. eexists. split; [reflexivity|]. cbn [shape]. split.
    + destruct l as [|x l]; [|reflexivity]. cbn in HS. now injection HS.
    + intros b e Hb He. cbn [el]. unfold each. cbn [el]. rewrite !map_map. f_equal. apply map_ext_in. intros [[k r] u] Hin. cbn [fst snd el shape].
      destruct (Hl k r u Hin) as [L1 L2]. rewrite L2. pose proof (valid_length _ _ Hb). pose proof (valid_length _ _ He).
      assert (Lr : length r = length ev) by (apply Hlen; rewrite <- Hr; apply in_map_iff; exists (k, r, u); auto).
      rewrite !bidx_same by (rewrite ?app_length, ?masked_length by auto; lia).
      rewrite zip_clip_app by (rewrite masked_length; lia). f_equal. f_equal. apply zip_masked; auto. intros d Hd. apply (HB d Hd).
  - intros ts us e Hr HT He. unfold each. cbn [el]. f_equal. subst rows.
    assert (G : forall t, In t ts -> length (shape t) = length ev /\ exp_to (shape t) ev).
    { intros t Ht. split; [apply Hlen; now apply in_map|]. destruct (fold_exp _ _ _ Hf) as [_ F]. rewrite Forall_forall in F. apply F. now apply in_map. }
    clear Hlen Hf HB0. induction HT as [|t u ts us [T1 T2] HT IH]; [reflexivity|]. cbn [map]. destruct (G t (or_introl eq_refl)) as [G1 G2]. f_equal; [|apply IH; intros; apply G; now right].
    rewrite <- T1. apply T2. eapply exp_clip; eauto.
Qed.
Lemma firstn_len_app : forall (l m : list nat), firstn (length l) (l ++ m) = l.
Proof. induction l as [|x l IH]; intros m; cbn; [reflexivity|]. now rewrite IH. Qed.
Lemma skipn_len_app : forall (l m : list nat), skipn (length l) (l ++ m) = m.
Proof. induction l as [|x l IH]; intros m; cbn; [reflexivity|]. apply IH. Qed.
Lemma sum_leading : forall r, leading [r] [] (sum_all o) (sum_last o (length r)).
Proof.
  intros r. split.
  - intros B l Hr Hl HB. destruct l as [|[[k r'] u] [|? ?]]; try discriminate. cbn in Hr. injection Hr as ->. destruct (Hl k r u (or_introl eq_refl)) as [L1 L2].
    assert (Em : forall one B', length B' = length B -> masked k one B' = B').
    { intros one B' LB. apply masked_all; [lia|]. intros d Hd. destruct (HB d ltac:(lia)) as [_ [q [r' [u' [[H|[]] G]]]]]. injection H as <- <- <-. exact G. }
    rewrite Em in L2 by auto. cbn [map snd sum_last].
    assert (En : length (shape u) - length r = length B) by (rewrite L2, app_length; lia). rewrite En, L2.
    rewrite firstn_len_app, skipn_len_app.
    eexists. split; [reflexivity|]. split; [cbn [shape]; now rewrite app_nil_r|]. intros b e Hb He. inversion He; subst. rewrite app_nil_r. cbn [el fst snd sum_all shape tscalar].
    f_equal. apply map_ext. intros e. rewrite Em; auto. now apply valid_length.
  - intros ts us e Hr HT He. destruct HT as [|t u ts us [T1 T2] HT]; [reflexivity|]. unfold sum_all. cbn [el tscalar]. rewrite <- T1. f_equal. apply map_ext_in. intros i Hi. apply T2. now apply in_indices.
Qed.
Lemma after_leading : forall rows ev1 ev g1 g2 (f1 f2 : list (ten V) -> res (ten V)), leading rows ev1 g1 f1 -> leading [ev1] ev g2 f2 -> leading rows ev (then_ ev1 g2 g1) (after f2 f1).
Proof.
  intros rows ev1 ev g1 g2 f1 f2 [A1 A2] [B1 B2]. split.
  - intros B l Hr Hl HB. destruct (A1 B l Hr Hl HB) as [t [T1 [T2 T3]]].
    destruct (B1 B [(repeat true (length B), ev1, t)]) as [u [U1 [U2 U3]]].
    + reflexivity.
    + intros k r u [H|[]]. injection H as <- <- <-. split; [apply repeat_length|]. now rewrite masked_true.
    + intros d Hd. split; [apply (HB d Hd)|]. exists (repeat true (length B)), ev1, t. split; [now left|]. clear - Hd. revert d Hd. induction B as [|n B IH]; intros [|d] Hd; cbn in *; try lia; auto. apply IH. lia.
    + exists u. unfold after. rewrite T1. cbn [bind]. split; [exact U1|]. split; [exact U2|]. intros b e Hb He. rewrite U3 by auto. unfold then_. cbn [map fst snd]. apply B2; auto.
      constructor; [|constructor]. split; [reflexivity|]. cbn [shape el]. intros i Hi.
      assert (Em : masked (repeat true (length B)) 0 b = b) by (rewrite <- (valid_length _ _ Hb); apply masked_true). rewrite Em. now apply T3.
  - intros ts us e Hr HT He. unfold then_. apply B2; auto. constructor; [|constructor]. split; [reflexivity|]. cbn [shape el]. intros i Hi. now apply A2.
Qed.
End Fns.
