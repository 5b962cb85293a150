(** A change of variables: the noise of relaxed samples with given largest entries, in terms of the noise of the resampled values. *)
From Coq Require Import List Arith Bool Lia Reals Lra Permutation FunctionalExtensionality.
From Coquelicot Require Import Coquelicot.
From Verif Require Import SpecArm SpecExpect ArmMean RelaxedLaw Expect Expect2.
Import ListNotations.
Local Open Scope R_scope.

(** ** Indicators of strict inequalities *)
Definition race : Type := (idx * idx * R)%type.
Definition ahead (u : idx -> R) (x : race) : bool := let '(e, e', q) := x in if Rlt_dec (u e) (pw q (u e')) then true else false.
Definition race_ok (l : list idx) (x : race) : Prop := let '(e, e', q) := x in In e l /\ In e' l /\ e <> e' /\ 0 < q.
Definition gap (x : race) (u : idx -> R) : R := let '(e, e', q) := x in pw q (u e') - u e.
Lemma pw_cont_pt : forall q x, 0 < q -> 0 <= x -> continuity_pt (pw q) x.
Proof. intros q x Hq Hx. apply continuity_pt_filterlim. now apply pw_cont. Qed.
Lemma gap_cont : forall l x, race_ok l x -> cont_on l (gap x).
Proof.
  intros l [[e e'] q] [H1 [H2 [_ Hq]]]. unfold gap. apply cont_minus; [|now apply cont_coord].
  apply (cont_comp l (fun u => u e') (pw q) 0 1); [intros u Hu; now apply Hu| |now apply cont_coord]. intros x Hx. apply pw_cont_pt; [exact Hq|lra].
Qed.
Lemma gap_range : forall l x u, race_ok l x -> cube l u -> -1 <= gap x u <= 1.
Proof. intros l [[e e'] q] u [H1 [H2 [_ Hq]]] Hu. unfold gap. pose proof (pw_range q (u e') Hq (Hu e' H2)). specialize (Hu e H1). lra. Qed.
Definition low (s : R) (x : race) (u : idx -> R) : R := clip (gap x u / s).
Definition high (s : R) (x : race) (u : idx -> R) : R := clip (1 + gap x u / s).
Lemma clip_lin_cont : forall l F a b, (forall u, cube l u -> -1 <= F u <= 1) -> cont_on l F -> cont_on l (fun u => clip (a + F u * b)).
Proof.
  intros l F a b Hr H. apply (cont_comp l F (fun x => clip (a + x * b)) (-1) 1); auto. intros x _. apply (continuity_pt_comp (fun x => a + x * b) clip); [|apply clip_cont].
  apply continuity_pt_plus; [apply continuity_pt_const; intros p q; reflexivity|]. apply continuity_pt_mult; [apply continuity_pt_id|apply continuity_pt_const; intros p q; reflexivity].
Qed.
Lemma low_cont : forall l s x, race_ok l x -> cont_on l (low s x).
Proof.
  intros l s x H. unfold low. apply (cont_ext l (fun u => clip (0 + gap x u * / s))); [intros; f_equal; unfold Rdiv; ring|]. apply clip_lin_cont; [intros; now apply (gap_range l)|now apply gap_cont].
Qed.
Lemma high_cont : forall l s x, race_ok l x -> cont_on l (high s x).
Proof. intros l s x H. unfold high. apply (clip_lin_cont l (gap x) 1 (/ s)); [intros; now apply (gap_range l)|now apply gap_cont]. Qed.
Definition prods {A} (f : A -> R) (l : list A) : R := fold_right (fun x r => f x * r) 1 l.
Lemma prods_cont : forall l (f : race -> (idx -> R) -> R) xs, (forall x, In x xs -> cont_on l (f x)) -> cont_on l (fun u => prods (fun x => f x u) xs).
Proof.
  intros l f xs. induction xs as [|x xs IH]; intros H; cbn [prods fold_right]; [apply cont_const|]. apply (cont_mult l (f x)); [apply H; now left|]. apply IH. intros; apply H; now right.
Qed.
Lemma prods_range : forall {A} (f : A -> R) l, (forall x, In x l -> 0 <= f x <= 1) -> 0 <= prods f l <= 1.
Proof.
  intros A f l. induction l as [|x l IH]; intros H; cbn [prods fold_right]; [lra|]. fold (prods f l). specialize (IH (fun y Hy => H y (or_intror Hy))). specialize (H x (or_introl eq_refl)). nra.
Qed.
Lemma prods_diff0 : forall {A} (f g : A -> R) l, (forall x, In x l -> 0 <= f x <= g x /\ g x <= 1) -> 0 <= prods g l - prods f l <= rsum (fun x => g x - f x) l.
Proof.
  intros A f g l. induction l as [|x l IH]; intros H; [cbn; lra|]. specialize (IH (fun y Hy => H y (or_intror Hy))).
  pose proof (prods_range f l (fun y Hy => let X := H y (or_intror Hy) in conj (proj1 (proj1 X)) (Rle_trans _ _ _ (proj2 (proj1 X)) (proj2 X)))) as Rf. specialize (H x (or_introl eq_refl)).
  change (prods g (x :: l)) with (g x * prods g l). change (prods f (x :: l)) with (f x * prods f l). change (rsum (fun x => g x - f x) (x :: l)) with ((g x - f x) + rsum (fun x => g x - f x) l).
  replace (g x * prods g l - f x * prods f l) with ((g x - f x) * prods f l + g x * (prods g l - prods f l)) by ring. set (D := prods g l - prods f l) in *. set (S := rsum _ l) in *.
  assert (0 <= (g x - f x) * prods f l <= (g x - f x) * 1) by (split; [apply Rmult_le_pos; lra|apply Rmult_le_compat_l; lra]).
  assert (0 <= g x * D <= 1 * D) by (split; [apply Rmult_le_pos; lra|apply Rmult_le_compat_r; lra]). lra.
Qed.
Lemma prods_diff : forall {A} (f g : A -> R) l, (forall x, In x l -> 0 <= f x <= g x /\ g x <= 1) -> prods g l - prods f l <= rsum (fun x => g x - f x) l.
Proof. intros A f g l H. now apply prods_diff0. Qed.
Lemma clip_one : forall x, 1 <= x -> clip x = 1. Proof. intros x H. unfold clip. rewrite Rmin_right by lra. apply Rmax_right. lra. Qed.
Lemma clip_zero : forall x, x <= 0 -> clip x = 0. Proof. intros x H. unfold clip. rewrite Rmin_left by lra. now apply Rmax_left. Qed.
Lemma clip_mono : forall x y, x <= y -> clip x <= clip y.
Proof. intros x y H. unfold clip, Rmax, Rmin. repeat destruct Rle_dec; lra. Qed.
Lemma low_high : forall s x u, 0 <= low s x u <= high s x u /\ high s x u <= 1.
Proof. intros s x u. unfold low, high. pose proof (clip_in (gap x u / s)). pose proof (clip_in (1 + gap x u / s)). pose proof (clip_mono (gap x u / s) (1 + gap x u / s) ltac:(lra)). lra. Qed.
Lemma ahead_gap : forall u x, ahead u x = true <-> 0 < gap x u.
Proof. intros u [[e e'] q]. unfold ahead, gap. destruct Rlt_dec; split; intros; try reflexivity; try discriminate; lra. Qed.

Lemma race_expect : forall l xs H, NoDup l -> (forall x, In x xs -> race_ok l x) -> cont_on l H -> exists v, expect l (fun u => if forallb (ahead u) xs then H u else 0) v.
Proof.
  intros l xs H ND Hxs CH. pose proof CH as [[B0 HB0] _]. set (B := Rabs B0 + 1). assert (PB : 0 < B) by (unfold B; pose proof (Rabs_pos B0); lra).
  assert (HB : forall u, cube l u -> - B <= H u <= B) by (intros u Hu; specialize (HB0 u Hu); apply Rabs_le_between in HB0; unfold B; pose proof (Rle_abs B0); lra).
  assert (G : forall X, cont_on l X -> (forall u, cube l u -> 0 <= X u <= 2 * B) -> exists v, expect l (fun u => if forallb (ahead u) xs then X u else 0) v).
  { intros X CX HX. apply expect_ex. intros d Hd. set (N := INR (length xs) + 1). assert (PN : 0 < N) by (unfold N; pose proof (pos_INR (length xs)); lra).
    set (s := d / (4 * B * N)). assert (P4 : 0 < 4 * B * N) by (apply Rmult_lt_0_compat; lra). assert (Ps : 0 < s) by (unfold s; now apply Rdiv_lt_0_compat).
    set (Lo := fun u => prods (fun x => low s x u) xs). set (Hi := fun u => prods (fun x => high s x u) xs).
    assert (CLo : cont_on l Lo) by (apply (prods_cont l (low s)); intros; now apply low_cont, Hxs). assert (CHi : cont_on l Hi) by (apply (prods_cont l (high s)); intros; now apply high_cont, Hxs).
    exists (fun u => Lo u * X u), (fun u => Hi u * X u). split; [now apply cont_mult|]. split; [now apply cont_mult|].
    assert (RL : forall u, 0 <= Lo u <= 1) by (intros u; apply prods_range; intros x _; pose proof (low_high s x u); lra).
    assert (RH : forall u, 0 <= Hi u <= 1) by (intros u; apply prods_range; intros x _; pose proof (low_high s x u); lra).
    split.
    - intros u Hu. assert (Cu : cube l u) by (intros e He; specialize (Hu e He); lra). specialize (HX u Cu). destruct (forallb (ahead u) xs) eqn:E.
      + rewrite forallb_forall in E. assert (E1 : Hi u = 1).
        { unfold Hi. clearbody s. clear - E Ps. induction xs as [|x xs IH]; cbn [prods fold_right]; [reflexivity|]. fold (prods (fun x => high s x u) xs). rewrite IH by (intros; apply E; now right).
          assert (X : 0 < gap x u) by (apply ahead_gap, E; now left). unfold high. rewrite clip_one; [ring|]. assert (0 < gap x u / s) by now apply Rdiv_lt_0_compat. lra. }
        rewrite E1. specialize (RL u). nra.
      + assert (E0 : Lo u = 0).
        { apply not_true_iff_false in E. assert (Q : exists x, In x xs /\ ahead u x = false).
          { clear - E. induction xs as [|x xs IH]; [exfalso; now apply E|]. cbn [forallb] in E. destruct (ahead u x) eqn:Ex; [|exists x; split; [now left|exact Ex]]. destruct (IH E) as [y [Y1 Y2]]. exists y. split; [now right|exact Y2]. }
          destruct Q as [x [Hx Ex]]. assert (Z : low s x u = 0).
          { unfold low. apply clip_zero. assert (Hg : gap x u <= 0) by (apply Rnot_lt_le; intros C; apply ahead_gap in C; congruence). unfold Rdiv. assert (0 < / s) by now apply Rinv_0_lt_compat. nra. }
          unfold Lo. clearbody s. clear - Hx Z. induction xs as [|y xs IH]; [destruct Hx|]. cbn [prods fold_right]. fold (prods (fun x => low s x u) xs). destruct Hx as [->|Hx]; [rewrite Z; ring|rewrite IH by exact Hx; ring]. }
        rewrite E0. specialize (RH u). nra.
    - intros u0 a b Ma Mb.
      assert (CD : forall x, In x xs -> cont_on l (fun u => high s x u - low s x u)) by (intros x Hx; apply cont_minus; [now apply high_cont, Hxs|now apply low_cont, Hxs]).
      assert (MD : forall x w, In x xs -> mean l (fun u => high s x u - low s x u) u0 w -> w <= 2 * s).
      { intros x w Hx Mw. pose proof (Hxs x Hx) as Ok. pose proof (CD x Hx) as Cx. destruct x as [[e e'] q]. destruct Ok as [O1 [O2 [O3 O4]]].
        apply (bump_mean l e (fun u => high s (e, e', q) u - low s (e, e', q) u) u0 w s); auto.
        - intros w0 _. pose proof (low_high s (e, e', q) w0). lra.
        - intros w0. exists (pw q (w0 e')). intros y Hy Hd0. unfold high, low, gap. rewrite at_same. rewrite (at_other w0 e y e') by (intros C; apply O3; now rewrite C).
          assert (Dv : pw q (w0 e') - y >= s \/ pw q (w0 e') - y <= - s) by (revert Hd0; unfold Rabs; destruct Rcase_abs; lra).
          assert (Pi : 0 < / s) by now apply Rinv_0_lt_compat. destruct Dv as [Dv|Dv].
          + assert (1 <= (pw q (w0 e') - y) / s) by (apply (Rmult_le_reg_r s); [exact Ps|]; unfold Rdiv; rewrite Rmult_assoc, Rinv_l by lra; lra). rewrite !clip_one by lra. lra.
          + assert ((pw q (w0 e') - y) / s <= -1) by (apply (Rmult_le_reg_r s); [exact Ps|]; unfold Rdiv; rewrite Rmult_assoc, Rinv_l by lra; lra). rewrite !clip_zero by lra. lra. }
      assert (SD : exists w, mean l (fun u => rsum (fun x => high s x u - low s x u) xs) u0 w /\ w <= INR (length xs) * (2 * s)).
      { assert (Q : forall ys, incl ys xs -> exists w, mean l (fun u => rsum (fun x => high s x u - low s x u) ys) u0 w /\ w <= INR (length ys) * (2 * s)).
        { induction ys as [|y ys IH]; intros Hi'; [exists 0; split; [apply mean_zero|simpl; lra]|]. destruct (IH (fun z Hz => Hi' z (or_intror Hz))) as [w [W1 W2]].
          assert (Hy : In y xs) by (apply Hi'; now left). destruct (mean_ex l _ (CD y Hy)) as [w' W']. exists (w' + w). split; [exact (mean_plus l (fun u => high s y u - low s y u) _ u0 w' w (W' u0) W1)|].
          cbn [length]. rewrite S_INR. pose proof (MD y w' Hy (W' u0)). lra. }
        apply Q, incl_refl. }
      destruct SD as [w [W1 W2]].
      assert (X1 : b - a <= 2 * B * w).
      { apply (mean_le l (fun u => Hi u * X u + (-1) * (Lo u * X u)) (fun u => 2 * B * rsum (fun x => high s x u - low s x u) xs) u0).
        - intros u _ Hu. assert (Cu : cube l u) by (intros e He; specialize (Hu e He); lra). specialize (HX u Cu).
          assert (Df : Hi u - Lo u <= rsum (fun x => high s x u - low s x u) xs) by (apply prods_diff; intros x _; apply low_high).
          assert (D0 : Lo u <= Hi u).
          { unfold Lo, Hi. clearbody s. clear. induction xs as [|x xs IH]; cbn [prods fold_right]; [lra|]. fold (prods (fun x => low s x u) xs) (prods (fun x => high s x u) xs). pose proof (low_high s x u).
            pose proof (prods_range (fun x => low s x u) xs (fun y _ => let Q := low_high s y u in conj (proj1 (proj1 Q)) (Rle_trans _ _ _ (proj2 (proj1 Q)) (proj2 Q)))). apply Rmult_le_compat; lra. }
          apply Rle_trans with ((Hi u - Lo u) * (2 * B)); [|nra]. replace (Hi u * X u + -1 * (Lo u * X u)) with ((Hi u - Lo u) * X u) by ring. apply Rmult_le_compat_l; lra.
        - replace (b - a) with (b + (-1) * a) by ring. apply mean_plus; [exact Mb|]. now apply mean_scal.
        - now apply (mean_scal l (2 * B)). }
      assert (Ed : s * (4 * B * N) = d) by (unfold s; field; lra).
      assert (2 * B * w <= 2 * B * (INR (length xs) * (2 * s))) by (apply Rmult_le_compat_l; lra).
      assert (2 * B * (INR (length xs) * (2 * s)) <= s * (4 * B * N)); [|lra]. replace (2 * B * (INR (length xs) * (2 * s))) with (s * (4 * B * INR (length xs))) by ring.
      apply Rmult_le_compat_l; [lra|]. apply Rmult_le_compat_l; [lra|]. unfold N. lra. }
  destruct (G (fun u => H u + B)) as [v1 V1]; [apply cont_plus; [exact CH|apply cont_const]|intros u Hu; specialize (HB u Hu); lra|].
  destruct (G (fun _ => B)) as [v2 V2]; [apply cont_const|intros; lra|].
  exists (v1 - v2). apply (expect_ext l (fun u => (if forallb (ahead u) xs then H u + B else 0) - (if forallb (ahead u) xs then B else 0))); [|now apply expect_minus].
  intros u _. destruct (forallb (ahead u) xs); ring.
Qed.

(** ** Iterated means *)
Lemma mean_app : forall l1 l2 F G u v, (forall w, (forall e, ~ In e l1 -> w e = u e) -> inner l1 w -> mean l2 F w (G w)) -> mean l1 G u v -> mean (l1 ++ l2) F u v.
Proof.
  induction l1 as [|e l1 IH]; intros l2 F G u v H Hm; cbn [mean app] in *.
  - subst v. apply H; [reflexivity|intros e []].
  - destruct Hm as [g [G1 G2]]. exists g. split; [|exact G2]. intros x Hx. apply (IH l2 F G); [|now apply G1]. intros w W1 W2.
    destruct (in_dec eq_idx e l1) as [I|I].
    + apply H; [intros e' Ne; rewrite W1 by (intro; apply Ne; now right); apply at_other; intros ->; apply Ne; now left|]. intros e' [<-|He]; now apply W2.
    + apply H; [intros e' Ne; rewrite W1 by (intro; apply Ne; now right); apply at_other; intros ->; apply Ne; now left|].
      intros e' [<-|He]; [rewrite W1 by exact I; now rewrite at_same|now apply W2].
Qed.
Lemma mean_env : forall l F F' u u' v, mean l F u v ->
  (forall w w', (forall e, ~ In e l -> w e = u e) -> (forall e, ~ In e l -> w' e = u' e) -> (forall e, In e l -> w e = w' e) -> inner l w -> F' w' = F w) -> mean l F' u' v.
Proof.
  induction l as [|e l IH]; intros F F' u u' v Hm H; cbn [mean] in *.
  - rewrite <- Hm. apply H; auto; intros e [].
  - destruct Hm as [g [G1 G2]]. exists g. split; [|exact G2]. intros x Hx. apply (IH F F' (at_index u e x)); [now apply G1|]. intros w w' W W' Ww Wi.
    assert (We : w e = w' e). { destruct (in_dec eq_idx e l) as [I|I]; [now apply Ww|]. rewrite W, W' by exact I. now rewrite !at_same. }
    assert (Wi' : 0 < w e < 1). { destruct (in_dec eq_idx e l) as [I|I]; [now apply Wi|]. rewrite W by exact I. now rewrite at_same. }
    apply H.
    + intros e' Ne. rewrite W by (intro; apply Ne; now right). apply at_other. intros ->. apply Ne. now left.
    + intros e' Ne. rewrite W' by (intro; apply Ne; now right). apply at_other. intros ->. apply Ne. now left.
    + intros e' [<-|He]; [exact We|now apply Ww].
    + intros e' [<-|He]; [exact Wi'|now apply Wi].
Qed.
