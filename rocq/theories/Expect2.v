(** The expectation is linear, monotone and unique; functions that have one; derivatives of expectations. *)
From Coq Require Import List Arith Bool Lia Reals Lra Permutation FunctionalExtensionality.
From Coquelicot Require Import Coquelicot.
From Verif Require Import SpecArm SpecExpect ArmMean Expect.
Import ListNotations.
Local Open Scope R_scope.

Lemma small_le : forall a b, (forall d, 0 < d -> a <= b + d) -> a <= b.
Proof. intros a b H. destruct (Rle_dec a b) as [C|C]; [exact C|]. specialize (H ((a - b) / 2) ltac:(lra)). lra. Qed.
Lemma expect_le : forall l F G v w, (forall u, open_cube l u -> F u <= G u) -> expect l F v -> expect l G w -> v <= w.
Proof.
  intros l F G v w H HF HG. apply small_le. intros d Hd. destruct (HF (d / 2) ltac:(lra)) as [L [U [_ [_ [S M]]]]], (HG (d / 2) ltac:(lra)) as [L' [U' [_ [_ [S' M']]]]].
  destruct (M (fun _ => 0)) as [a [b [Ma [Mb [Ha Hb]]]]], (M' (fun _ => 0)) as [a' [b' [Ma' [Mb' [Ha' Hb']]]]].
  assert (X : a <= b'); [|lra]. apply (mean_le l L U' (fun _ => 0)); auto. intros u _ Hu. specialize (S u Hu). specialize (S' u Hu). specialize (H u Hu). lra.
Qed.
Lemma expect_unique : forall l F v w, expect l F v -> expect l F w -> v = w.
Proof. intros l F v w H H'. apply Rle_antisym; eapply expect_le; eauto; intros; lra. Qed.
Lemma expect_ext : forall l F G v, (forall u, open_cube l u -> F u = G u) -> expect l F v -> expect l G v.
Proof.
  intros l F G v E H d Hd. destruct (H d Hd) as [L [U [CL [CU [S M]]]]]. exists L, U. split; [exact CL|]. split; [exact CU|]. split; [|exact M]. intros u Hu. rewrite <- E by exact Hu. auto.
Qed.
Lemma expect_cont : forall l F u v, cont_on l F -> mean l F u v -> expect l F v.
Proof.
  intros l F u v C M d Hd. exists F, F. split; [exact C|]. split; [exact C|]. split; [intros; lra|]. intros u0. destruct (mean_ex l F C) as [w W].
  rewrite (mean_unique _ _ _ _ _ M (W u)). exists w, w. split; [apply W|]. split; [apply W|]. lra.
Qed.
Lemma expect_const : forall l c, expect l (fun _ => c) c.
Proof.
  intros l c. apply (expect_cont l _ (fun _ => 0)); [apply cont_const|]. generalize (fun _ : idx => 0). induction l as [|e l IH]; intros u; cbn [mean]; [reflexivity|].
  exists (fun _ => c). split; [auto|]. pose proof (is_RInt_const (V := R_NormedModule) 0 1 c) as H. unfold scal in H. simpl in H. unfold mult in H. simpl in H. now replace ((1 - 0) * c) with c in H by ring.
Qed.
Lemma expect_plus : forall l F G v w, expect l F v -> expect l G w -> expect l (fun u => F u + G u) (v + w).
Proof.
  intros l F G v w HF HG d Hd. destruct (HF (d / 2) ltac:(lra)) as [L [U [CL [CU [S M]]]]], (HG (d / 2) ltac:(lra)) as [L' [U' [CL' [CU' [S' M']]]]].
  exists (fun u => L u + L' u), (fun u => U u + U' u). split; [now apply cont_plus|]. split; [now apply cont_plus|]. split.
  - intros u Hu. specialize (S u Hu). specialize (S' u Hu). lra.
  - intros u0. destruct (M u0) as [a [b [Ma [Mb [Ha Hb]]]]], (M' u0) as [a' [b' [Ma' [Mb' [Ha' Hb']]]]]. exists (a + a'), (b + b').
    split; [now apply mean_plus|]. split; [now apply mean_plus|]. lra.
Qed.
Lemma expect_scal : forall l k F v, expect l F v -> expect l (fun u => k * F u) (k * v).
Proof.
  intros l k F v H. destruct (Req_dec k 0) as [->|Hk].
  { rewrite Rmult_0_l. apply (expect_ext l (fun _ => 0)); [intros; ring|apply expect_const]. }
  intros d Hd. assert (Pk : 0 < Rabs k) by now apply Rabs_pos_lt. destruct (H (d / Rabs k)) as [L [U [CL [CU [S M]]]]]; [now apply Rdiv_lt_0_compat|].
  assert (E : Rabs k * (d / Rabs k) = d) by (field; lra). destruct (Rle_dec 0 k) as [Pos|Neg].
  - rewrite Rabs_pos_eq in * by exact Pos. exists (fun u => k * L u), (fun u => k * U u). split; [now apply cont_scal|]. split; [now apply cont_scal|]. split.
    + intros u Hu. specialize (S u Hu). split; apply Rmult_le_compat_l; lra.
    + intros u0. destruct (M u0) as [a [b [Ma [Mb [Ha Hb]]]]]. exists (k * a), (k * b). split; [now apply mean_scal|]. split; [now apply mean_scal|].
      apply (Rmult_le_compat_l k) in Ha; [|lra]. apply (Rmult_le_compat_l k) in Hb; [|lra]. lra.
  - rewrite Rabs_left in * by lra. exists (fun u => k * U u), (fun u => k * L u). split; [now apply cont_scal|]. split; [now apply cont_scal|]. split.
    + intros u Hu. specialize (S u Hu). split; apply Rmult_le_compat_neg_l; lra.
    + intros u0. destruct (M u0) as [a [b [Ma [Mb [Ha Hb]]]]]. exists (k * b), (k * a). split; [now apply mean_scal|]. split; [now apply mean_scal|].
      apply (Rmult_le_compat_neg_l k) in Ha; [|lra]. apply (Rmult_le_compat_neg_l k) in Hb; [|lra]. lra.
Qed.
Lemma expect_minus : forall l F G v w, expect l F v -> expect l G w -> expect l (fun u => F u - G u) (v - w).
Proof.
  intros l F G v w HF HG. apply (expect_ext l (fun u => F u + (-1) * G u)); [intros; ring|]. replace (v - w) with (v + (-1) * w) by ring. apply expect_plus; [exact HF|now apply expect_scal].
Qed.
Lemma expect_rsum : forall {A} (xs : list A) l F v, (forall x, In x xs -> expect l (F x) (v x)) -> expect l (fun u => rsum (fun x => F x u) xs) (rsum v xs).
Proof.
  intros A xs. induction xs as [|x xs IH]; intros l F v H; cbn [rsum fold_right]; [apply expect_const|].
  apply expect_plus; [apply H; now left|]. apply IH. intros; apply H; now right.
Qed.

(** The expectation is the iterated integral in every order, if that exists. *)
Lemma expect_mean : forall l l' F u v w, Permutation l l' -> NoDup l -> expect l F v -> mean l' F u w -> v = w.
Proof.
  intros l l' F u v w P ND H Hm. assert (X : forall d, 0 < d -> v - d <= w <= v + d).
  { intros d Hd. destruct (H d Hd) as [L [U [CL [CU [S M]]]]]. destruct (M u) as [a [b [Ma [Mb [Ha Hb]]]]].
    assert (P' : forall G c, cont_on l G -> mean l G u c -> mean l' G u c) by (intros G c CG; apply (mean_perm l l' P ND []); [now rewrite app_nil_r|apply cube_nil]).
    apply P' in Ma; [|exact CL]. apply P' in Mb; [|exact CU].
    assert (I : forall w, inner l' w -> open_cube l w) by (intros x Hx e He; apply Hx; now apply (Permutation_in _ P)).
    assert (a <= w) by (apply (mean_le l' L F u); auto; intros x _ Hx; apply S; auto). assert (w <= b) by (apply (mean_le l' F U u); auto; intros x _ Hx; apply S; auto). lra. }
  apply Rle_antisym; apply small_le; intros d Hd; specialize (X d Hd); lra.
Qed.
Lemma mean_front : forall r l F a, (forall u, mean l F u a) -> forall u, mean (r ++ l) F u a.
Proof.
  induction r as [|e r IH]; intros l F a H u; cbn [app mean]; [apply H|]. exists (fun _ => a). split; [intros; now apply IH|].
  pose proof (is_RInt_const (V := R_NormedModule) 0 1 a) as X. unfold scal in X. simpl in X. unfold mult in X. simpl in X. now replace ((1 - 0) * a) with a in X by ring.
Qed.
Lemma mean_any : forall l F u v, cont_on l F -> mean l F u v -> forall u', mean l F u' v.
Proof. intros l F u v C M u'. destruct (mean_ex l F C) as [w W]. rewrite (mean_unique _ _ _ _ _ M (W u)). apply W. Qed.
Lemma expect_weaken : forall l r m F v, Permutation (r ++ l) m -> NoDup m -> expect l F v -> expect m F v.
Proof.
  intros l r m F v P ND H d Hd. destruct (H d Hd) as [L [U [CL [CU [S M]]]]]. exists L, U.
  assert (I : incl l m) by (intros e He; apply (Permutation_in _ P), in_or_app; now right).
  split; [now apply (cont_incl l)|]. split; [now apply (cont_incl l)|]. split; [intros u Hu; apply S; intros e He; now apply Hu, I|].
  intros u0. destruct (M u0) as [a [b [Ma [Mb [Ha Hb]]]]]. exists a, b.
  assert (X : forall G c, cont_on l G -> mean l G u0 c -> mean m G u0 c).
  { intros G c CG MG. apply (mean_perm (r ++ l) m P (Permutation_NoDup (Permutation_sym P) ND) []); [rewrite app_nil_r|apply cube_nil|].
    - apply (cont_incl l); [|exact CG]. intros e He. apply in_or_app. now right.
    - apply mean_front. now apply (mean_any l G u0). }
  split; [now apply X|]. split; [now apply X|]. lra.
Qed.
Lemma expect_perm : forall l m F v, Permutation l m -> NoDup m -> expect l F v -> expect m F v.
Proof. intros l m F v P ND. apply (expect_weaken l []); auto. Qed.

(** ** Existence *)
Lemma expect_ex : forall l F, (forall d, 0 < d -> exists L U, cont_on l L /\ cont_on l U /\ (forall u, open_cube l u -> L u <= F u <= U u) /\
    forall u0 a b, mean l L u0 a -> mean l U u0 b -> b <= a + d) -> exists v, expect l F v.
Proof.
  intros l F H. set (u0 := fun _ : idx => 0).
  set (E := fun a => exists L, cont_on l L /\ (forall u, open_cube l u -> L u <= F u) /\ mean l L u0 a).
  assert (Up : forall L U a b, (forall u, open_cube l u -> L u <= F u) -> (forall u, open_cube l u -> F u <= U u) -> mean l L u0 a -> mean l U u0 b -> a <= b).
  { intros L U a b HL HU Ma Mb. apply (mean_le l L U u0); auto. intros w _ Hw. specialize (HL w Hw). specialize (HU w Hw). lra. }
  destruct (completeness E) as [v [V1 V2]].
  - destruct (H 1 Rlt_0_1) as [L [U [CL [CU [S M]]]]]. destruct (mean_ex l U CU) as [b Mb]. exists b. intros a [L' [CL' [S' Ma]]].
    apply (Up L' U); auto. intros; now apply S.
  - destruct (H 1 Rlt_0_1) as [L [U [CL [CU [S M]]]]]. destruct (mean_ex l L CL) as [a Ma]. exists a, L. split; [exact CL|]. split; [intros; now apply S|apply Ma].
  - exists v. intros d Hd. destruct (H d Hd) as [L [U [CL [CU [S M]]]]]. exists L, U. split; [exact CL|]. split; [exact CU|]. split; [exact S|].
    destruct (mean_ex l L CL) as [a Ma], (mean_ex l U CU) as [b Mb]. intros u. exists a, b. split; [apply Ma|]. split; [apply Mb|].
    specialize (M u0 a b (Ma u0) (Mb u0)).
    assert (A : a <= v) by (apply V1; exists L; split; [exact CL|]; split; [intros; now apply S|apply Ma]).
    assert (B : v <= b). { apply V2. intros a' [L' [CL' [S' Ma']]]. apply (Up L' U); auto. intros; now apply S. }
    lra.
Qed.

(** A bounded function that is continuous inside the cube: [squash eps] maps the cube into a smaller one. *)
Definition squash1 (eps x : R) : R := Rmax eps (Rmin x (1 - eps)).
Definition squash (eps : R) (u : idx -> R) : idx -> R := fun e => squash1 eps (u e).
Lemma squash1_in : forall eps x, 0 < eps < 1 / 2 -> eps <= squash1 eps x <= 1 - eps.
Proof. intros eps x H. unfold squash1. split; [apply Rmax_l|]. apply Rmax_lub; [lra|apply Rmin_r]. Qed.
Lemma squash1_id : forall eps x, eps <= x <= 1 - eps -> squash1 eps x = x.
Proof. intros eps x H. unfold squash1. rewrite Rmin_left by lra. apply Rmax_right. lra. Qed.
(** 1 within [eps] of the border, 0 further than [2 * eps] from it. *)
Definition border (eps x : R) : R := clip (2 - x / eps) + clip (2 - (1 - x) / eps).
Lemma clip_cont : forall x, continuity_pt clip x.
Proof. intros x e He. exists e. split; [exact He|]. intros y [_ Hy]. unfold dist in *. simpl in *. unfold R_dist in *. pose proof (clip_lip y x). lra. Qed.
Lemma border_range : forall eps x, 0 <= border eps x <= 2.
Proof. intros. unfold border. pose proof (clip_in (2 - x / eps)). pose proof (clip_in (2 - (1 - x) / eps)). lra. Qed.
Lemma border_one : forall eps x, 0 < eps -> x < eps \/ 1 - eps < x -> 1 <= border eps x.
Proof.
  intros eps x He H. unfold border. pose proof (clip_in (2 - x / eps)). pose proof (clip_in (2 - (1 - x) / eps)).
  assert (X : forall y, y < eps -> clip (2 - y / eps) = 1).
  { intros y Hy. assert (y / eps < 1) by (apply (Rmult_lt_reg_r eps); [exact He|]; unfold Rdiv; rewrite Rmult_assoc, Rinv_l; lra). unfold clip. rewrite Rmin_right by lra. apply Rmax_right. lra. }
  destruct H as [H|H]; [rewrite (X x H)|rewrite (X (1 - x)) by lra]; lra.
Qed.
Lemma border_cont : forall l e eps, In e l -> cont_on l (fun u => border eps (u e)).
Proof.
  intros l e eps He. unfold border. assert (Lin : forall a b, cont_on l (fun u => clip (a + b * u e))).
  { intros a b. apply (cont_comp l (fun u => u e) (fun x => clip (a + b * x)) 0 1); [intros u Hu; now apply Hu| |now apply cont_coord].
    intros x _. apply (continuity_pt_comp (fun x => a + b * x) clip); [|apply clip_cont]. apply continuity_pt_plus; [apply continuity_pt_const; intros p q; reflexivity|].
    apply continuity_pt_mult; [apply continuity_pt_const; intros p q; reflexivity|apply continuity_pt_id]. }
  apply cont_plus.
  - apply (cont_ext l (fun u => clip (2 + (- / eps) * u e))); [|apply Lin]. intros u _. f_equal. unfold Rdiv. ring.
  - apply (cont_ext l (fun u => clip ((2 - / eps) + / eps * u e))); [|apply Lin]. intros u _. f_equal. unfold Rdiv. ring.
Qed.
(** The integral of a function that is at most 1 and vanishes outside of an interval. *)
Lemma bump_integral : forall f c s m, 0 < s -> (forall x, 0 < x < 1 -> f x <= 1) -> (forall x, 0 < x < 1 -> Rabs (x - c) >= s -> f x <= 0) -> is_RInt f 0 1 m -> m <= 2 * s.
Proof.
  intros f c s m Hs H1 H0 I. set (a := clip (c - s)). set (b := clip (c + s)). assert (Ha : 0 <= a <= 1) by apply clip_in. assert (Hb : 0 <= b <= 1) by apply clip_in.
  assert (Hab : a <= b) by (unfold a, b, clip, Rmax, Rmin; repeat destruct Rle_dec; lra).
  assert (Hlen : b - a <= 2 * s) by (pose proof (clip_lip (c + s) (c - s)) as X; fold a b in X; rewrite (Rabs_pos_eq (b - a)) in X by lra; rewrite Rabs_pos_eq in X by lra; lra).
  assert (J : is_RInt (fun x => if Rlt_dec x a then 0 else if Rlt_dec x b then 1 else 0) 0 1 (plus (plus (scal (a - 0) 0) (scal (b - a) 1)) (scal (1 - b) 0))).
  { apply (is_RInt_Chasles (V := R_NormedModule) _ 0 b 1); [apply (is_RInt_Chasles (V := R_NormedModule) _ 0 a b)|].
    - apply (is_RInt_ext (V := R_NormedModule) (fun _ => 0)); [|apply (is_RInt_const (V := R_NormedModule))]. intros x Hx. rewrite Rmin_left, Rmax_right in Hx by lra. destruct Rlt_dec; [reflexivity|lra].
    - apply (is_RInt_ext (V := R_NormedModule) (fun _ => 1)); [|apply (is_RInt_const (V := R_NormedModule))]. intros x Hx. rewrite Rmin_left, Rmax_right in Hx by lra. destruct Rlt_dec; [lra|]. destruct Rlt_dec; [reflexivity|lra].
    - apply (is_RInt_ext (V := R_NormedModule) (fun _ => 0)); [|apply (is_RInt_const (V := R_NormedModule))]. intros x Hx. rewrite Rmin_left, Rmax_right in Hx by lra. destruct Rlt_dec; [lra|]. destruct Rlt_dec; [lra|reflexivity]. }
  unfold plus, scal in J. simpl in J. unfold mult in J. simpl in J. 
  assert (X : m <= (a - 0) * 0 + (b - a) * 1 + (1 - b) * 0); [|lra].
  apply (is_RInt_le f (fun x => if Rlt_dec x a then 0 else if Rlt_dec x b then 1 else 0) 0 1); try lra; [exact I|exact J|]. intros x Hx.
  destruct (Rlt_dec x a) as [Xa|Xa].
  - apply H0; [exact Hx|]. unfold a, clip in Xa. assert (x < c - s) by (revert Xa; unfold Rmax, Rmin; repeat destruct Rle_dec; lra). rewrite Rabs_left by lra. lra.
  - destruct (Rlt_dec x b) as [Xb|Xb]; [now apply H1|]. apply H0; [exact Hx|]. unfold b, clip in Xb. assert (c + s <= x) by (revert Xb; unfold Rmax, Rmin; repeat destruct Rle_dec; lra). rewrite Rabs_pos_eq by lra. lra.
Qed.
(** A function that, for all values of the other variables, is such a bump in the variable [e]. *)
Lemma bump_mean : forall l e F u v s, NoDup l -> In e l -> 0 < s -> cont_on l F ->
  (forall w, open_cube l w -> F w <= 1) -> (forall w : idx -> R, exists c, forall x, open_cube l (at_index w e x) -> Rabs (x - c) >= s -> F (at_index w e x) <= 0) -> mean l F u v -> v <= 2 * s.
Proof.
  intros l e F u v s ND He Hs C H1 H0 M. destruct (in_split e l He) as [l1 [l2 E]]. set (r := l1 ++ l2).
  assert (P : Permutation l (r ++ [e])) by (subst l; unfold r; rewrite <- app_assoc; apply Permutation_app_head; apply Permutation_cons_append).
  apply (mean_perm l (r ++ [e]) P ND []) in M; [|now rewrite app_nil_r|apply cube_nil].
  assert (Nr : ~ In e r). { pose proof (Permutation_NoDup P ND) as X. apply NoDup_remove_2 in X. now rewrite app_nil_r in X. }
  assert (Er : forall w, inner r w -> 0 < w e < 1 -> open_cube l w).
  { intros w Hw Hx e' He'. apply (Permutation_in _ P) in He'. apply in_app_or in He'. destruct He' as [He'|[<-|[]]]; auto. }
  assert (G : forall k m w, (forall e', In e' r -> In e' k \/ 0 < w e' < 1) -> (forall e', In e' k -> In e' r) -> mean (k ++ [e]) F w m -> m <= 2 * s).
  { induction k as [|e' k IH]; intros m w Hk Hk' Hm.
    - cbn [app mean] in Hm. destruct Hm as [g [G1 G2]]. destruct (H0 w) as [c Hc].
      assert (Ow : forall x, 0 < x < 1 -> open_cube l (at_index w e x)).
      { intros x Hx. apply Er; [|now rewrite at_same]. intros e' He'. rewrite at_other by (intros ->; contradiction). destruct (Hk e' He') as [[]|X]; exact X. }
      apply (bump_integral g c s); [exact Hs| | |exact G2]; intros x Hx; rewrite <- (G1 x Hx); [now apply H1, Ow|intros Hd; now apply Hc; [apply Ow|]].
    - cbn [app mean] in Hm. destruct Hm as [g [G1 G2]].
      assert (X : m <= (1 - 0) * (2 * s)); [|lra]. pose proof (is_RInt_const (V := R_NormedModule) 0 1 (2 * s)) as K. unfold scal in K. simpl in K. unfold mult in K. simpl in K.
      apply (is_RInt_le g (fun _ => 2 * s) 0 1); try lra; [exact G2|exact K|]. intros x Hx. apply (IH (g x) (at_index w e' x)); [| |now apply G1].
      + intros e2 He2. destruct (eq_idx e2 e') as [->|Hne]; [right; now rewrite at_same|]. rewrite at_other by exact Hne. destruct (Hk e2 He2) as [[<-|X]|X]; [congruence|now left|now right].
      + intros e2 He2. apply Hk'. now right. }
  apply (G r v u); auto.
Qed.

Definition borders (l : list idx) (eps : R) (u : idx -> R) : R := rsum (fun e => border eps (u e)) l.
Lemma borders_cont : forall l m eps, incl m l -> cont_on l (borders m eps).
Proof.
  intros l m eps. unfold borders. induction m as [|e m IH]; intros H; cbn [rsum fold_right]; [apply cont_const|].
  apply (cont_plus l (fun u => border eps (u e)) (borders m eps)); [apply border_cont, H; now left|]. apply IH. intros x Hx. apply H. now right.
Qed.
Lemma borders_pos : forall m eps u, 0 <= borders m eps u.
Proof. intros m eps u. unfold borders. induction m as [|e m IH]; cbn [rsum fold_right]; [lra|]. pose proof (border_range eps (u e)). unfold rsum in IH. lra. Qed.
Lemma borders_one : forall m eps u e, 0 < eps -> In e m -> u e < eps \/ 1 - eps < u e -> 1 <= borders m eps u.
Proof.
  intros m eps u e He. induction m as [|x m IH]; intros Hin H; [destruct Hin|]. unfold borders. cbn [rsum fold_right]. fold (borders m eps u). destruct Hin as [->|Hin].
  - pose proof (border_one eps (u e) He H). pose proof (borders_pos m eps u). unfold borders, rsum in *. lra.
  - pose proof (border_range eps (u x)). specialize (IH Hin H). unfold borders, rsum in *. lra.
Qed.
Lemma borders_mean : forall l m eps u v, NoDup l -> incl m l -> 0 < eps -> mean l (borders m eps) u v -> v <= INR (length m) * (8 * eps).
Proof.
  intros l m eps u v ND. revert v. induction m as [|e m IH]; intros v Hi He M.
  - unfold borders in M. cbn [rsum fold_right] in M. simpl. rewrite (mean_unique _ _ _ _ _ M (mean_zero l u)). lra.
  - assert (He' : In e l) by (apply Hi; now left). assert (Hi' : incl m l) by (intros x Hx; apply Hi; now right).
    destruct (mean_ex l (borders m eps) (borders_cont l m eps Hi')) as [w W]. specialize (IH w Hi' He (W u)).
    assert (B : forall a b w, mean l (fun u => clip (a + b * u e)) u w -> b <> 0 -> (forall x, 0 < x < 1 -> Rabs (x + (a - 1) / b) >= 2 * eps -> clip (a + b * x) <= 0) -> w <= 4 * eps).
    { intros a b w' Mw Hb H0. replace (4 * eps) with (2 * (2 * eps)) by ring. apply (bump_mean l e (fun u => clip (a + b * u e)) u w' (2 * eps)); auto; try lra.
      - apply (cont_comp l (fun u => u e) (fun x => clip (a + b * x)) 0 1); [intros u' Hu; now apply Hu| |now apply cont_coord].
        intros x _. apply (continuity_pt_comp (fun x => a + b * x) clip); [|apply clip_cont]. apply continuity_pt_plus; [apply continuity_pt_const; intros p q; reflexivity|].
        apply continuity_pt_mult; [apply continuity_pt_const; intros p q; reflexivity|apply continuity_pt_id].
      - intros w0 _. apply clip_in.
      - intros w0. exists (- ((a - 1) / b)). intros x Hx Hd. rewrite at_same. apply H0; [specialize (Hx e He'); now rewrite at_same in Hx|]. now replace (x + (a - 1) / b) with (x - - ((a - 1) / b)) by ring. }
    assert (Low : forall y, 2 <= y / eps -> clip (2 - y / eps) <= 0) by (intros y Hy; unfold clip; rewrite Rmin_left by lra; rewrite Rmax_left by lra; lra).
    assert (C1 : cont_on l (fun u => clip (2 + (- / eps) * u e))).
    { apply (cont_comp l (fun u => u e) (fun x => clip (2 + (- / eps) * x)) 0 1); [intros u' Hu; now apply Hu| |now apply cont_coord].
      intros x _. apply (continuity_pt_comp (fun x => 2 + (- / eps) * x) clip); [|apply clip_cont]. apply continuity_pt_plus; [apply continuity_pt_const; intros p q; reflexivity|].
      apply continuity_pt_mult; [apply continuity_pt_const; intros p q; reflexivity|apply continuity_pt_id]. }
    assert (C2 : cont_on l (fun u => clip ((2 - / eps) + / eps * u e))).
    { apply (cont_comp l (fun u => u e) (fun x => clip ((2 - / eps) + / eps * x)) 0 1); [intros u' Hu; now apply Hu| |now apply cont_coord].
      intros x _. apply (continuity_pt_comp (fun x => (2 - / eps) + / eps * x) clip); [|apply clip_cont]. apply continuity_pt_plus; [apply continuity_pt_const; intros p q; reflexivity|].
      apply continuity_pt_mult; [apply continuity_pt_const; intros p q; reflexivity|apply continuity_pt_id]. }
    destruct (mean_ex l _ C1) as [w1 W1], (mean_ex l _ C2) as [w2 W2].
    assert (Pi : 0 < / eps) by now apply Rinv_0_lt_compat.
    assert (B1 : w1 <= 4 * eps).
    { apply (B 2 (- / eps) w1 (W1 u)); [lra|]. intros x Hx Hd. replace (2 + - / eps * x) with (2 - x / eps) by (unfold Rdiv; ring). apply Low.
      replace ((2 - 1) / - / eps) with (- eps) in Hd by (field; lra). apply (Rmult_le_reg_r eps); [exact He|]. unfold Rdiv. rewrite Rmult_assoc, Rinv_l by lra.
      revert Hd. unfold Rabs. destruct Rcase_abs; lra. }
    assert (B2 : w2 <= 4 * eps).
    { apply (B (2 - / eps) (/ eps) w2 (W2 u)); [lra|]. intros x Hx Hd. replace (2 - / eps + / eps * x) with (2 - (1 - x) / eps) by (unfold Rdiv; ring). apply Low.
      replace ((2 - / eps - 1) / / eps) with (eps - 1) in Hd by (field; lra). apply (Rmult_le_reg_r eps); [exact He|]. unfold Rdiv. rewrite Rmult_assoc, Rinv_l by lra.
      revert Hd. unfold Rabs. destruct Rcase_abs; lra. }
    assert (E : mean l (borders (e :: m) eps) u (w1 + w2 + w)).
    { apply (mean_ext l (fun u => clip (2 + (- / eps) * u e) + clip ((2 - / eps) + / eps * u e) + borders m eps u)).
      - intros u' _. unfold borders. cbn [rsum fold_right]. unfold border. f_equal. f_equal; f_equal; unfold Rdiv; ring.
      - apply mean_plus; [apply mean_plus|]; auto. }
    rewrite (mean_unique _ _ _ _ _ M E). cbn [length]. rewrite S_INR. lra.
Qed.
Theorem expect_open : forall l F B, NoDup l -> (forall u, open_cube l u -> Rabs (F u) <= B) -> (forall eps, 0 < eps < 1 / 2 -> cont_on l (fun u => F (squash eps u))) ->
  (forall u w, open_cube l u -> open_cube l w -> (forall e, In e l -> u e = w e) -> F u = F w) -> exists v, expect l F v.
Proof.
  intros l F B ND HB C D. apply expect_ex. intros d Hd. assert (PB : 0 < Rabs B + 1) by (pose proof (Rabs_pos B); lra).
  set (K := INR (length l) + 1). assert (PK : 0 < K) by (unfold K; pose proof (pos_INR (length l)); lra).
  set (eps := Rmin (1 / 4) (d / (32 * (Rabs B + 1) * K))). assert (P32 : 0 < 32 * (Rabs B + 1) * K) by (apply Rmult_lt_0_compat; lra).
  assert (Pe : 0 < eps) by (unfold eps; apply Rmin_glb_lt; [lra|now apply Rdiv_lt_0_compat]). assert (Pe' : eps < 1 / 2) by (unfold eps; pose proof (Rmin_l (1 / 4) (d / (32 * (Rabs B + 1) * K))); lra).
  assert (Pd : eps * (32 * (Rabs B + 1) * K) <= d).
  { apply Rle_trans with (d / (32 * (Rabs B + 1) * K) * (32 * (Rabs B + 1) * K)); [apply Rmult_le_compat_r; [lra|apply Rmin_r]|]. right. field. split; lra. }
  set (G := fun u => F (squash eps u)). set (M := 2 * (Rabs B + 1)).
  assert (HB' : forall u, open_cube l u -> Rabs (F u) <= Rabs B + 1) by (intros u Hu; specialize (HB u Hu); pose proof (Rle_abs B); lra).
  assert (HG : forall u, Rabs (G u) <= Rabs B + 1).
  { intros u. apply HB'. intros e _. unfold squash. pose proof (squash1_in eps (u e) ltac:(lra)). lra. }
  assert (Cb : cont_on l (borders l eps)) by (apply borders_cont, incl_refl).
  assert (CG : cont_on l G) by (apply C; lra).
  exists (fun u => G u - M * borders l eps u), (fun u => G u + M * borders l eps u).
  split; [apply cont_minus; [exact CG|now apply cont_scal]|]. split; [apply cont_plus; [exact CG|now apply cont_scal]|]. split.
  - intros u Hu. pose proof (borders_pos l eps u) as Bp. assert (PM : 0 < M) by (unfold M; lra). destruct (forallb (fun e => if Rle_dec eps (u e) then if Rle_dec (u e) (1 - eps) then true else false else false) l) eqn:Ef.
    + assert (E : G u = F u).
      { unfold G. apply D; auto; [intros e _; unfold squash; pose proof (squash1_in eps (u e) ltac:(lra)); lra|]. intros e He. rewrite forallb_forall in Ef. specialize (Ef e He).
        destruct (Rle_dec eps (u e)); [|discriminate]. destruct (Rle_dec (u e) (1 - eps)); [|discriminate]. unfold squash. apply squash1_id. lra. }
      rewrite E. assert (0 <= M * borders l eps u) by (apply Rmult_le_pos; lra). lra.
    + assert (X : exists e, In e l /\ (u e < eps \/ 1 - eps < u e)).
      { apply Bool.not_true_iff_false in Ef. apply Classical_Prop.NNPP. intros N. apply Ef. apply forallb_forall. intros e He. 
        destruct (Rle_dec eps (u e)); [destruct (Rle_dec (u e) (1 - eps)); [reflexivity|]|]; exfalso; apply N; exists e; split; auto; lra. }
      destruct X as [e [He Hx]]. pose proof (borders_one l eps u e Pe He Hx) as B1. specialize (HB' u Hu). specialize (HG u). apply Rabs_le_between in HB'. apply Rabs_le_between in HG.
      assert (M <= M * borders l eps u) by (rewrite <- (Rmult_1_r M) at 1; apply Rmult_le_compat_l; lra). unfold M in *. lra.
  - intros u0 a b Ma Mb. destruct (mean_ex l _ Cb) as [w W]. destruct (mean_ex l _ CG) as [g Wg]. pose proof (borders_mean l l eps u0 w ND (incl_refl l) Pe (W u0)) as Hw.
    assert (Ea : mean l (fun u => G u - M * borders l eps u) u0 (g + (- M) * w)).
    { apply (mean_ext l (fun u => G u + (- M) * borders l eps u)); [intros; ring|]. apply mean_plus; [apply Wg|]. apply (mean_scal l (- M)). apply W. }
    assert (Eb : mean l (fun u => G u + M * borders l eps u) u0 (g + M * w)) by (apply mean_plus; [apply Wg|]; apply (mean_scal l M); apply W).
    rewrite (mean_unique _ _ _ _ _ Ma Ea), (mean_unique _ _ _ _ _ Mb Eb).
    assert (M * w <= M * (INR (length l) * (8 * eps))) by (apply Rmult_le_compat_l; [unfold M; lra|exact Hw]).
    assert (2 * (M * (INR (length l) * (8 * eps))) <= d); [|lra]. apply Rle_trans with (eps * (32 * (Rabs B + 1) * K)); [|exact Pd]. unfold M, K.
    replace (2 * (2 * (Rabs B + 1) * (INR (length l) * (8 * eps)))) with (eps * (32 * (Rabs B + 1) * INR (length l))) by ring. apply Rmult_le_compat_l; [lra|]. apply Rmult_le_compat_l; lra.
Qed.

(** ** Derivatives *)
Theorem expect_derive : forall l (F : R -> (idx -> R) -> R) (D : (idx -> R) -> R) (v : R -> R) t0 d r, 0 < r ->
  (forall t, Rabs (t - t0) < r -> expect l (F t) (v t)) -> expect l D d ->
  (forall eps, 0 < eps -> exists q, 0 < q /\ forall h u, Rabs h < q -> open_cube l u -> Rabs (F (t0 + h) u - F t0 u - h * D u) <= eps * Rabs h) ->
  derivable_pt_lim v t0 d.
Proof.
  intros l F D v t0 d r Hr Hv Hd H eps He. destruct (H (eps / 2) ltac:(lra)) as [q [Hq Q]].
  assert (Pm : 0 < Rmin q r) by now apply Rmin_glb_lt. exists (mkposreal _ Pm). intros h Hh0 Hh. simpl in Hh.
  assert (H1 : Rabs h < q) by (pose proof (Rmin_l q r); lra). assert (H2 : Rabs h < r) by (pose proof (Rmin_r q r); lra).
  assert (E1 : expect l (F (t0 + h)) (v (t0 + h))) by (apply Hv; now replace (t0 + h - t0) with h by ring).
  assert (E0 : expect l (F t0) (v t0)) by (apply Hv; now rewrite Rminus_eq_0, Rabs_R0).
  assert (E : expect l (fun u => F (t0 + h) u - F t0 u - h * D u) (v (t0 + h) - v t0 - h * d)) by (apply expect_minus; [now apply expect_minus|now apply expect_scal]).
  assert (B1 : v (t0 + h) - v t0 - h * d <= eps / 2 * Rabs h).
  { apply (expect_le l _ (fun _ => eps / 2 * Rabs h) _ _) with (2 := E); [|apply expect_const]. intros u Hu. specialize (Q h u H1 Hu). apply Rabs_le_between in Q. lra. }
  assert (B2 : - (eps / 2 * Rabs h) <= v (t0 + h) - v t0 - h * d).
  { apply (expect_le l (fun _ => - (eps / 2 * Rabs h)) _ _ _) with (3 := E); [|apply expect_const]. intros u Hu. specialize (Q h u H1 Hu). apply Rabs_le_between in Q. lra. }
  assert (Ph : 0 < Rabs h) by now apply Rabs_pos_lt.
  replace ((v (t0 + h) - v t0) / h - d) with ((v (t0 + h) - v t0 - h * d) / h) by (field; exact Hh0). unfold Rdiv. rewrite Rabs_mult, Rabs_inv.
  apply Rle_lt_trans with (eps / 2 * Rabs h * / Rabs h).
  - apply Rmult_le_compat_r; [left; now apply Rinv_0_lt_compat|]. apply Rabs_le. lra.
  - rewrite Rmult_assoc, Rinv_r by lra. lra.
Qed.
