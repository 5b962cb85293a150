(** Facts about the expectations of SpecExpect.v. *)
From Coq Require Import List Arith Bool Lia Reals Lra Permutation FunctionalExtensionality.
From Coquelicot Require Import Coquelicot.
From Verif Require Import SpecArm SpecExpect ArmMean.
Import ListNotations.
Local Open Scope R_scope.

(** ** Continuous functions *)
Lemma cube_incl : forall l m u, incl l m -> cube m u -> cube l u.
Proof. intros l m u H C e He. apply C, H, He. Qed.
Lemma cont_incl : forall l m F, incl l m -> cont_on l F -> cont_on m F.
Proof.
  intros l m F H [[B HB] C]. split.
  - exists B. intros u Hu. apply HB. now apply (cube_incl l m).
  - intros eps He. destruct (C eps He) as [d [Hd D]]. exists d. split; [exact Hd|]. intros u w Hu Hw K. apply D; try (now apply (cube_incl l m)). intros e E. apply K, H, E.
Qed.
Lemma cont_ext : forall l F G, (forall u, cube l u -> F u = G u) -> cont_on l F -> cont_on l G.
Proof.
  intros l F G E [[B HB] C]. split.
  - exists B. intros u Hu. rewrite <- E by exact Hu. now apply HB.
  - intros eps He. destruct (C eps He) as [d [Hd D]]. exists d. split; [exact Hd|]. intros u w Hu Hw K. rewrite <- !E by assumption. now apply D.
Qed.
Lemma cont_same : forall l F u w, cont_on l F -> cube l u -> cube l w -> (forall e, In e l -> u e = w e) -> F u = F w.
Proof.
  intros l F u w [_ C] Hu Hw E. destruct (Req_dec (F u) (F w)) as [H|H]; [exact H|]. exfalso.
  assert (P : 0 < Rabs (F u - F w)) by (apply Rabs_pos_lt; lra). destruct (C _ P) as [d [Hd D]].
  specialize (D u w Hu Hw). assert (Rabs (F u - F w) < Rabs (F u - F w)); [|lra]. apply D. intros e He. rewrite E by exact He. rewrite Rminus_eq_0, Rabs_R0. exact Hd.
Qed.
Lemma cont_const : forall l c, cont_on l (fun _ => c).
Proof.
  intros l c. split; [exists (Rabs c); intros; lra|]. intros eps He. exists 1. split; [lra|]. intros. rewrite Rminus_eq_0, Rabs_R0. exact He.
Qed.
Lemma cont_coord : forall l e, In e l -> cont_on l (fun u => u e).
Proof.
  intros l e He. split.
  - exists 1. intros u Hu. specialize (Hu e He). rewrite Rabs_pos_eq; lra.
  - intros eps Hp. exists eps. split; [exact Hp|]. intros u w _ _ H. now apply H.
Qed.
Lemma cont_plus : forall l F G, cont_on l F -> cont_on l G -> cont_on l (fun u => F u + G u).
Proof.
  intros l F G [[B HB] C] [[B' HB'] C']. split.
  - exists (B + B'). intros u Hu. specialize (HB u Hu). specialize (HB' u Hu). pose proof (Rabs_triang (F u) (G u)). lra.
  - intros eps He. destruct (C (eps / 2) ltac:(lra)) as [d [Hd D]], (C' (eps / 2) ltac:(lra)) as [d' [Hd' D']]. exists (Rmin d d'). split; [now apply Rmin_glb_lt|].
    intros u w Hu Hw K. specialize (D u w Hu Hw). specialize (D' u w Hu Hw).
    assert (K1 : Rabs (F u - F w) < eps / 2) by (apply D; intros e E; specialize (K e E); pose proof (Rmin_l d d'); lra).
    assert (K2 : Rabs (G u - G w) < eps / 2) by (apply D'; intros e E; specialize (K e E); pose proof (Rmin_r d d'); lra).
    replace (F u + G u - (F w + G w)) with ((F u - F w) + (G u - G w)) by ring. pose proof (Rabs_triang (F u - F w) (G u - G w)). lra.
Qed.
Lemma cont_mult : forall l F G, cont_on l F -> cont_on l G -> cont_on l (fun u => F u * G u).
Proof.
  intros l F G [[B HB] C] [[B' HB'] C'].
  assert (HB1 : forall u, cube l u -> Rabs (F u) <= Rabs B + 1) by (intros u Hu; specialize (HB u Hu); pose proof (Rle_abs B); lra).
  assert (HB1' : forall u, cube l u -> Rabs (G u) <= Rabs B' + 1) by (intros u Hu; specialize (HB' u Hu); pose proof (Rle_abs B'); lra).
  assert (PA : 0 < Rabs B + 1) by (pose proof (Rabs_pos B); lra). assert (PA' : 0 < Rabs B' + 1) by (pose proof (Rabs_pos B'); lra).
  set (M := Rabs B + 1) in *. set (M' := Rabs B' + 1) in *. split.
  - exists (M * M'). intros u Hu. rewrite Rabs_mult. apply Rmult_le_compat; try apply Rabs_pos; auto.
  - intros eps He. assert (P1 : 0 < eps / (2 * M')) by (apply Rdiv_lt_0_compat; lra). assert (P2 : 0 < eps / (2 * M)) by (apply Rdiv_lt_0_compat; lra).
    destruct (C _ P1) as [d [Hd D]], (C' _ P2) as [d' [Hd' D']]. exists (Rmin d d'). split; [now apply Rmin_glb_lt|]. intros u w Hu Hw K.
    assert (K1 : Rabs (F u - F w) < eps / (2 * M')) by (apply D; auto; intros e E; specialize (K e E); pose proof (Rmin_l d d'); lra).
    assert (K2 : Rabs (G u - G w) < eps / (2 * M)) by (apply D'; auto; intros e E; specialize (K e E); pose proof (Rmin_r d d'); lra).
    replace (F u * G u - F w * G w) with ((F u - F w) * G u + F w * (G u - G w)) by ring. eapply Rle_lt_trans; [apply Rabs_triang|]. rewrite !Rabs_mult.
    assert (X1 : Rabs (F u - F w) * Rabs (G u) <= eps / (2 * M') * M') by (apply Rmult_le_compat; try apply Rabs_pos; auto; lra).
    assert (X2 : Rabs (F w) * Rabs (G u - G w) < eps / 2).
    { apply Rle_lt_trans with (M * Rabs (G u - G w)); [apply Rmult_le_compat_r; [apply Rabs_pos|auto]|]. apply Rlt_le_trans with (M * (eps / (2 * M))); [apply Rmult_lt_compat_l; lra|]. right. field. lra. }
    replace (eps / (2 * M') * M') with (eps / 2) in X1 by (field; lra). lra.
Qed.
Lemma cont_scal : forall l k F, cont_on l F -> cont_on l (fun u => k * F u).
Proof. intros l k F H. apply (cont_mult l (fun _ => k)); [apply cont_const|exact H]. Qed.
Lemma cont_minus : forall l F G, cont_on l F -> cont_on l G -> cont_on l (fun u => F u - G u).
Proof. intros l F G H1 H2. apply (cont_ext l (fun u => F u + (-1) * G u)); [intros; ring|]. apply cont_plus; [exact H1|now apply cont_scal]. Qed.
Lemma cont_comp : forall l F (phi : R -> R) a b, (forall u, cube l u -> a <= F u <= b) -> (forall x, a <= x <= b -> continuity_pt phi x) -> cont_on l F -> cont_on l (fun u => phi (F u)).
Proof.
  intros l F phi a b Hr Hc [HB C]. assert (Hab : a <= b). { assert (Z : cube l (fun _ => 0)) by (intros e _; lra). specialize (Hr _ Z). lra. }
  split.
  - destruct (continuity_ab_maj (fun x => Rabs (phi x)) a b Hab) as [M [HM _]].
    { intros x Hx. apply (continuity_pt_comp phi Rabs); [now apply Hc|apply Rcontinuity_abs]. }
    exists (Rabs (phi M)). intros u Hu. apply HM. now apply Hr.
  - intros eps He. destruct (Heine phi (fun x => a <= x <= b) (compact_P3 a b) Hc (mkposreal eps He)) as [d D]. destruct (C d (cond_pos d)) as [d' [Hd' D']].
    exists d'. split; [exact Hd'|]. intros u w Hu Hw K. simpl in D. apply D; auto.
Qed.

(** ** Iterated integrals of continuous functions *)
Definition clip (x : R) : R := Rmax 0 (Rmin x 1).
Lemma clip_in : forall x, 0 <= clip x <= 1.
Proof. intros x. unfold clip. split; [apply Rmax_l|]. apply Rmax_lub; [lra|apply Rmin_r]. Qed.
Lemma clip_id : forall x, 0 <= x <= 1 -> clip x = x.
Proof. intros x H. unfold clip. rewrite Rmin_left by lra. apply Rmax_right. lra. Qed.
Lemma clip_lip : forall x y, Rabs (clip x - clip y) <= Rabs (x - y).
Proof. intros x y. unfold clip, Rmax, Rmin. repeat destruct Rle_dec; unfold Rabs; repeat destruct Rcase_abs; lra. Qed.
Definition unif (f : R -> R) : Prop :=
  forall eps, 0 < eps -> exists d, 0 < d /\ forall x y, 0 <= x <= 1 -> 0 <= y <= 1 -> Rabs (x - y) < d -> Rabs (f x - f y) < eps.
Lemma unif_RInt : forall f a b, unif f -> 0 <= a -> a <= b -> b <= 1 -> ex_RInt f a b.
Proof.
  intros f a b H Ha Hab Hb. apply (ex_RInt_ext (V := R_NormedModule) (fun x => f (clip x))).
  - intros x Hx. rewrite Rmin_left, Rmax_right in Hx by lra. now rewrite clip_id by lra.
  - apply (ex_RInt_continuous (V := R_CompleteNormedModule)). intros z _. apply continuity_pt_filterlim. intros e He. destruct (H e He) as [d [Hd D]].
    exists d. split; [exact Hd|]. intros y [_ Hy]. unfold dist in *. simpl in *. unfold R_dist in *. apply D; try apply clip_in. pose proof (clip_lip y z). lra.
Qed.
Lemma slice_unif : forall l e F u, cont_on (e :: l) F -> cube l u -> unif (fun x => F (at_index u e x)).
Proof.
  intros l e F u [_ C] Hu eps He. destruct (C eps He) as [d [Hd D]]. exists d. split; [exact Hd|]. intros x y Hx Hy K.
  assert (Q : forall x, 0 <= x <= 1 -> cube (e :: l) (at_index u e x)).
  { intros z Hz e' [<-|He']; [rewrite at_same; exact Hz|]. unfold at_index. destruct (eq_idx e' e); auto. }
  apply D; auto. intros e' _. unfold at_index. destruct (eq_idx e' e); [exact K|]. rewrite Rminus_eq_0, Rabs_R0. exact Hd.
Qed.
Lemma cube_at : forall l e u x, cube l u -> 0 <= x <= 1 -> cube (e :: l) (at_index u e x).
Proof. intros l e u x Hu Hx e' [<-|He']; [rewrite at_same; exact Hx|]. unfold at_index. destruct (eq_idx e' e); auto. Qed.
Lemma integral_cont : forall e l F, cont_on (e :: l) F -> cont_on l (fun u => RInt (fun x => F (at_index u e x)) 0 1).
Proof.
  intros e l F H. pose proof H as [[B HB] C]. assert (I : forall u, cube l u -> ex_RInt (fun x => F (at_index u e x)) 0 1).
  { intros u Hu. apply unif_RInt; try lra. now apply (slice_unif l). }
  split.
  - exists ((1 - 0) * B). intros u Hu. apply abs_RInt_le_const; [lra|now apply I|]. intros t Ht. apply HB. now apply cube_at.
  - intros eps He. destruct (C (eps / 2) ltac:(lra)) as [d [Hd D]]. exists d. split; [exact Hd|]. intros u w Hu Hw K.
    assert (E : RInt (fun x => F (at_index u e x)) 0 1 - RInt (fun x => F (at_index w e x)) 0 1 = RInt (fun x => F (at_index u e x) - F (at_index w e x)) 0 1).
    { symmetry. apply (RInt_minus (V := R_CompleteNormedModule)); now apply I. }
    rewrite E. apply Rle_lt_trans with ((1 - 0) * (eps / 2)); [|lra]. apply abs_RInt_le_const; [lra| |].
    + apply (ex_RInt_minus (V := R_NormedModule)); now apply I.
    + intros t Ht. left. apply D; try (now apply cube_at). intros e' [<-|He']; unfold at_index.
      * destruct (eq_idx e e); [|congruence]. rewrite Rminus_eq_0, Rabs_R0. exact Hd.
      * destruct (eq_idx e' e); [|now apply K]. rewrite Rminus_eq_0, Rabs_R0. exact Hd.
Qed.
Lemma mean_cont : forall l m F, cont_on (l ++ m) F -> exists J, cont_on m J /\ forall u, cube m u -> mean l F u (J u).
Proof.
  induction l as [|e l IH]; intros m F H; [exists F; split; [exact H|reflexivity]|].
  destruct (IH (e :: m) F) as [J [J1 J2]].
  { apply (cont_incl ((e :: l) ++ m)); [|exact H]. intros x [<-|Hx]; [apply in_or_app; right; now left|]. apply in_app_or in Hx. apply in_or_app. destruct Hx; [now left|right; now right]. }
  exists (fun u => RInt (fun x => J (at_index u e x)) 0 1). split; [now apply integral_cont|].
  intros u Hu. cbn [mean]. exists (fun x => J (at_index u e x)). split.
  - intros x Hx. apply J2. apply cube_at; [exact Hu|lra].
  - apply (RInt_correct (V := R_CompleteNormedModule)). apply unif_RInt; try lra. now apply (slice_unif m).
Qed.
Lemma cube_nil : forall u, cube [] u. Proof. intros u e []. Qed.
Lemma mean_ex : forall l F, cont_on l F -> exists v, forall u, mean l F u v.
Proof.
  intros l F H. rewrite <- (app_nil_r l) in H. destruct (mean_cont l [] F H) as [J [J1 J2]]. exists (J (fun _ => 0)). intros u.
  replace (J (fun _ => 0)) with (J u); [apply J2, cube_nil|]. apply (cont_same []); try apply cube_nil; [exact J1|]. intros e [].
Qed.
Lemma mean_le : forall l F G u a b, (forall w, (forall e, ~ In e l -> w e = u e) -> inner l w -> F w <= G w) -> mean l F u a -> mean l G u b -> a <= b.
Proof.
  induction l as [|e l IH]; intros F G u a b H Ha Hb; cbn [mean] in *.
  - subst. apply H; auto. intros e [].
  - destruct Ha as [g [G1 G2]], Hb as [h [H1 H2]]. apply (is_RInt_le g h 0 1 a b); try lra; [exact G2|exact H2|].
    intros x Hx. apply (IH F G (at_index u e x)); auto. intros w A B. apply H.
    + intros e' Ne. rewrite A by (intro; apply Ne; now right). apply at_other. intros ->. apply Ne. now left.
    + intros e' [<-|He]; [|now apply B]. destruct (in_dec eq_idx e l) as [Hl|Hl]; [now apply B|]. rewrite A by exact Hl. rewrite at_same. exact Hx.
Qed.

(** ** Fubini *)
Fixpoint grid (n k : nat) (g : R -> R) : R := match k with O => 0 | S k => grid n k g + / INR n * g (INR k / INR n) end.
Lemma grid_close : forall n g eps k, (1 <= n)%nat -> (k <= n)%nat -> unif g -> (forall x y, 0 <= x <= 1 -> 0 <= y <= 1 -> Rabs (x - y) <= / INR n -> Rabs (g x - g y) <= eps) ->
  Rabs (RInt g 0 (INR k / INR n) - grid n k g) <= eps * (INR k / INR n).
Proof.
  intros n g eps k Hn Hk Hu H. assert (Pn : 0 < INR n) by (apply lt_0_INR; lia). induction k as [|k IH].
  - simpl. unfold Rdiv. rewrite Rmult_0_l. rewrite (RInt_point (V := R_CompleteNormedModule)). unfold zero. simpl. rewrite Rminus_0_r, Rabs_R0. lra.
  - specialize (IH ltac:(lia)). cbn [grid]. set (a := INR k / INR n) in *. assert (Eb : INR (S k) / INR n = a + / INR n) by (rewrite S_INR; unfold a; field; lra). rewrite Eb.
    assert (Pi : 0 < / INR n) by now apply Rinv_0_lt_compat. assert (Ha : 0 <= a) by (unfold a; apply Rmult_le_pos; [apply pos_INR|lra]).
    assert (Hb : a + / INR n <= 1). { rewrite <- Eb. apply (Rmult_le_reg_r (INR n)); [exact Pn|]. unfold Rdiv. rewrite Rmult_assoc, Rinv_l, Rmult_1_r, Rmult_1_l by lra. now apply le_INR. }
    rewrite <- (RInt_Chasles (V := R_CompleteNormedModule) g 0 a (a + / INR n)) by (apply unif_RInt; auto; lra). unfold plus. simpl.
    assert (X : Rabs (RInt g a (a + / INR n) - / INR n * g a) <= / INR n * eps).
    { assert (E : / INR n * g a = RInt (fun _ => g a) a (a + / INR n)) by (rewrite (RInt_const (V := R_CompleteNormedModule)); unfold scal; simpl; unfold mult; simpl; ring).
      rewrite E. rewrite <- (RInt_minus (V := R_CompleteNormedModule)); [|apply unif_RInt; auto; lra|apply (ex_RInt_const (V := R_NormedModule))].
      replace (/ INR n * eps) with ((a + / INR n - a) * eps) by ring. apply abs_RInt_le_const; [lra| |].
      - apply (ex_RInt_minus (V := R_NormedModule)); [apply unif_RInt; auto; lra|apply (ex_RInt_const (V := R_NormedModule))].
      - intros t Ht. unfold minus, plus, opp. simpl. apply H; try lra. rewrite Rabs_pos_eq; lra. }
    replace (RInt g 0 a + RInt g a (a + / INR n) - (grid n k g + / INR n * g a)) with ((RInt g 0 a - grid n k g) + (RInt g a (a + / INR n) - / INR n * g a)) by ring.
    eapply Rle_trans; [apply Rabs_triang|]. lra.
Qed.
Lemma grid_one : forall n g eps, (1 <= n)%nat -> unif g -> (forall x y, 0 <= x <= 1 -> 0 <= y <= 1 -> Rabs (x - y) <= / INR n -> Rabs (g x - g y) <= eps) ->
  Rabs (RInt g 0 1 - grid n n g) <= eps.
Proof.
  intros n g eps Hn Hu H. pose proof (grid_close n g eps n Hn (le_n n) Hu H) as X. assert (Pn : 0 < INR n) by (apply lt_0_INR; lia).
  replace (INR n / INR n) with 1 in X by (field; lra). lra.
Qed.
Lemma grid_abs : forall n k g h eps, (1 <= n)%nat -> (forall i, (i < k)%nat -> Rabs (g (INR i / INR n) - h (INR i / INR n)) <= eps) -> Rabs (grid n k g - grid n k h) <= INR k / INR n * eps.
Proof.
  intros n k g h eps Hn. assert (Pn : 0 < INR n) by (apply lt_0_INR; lia). assert (Pi : 0 < / INR n) by now apply Rinv_0_lt_compat. induction k as [|k IH]; intros H; cbn [grid].
  - simpl. rewrite Rminus_eq_0, Rabs_R0. unfold Rdiv. lra.
  - specialize (IH (fun i Hi => H i ltac:(lia))). specialize (H k ltac:(lia)).
    replace (grid n k g + / INR n * g (INR k / INR n) - (grid n k h + / INR n * h (INR k / INR n))) with ((grid n k g - grid n k h) + / INR n * (g (INR k / INR n) - h (INR k / INR n))) by ring.
    eapply Rle_trans; [apply Rabs_triang|]. rewrite Rabs_mult, (Rabs_pos_eq (/ INR n)) by lra. rewrite S_INR. unfold Rdiv in *. assert (/ INR n * Rabs (g (INR k * / INR n) - h (INR k * / INR n)) <= / INR n * eps) by (apply Rmult_le_compat_l; lra).
    lra.
Qed.
Lemma grid_scal : forall n k c g, grid n k (fun x => c * g x) = c * grid n k g.
Proof. intros n k c g. induction k as [|k IH]; cbn [grid]; [ring|]. rewrite IH. ring. Qed.
Lemma grid_plus : forall n k g h, grid n k (fun x => g x + h x) = grid n k g + grid n k h.
Proof. intros n k g h. induction k as [|k IH]; cbn [grid]; [ring|]. rewrite IH. ring. Qed.
Lemma grid_zero : forall n k, grid n k (fun _ => 0) = 0.
Proof. intros n k. induction k as [|k IH]; cbn [grid]; [ring|]. rewrite IH. ring. Qed.
Lemma grid_swap : forall n k m (f : R -> R -> R), grid n k (fun x => grid n m (fun y => f x y)) = grid n m (fun y => grid n k (fun x => f x y)).
Proof.
  intros n k m f. induction k as [|k IH]; cbn [grid]; [now rewrite grid_zero|]. rewrite grid_plus, <- IH. f_equal. now rewrite <- grid_scal.
Qed.
Definition unif2 (f : R -> R -> R) : Prop :=
  forall eps, 0 < eps -> exists d, 0 < d /\ forall x y x' y', 0 <= x <= 1 -> 0 <= y <= 1 -> 0 <= x' <= 1 -> 0 <= y' <= 1 -> Rabs (x - x') < d -> Rabs (y - y') < d -> Rabs (f x y - f x' y') < eps.
Lemma unif2_in : forall f x, unif2 f -> 0 <= x <= 1 -> unif (f x).
Proof.
  intros f x H Hx eps He. destruct (H eps He) as [d [Hd D]]. exists d. split; [exact Hd|]. intros y y' Hy Hy' K. apply D; auto. rewrite Rminus_eq_0, Rabs_R0. exact Hd.
Qed.
Lemma unif2_swap : forall f, unif2 f -> unif2 (fun y x => f x y).
Proof. intros f H eps He. destruct (H eps He) as [d [Hd D]]. exists d. split; [exact Hd|]. intros. apply D; auto. Qed.
Lemma RInt_close : forall f g eps, unif f -> unif g -> (forall x, 0 <= x <= 1 -> Rabs (f x - g x) <= eps) -> Rabs (RInt f 0 1 - RInt g 0 1) <= eps.
Proof.
  intros f g eps Hf Hg H. rewrite <- (RInt_minus (V := R_CompleteNormedModule)) by (apply unif_RInt; auto; lra).
  replace eps with ((1 - 0) * eps) by ring. apply abs_RInt_le_const; [lra| |exact H]. apply (ex_RInt_minus (V := R_NormedModule)); apply unif_RInt; auto; lra.
Qed.
Lemma unif2_out : forall f, unif2 f -> unif (fun x => RInt (fun y => f x y) 0 1).
Proof.
  intros f H eps He. destruct (H (eps / 2) ltac:(lra)) as [d [Hd D]]. exists d. split; [exact Hd|]. intros x y Hx Hy K.
  apply Rle_lt_trans with (eps / 2); [|lra]. apply RInt_close; try (now apply unif2_in). intros z Hz. left. apply D; auto. rewrite Rminus_eq_0, Rabs_R0. exact Hd.
Qed.
Lemma grid_double : forall f eps d n, unif2 f -> (1 <= n)%nat -> / INR n < d -> 0 < eps ->
  (forall x y x' y', 0 <= x <= 1 -> 0 <= y <= 1 -> 0 <= x' <= 1 -> 0 <= y' <= 1 -> Rabs (x - x') < d -> Rabs (y - y') < d -> Rabs (f x y - f x' y') < eps) ->
  Rabs (RInt (fun x => RInt (fun y => f x y) 0 1) 0 1 - grid n n (fun x => grid n n (fun y => f x y))) <= 2 * eps.
Proof.
  intros f eps d n H Hn Hd He D. assert (Pn : 0 < INR n) by (apply lt_0_INR; lia). assert (Pi : 0 < / INR n) by now apply Rinv_0_lt_compat.
  assert (X1 : Rabs (RInt (fun x => RInt (fun y => f x y) 0 1) 0 1 - grid n n (fun x => RInt (fun y => f x y) 0 1)) <= eps).
  { apply grid_one; [exact Hn|now apply unif2_out|]. intros x y Hx Hy K. apply RInt_close; try (now apply unif2_in). intros z Hz. left. apply D; auto; [lra|]. rewrite Rminus_eq_0, Rabs_R0. lra. }
  assert (X2 : Rabs (grid n n (fun x => RInt (fun y => f x y) 0 1) - grid n n (fun x => grid n n (fun y => f x y))) <= INR n / INR n * eps).
  { apply grid_abs; [exact Hn|]. intros i Hi. assert (Hx : 0 <= INR i / INR n <= 1).
    { split; [apply Rmult_le_pos; [apply pos_INR|lra]|]. apply (Rmult_le_reg_r (INR n)); [exact Pn|]. unfold Rdiv. rewrite Rmult_assoc, Rinv_l, Rmult_1_r, Rmult_1_l by lra. apply le_INR. lia. }
    apply (grid_one n (f (INR i / INR n)) eps); [exact Hn|now apply unif2_in|]. intros y y' Hy Hy' K. left. apply D; auto; [rewrite Rminus_eq_0, Rabs_R0; lra|lra]. }
  replace (INR n / INR n * eps) with eps in X2 by (field; lra).
  match goal with |- Rabs (?a - ?c) <= _ => match type of X1 with Rabs (_ - ?b) <= _ => replace (a - c) with ((a - b) + (b - c)) by ring end end.
  eapply Rle_trans; [apply Rabs_triang|]. lra.
Qed.
Lemma fubini : forall f, unif2 f -> RInt (fun x => RInt (fun y => f x y) 0 1) 0 1 = RInt (fun y => RInt (fun x => f x y) 0 1) 0 1.
Proof.
  intros f H. set (A := RInt _ 0 1). set (B := RInt _ 0 1). destruct (Req_dec A B) as [E|E]; [exact E|]. exfalso.
  set (eps := Rabs (A - B) / 8). assert (Pe : 0 < eps) by (unfold eps; assert (0 < Rabs (A - B)) by (apply Rabs_pos_lt; lra); lra).
  destruct (H eps Pe) as [d [Hd D]]. destruct (archimed_cor1 d Hd) as [n [N1 N2]].
  pose proof (grid_double f eps d n H ltac:(lia) N1 Pe D) as X1. pose proof (grid_double (fun y x => f x y) eps d n (unif2_swap f H) ltac:(lia) N1 Pe (fun x y x' y' a b c e k k' => D y x y' x' b a e c k' k)) as X2.
  cbv beta in X2. rewrite <- (grid_swap n n n f) in X2. fold A in X1. fold B in X2.
  assert (Rabs (A - B) <= 4 * eps); [|unfold eps in *; lra].
  match type of X1 with Rabs (_ - ?c) <= _ => replace (A - B) with ((A - c) + - (B - c)) by ring end. eapply Rle_trans; [apply Rabs_triang|]. rewrite Rabs_Ropp. lra.
Qed.
Lemma at_swap : forall (u : idx -> R) a b x y, a <> b -> at_index (at_index u a x) b y = at_index (at_index u b y) a x.
Proof. intros u a b x y H. apply functional_extensionality. intros e. unfold at_index. destruct (eq_idx e b), (eq_idx e a); congruence. Qed.
Lemma mean_swap : forall a b l m F u v, a <> b -> cont_on (a :: b :: l ++ m) F -> cube m u -> mean (a :: b :: l) F u v -> mean (b :: a :: l) F u v.
Proof.
  intros a b l m F u v Hne H Hu Hm. destruct (mean_cont l (a :: b :: m) F) as [J [J1 J2]].
  { apply (cont_incl (a :: b :: l ++ m)); [|exact H]. intros x [<-|[<-|Hx]]; apply in_or_app; [right; now left|right; right; now left|]. apply in_app_or in Hx. destruct Hx; [now left|right; right; now right]. }
  set (f := fun x y => J (at_index (at_index u a x) b y)).
  assert (C2 : forall x y, 0 <= x <= 1 -> 0 <= y <= 1 -> cube (a :: b :: m) (at_index (at_index u a x) b y)).
  { intros x y Hx Hy e He. assert (X : cube (b :: a :: m) (at_index (at_index u a x) b y)) by (apply cube_at; [apply cube_at; auto|auto]). apply X. destruct He as [<-|[<-|He]]; [right; now left|now left|right; now right]. }
  assert (Uf : unif2 f).
  { destruct J1 as [_ C]. intros eps He. destruct (C eps He) as [d [Hd D]]. exists d. split; [exact Hd|]. intros x y x' y' Hx Hy Hx' Hy' K K'. unfold f. apply D; auto.
    intros e _. unfold at_index. destruct (eq_idx e b); [exact K'|]. destruct (eq_idx e a); [exact K|]. rewrite Rminus_eq_0, Rabs_R0. exact Hd. }
  assert (M1 : mean (a :: b :: l) F u (RInt (fun x => RInt (fun y => f x y) 0 1) 0 1)).
  { cbn [mean]. exists (fun x => RInt (fun y => f x y) 0 1). split.
    - intros x Hx. exists (f x). split; [intros y Hy; apply J2, C2; lra|]. apply (RInt_correct (V := R_CompleteNormedModule)), unif_RInt; try lra. apply unif2_in; [exact Uf|lra].
    - apply (RInt_correct (V := R_CompleteNormedModule)), unif_RInt; try lra. now apply unif2_out. }
  rewrite (mean_unique _ _ _ _ _ Hm M1), fubini by exact Uf. cbn [mean]. exists (fun y => RInt (fun x => f x y) 0 1). split.
  - intros y Hy. exists (fun x => f x y). split; [intros x Hx; unfold f; rewrite <- at_swap by exact Hne; apply J2, C2; lra|].
    apply (RInt_correct (V := R_CompleteNormedModule)), unif_RInt; try lra. apply (unif2_in (fun y x => f x y)); [now apply unif2_swap|lra].
  - apply (RInt_correct (V := R_CompleteNormedModule)), unif_RInt; try lra. apply (unif2_out (fun y x => f x y)). now apply unif2_swap.
Qed.
Lemma mean_perm : forall l l', Permutation l l' -> NoDup l -> forall m F u v, cont_on (l ++ m) F -> cube m u -> mean l F u v -> mean l' F u v.
Proof.
  intros l l' P. induction P as [|e l l' P IH|a b l|l1 l2 l3 P1 IH1 P2 IH2]; intros ND m F u v H Hu Hm.
  - exact Hm.
  - inversion ND; subst. cbn [mean] in *. destruct Hm as [g [G1 G2]]. exists g. split; [|exact G2]. intros x Hx. apply (IH ltac:(assumption) (e :: m)); auto.
    + apply (cont_incl ((e :: l) ++ m)); [|exact H]. intros y [<-|Hy]; [apply in_or_app; right; now left|]. apply in_app_or in Hy. apply in_or_app. destruct Hy; [now left|right; now right].
    + apply cube_at; [exact Hu|lra].
  - apply (mean_swap b a l m); auto. inversion ND as [|? ? N1 N2]; subst. intros ->. apply N1. now left.
  - apply (IH2 (Permutation_NoDup P1 ND) m); auto.
    + apply (cont_incl (l1 ++ m)); [|exact H]. intros e He. apply in_app_or in He. apply in_or_app. destruct He as [He|He]; [left; now apply (Permutation_in _ P1)|now right].
    + now apply (IH1 ND m).
Qed.
