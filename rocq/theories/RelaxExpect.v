(** Expectations of functions of relaxed and of resampled values, and their derivatives. *)
From Coq Require Import List Arith Bool Lia Reals Lra.
From Coquelicot Require Import Coquelicot.
From Verif Require Import SpecArm SpecExpect SpecRelax ArmMean RelaxedLaw Expect Expect2 RelaxSubst RelaxRows RelaxDiff.
Import ListNotations.
Local Open Scope R_scope.

(** The expectation as a number. *)
Definition ev (l : list idx) (F : (idx -> R) -> R) : R :=
  real (Lub_Rbar (fun x => exists L, cont_on l L /\ (forall u, open_cube l u -> L u <= F u) /\ mean l L (fun _ => 0) x)).
Lemma expect_ev : forall l F v, expect l F v -> ev l F = v.
Proof.
  intros l F v H. unfold ev. rewrite (is_lub_Rbar_unique _ (Finite v)); [reflexivity|]. split.
  - intros x [L [CL [HL ML]]]. simpl. apply (expect_le l L F); auto. now apply (expect_cont l L (fun _ => 0)).
  - intros b Hb. assert (Q : forall d, 0 < d -> Rbar_le (v - d) b).
    { intros d Hd. destruct (H d Hd) as [L [U [CL [_ [HLU HM]]]]]. destruct (HM (fun _ => 0)) as [x [y [Mx [_ [Hx _]]]]]. apply Rbar_le_trans with (Finite x); [simpl; lra|]. apply Hb. exists L. split; [exact CL|]. split; [intros u Hu; now apply HLU|exact Mx]. }
    destruct b as [b| |]; [|exact I|exact (Q 1 Rlt_0_1)]. simpl in *. apply small_le. intros d Hd. specialize (Q d Hd). lra.
Qed.

(** ** Continuity *)
Lemma cont_div : forall l F G a, 0 < a -> cont_on l F -> cont_on l G -> (forall u, cube l u -> a <= G u) -> cont_on l (fun u => F u / G u).
Proof.
  intros l F G a Ha CF CG HG. unfold Rdiv. apply cont_mult; [exact CF|]. pose proof CG as [[B HB] _].
  apply (cont_comp l G (fun x => / x) a B); [intros u Hu; split; [now apply HG|]; specialize (HB u Hu); apply Rabs_le_between in HB; lra| |exact CG].
  intros x Hx. apply continuity_pt_inv; [apply continuity_pt_id|lra].
Qed.
Lemma cont_sum : forall {A} l (xs : list A) (f : A -> (idx -> R) -> R), (forall x, In x xs -> cont_on l (f x)) -> cont_on l (fun u => rsum (fun x => f x u) xs).
Proof.
  intros A l xs f. induction xs as [|x xs IH]; intros H; [exact (cont_const l 0)|]. apply (cont_plus l (f x) (fun u => rsum (fun x => f x u) xs)); [apply H; now left|]. apply IH. intros; apply H; now right.
Qed.
Lemma norm_cont : forall K l rows (W : (idx -> R) -> idx -> R) a e, 0 < a -> (forall e, In e (noise K rows) -> cont_on l (fun u => W u e)) -> (forall e u, In e (noise K rows) -> cube l u -> a <= W u e) ->
  In e (noise K rows) -> cont_on l (fun u => norm K (W u) e).
Proof.
  intros K l rows W a e Ha CW HW He. apply in_noise in He. destruct He as [r [j [Hr [-> Hj]]]]. unfold norm. rewrite row_key. assert (IN : forall k, (k < K)%nat -> In (key r k) (noise K rows)) by (intros k Hk; apply in_noise; exists r, k; auto).
  apply (cont_div l _ _ a Ha); [now apply CW, IN| |].
  - unfold rowsum. apply (cont_sum l (seq 0 K) (fun k u => W u (key r k))). intros k Hk. apply in_seq in Hk. apply CW, IN. lia.
  - intros u Hu. apply Rle_trans with (W u (key r j)); [now apply HW; [apply IN|]|]. apply (rsum_ge (fun k => W u (key r k))); [|apply in_seq; lia]. intros k Hk. apply in_seq in Hk.
    specialize (HW (key r k) u (IN k ltac:(lia)) Hu). lra.
Qed.
Lemma lin_cont : forall K l rows (Z D : (idx -> R) -> idx -> R) e, (forall e, In e (noise K rows) -> cont_on l (fun u => Z u e)) -> (forall e, In e (noise K rows) -> cont_on l (fun u => D u e)) ->
  In e (noise K rows) -> cont_on l (fun u => lin K (Z u) (D u) e).
Proof.
  intros K l rows Z D e CZ CD He. apply in_noise in He. destruct He as [r [j [Hr [-> Hj]]]]. unfold lin. rewrite row_key. assert (IN : forall k, (k < K)%nat -> In (key r k) (noise K rows)) by (intros k Hk; apply in_noise; exists r, k; auto).
  apply cont_mult; [now apply CZ, IN|]. apply cont_minus; [now apply CD, IN|]. unfold rowsum. apply (cont_sum l (seq 0 K) (fun k u => Z u (key r k) * D u (key r k))). intros k Hk. apply in_seq in Hk.
  apply cont_mult; [apply CZ, IN; lia|apply CD, IN; lia].
Qed.

Section Laws.
Variable K : nat.
Variable rows : list idx.
Variable tau : R.
Hypothesis HK : (0 < K)%nat.
Hypothesis ND : NoDup rows.
Hypothesis Htau : 0 < tau.
Notation noise := (noise K).
Let l := noise rows.
Definition psi (y : R) : R := exp (- ln y / tau).
Lemma psi_pos : forall y, 0 < psi y. Proof. intros. apply exp_pos. Qed.
Lemma psi_mono : forall x y, 0 < x -> x <= y -> psi y <= psi x.
Proof.
  intros x y Hx Hy. unfold psi. destruct (Req_dec x y) as [->|Hne]; [lra|]. left. apply exp_increasing. assert (L : ln x < ln y) by (apply ln_increasing; lra). unfold Rdiv. apply Rmult_lt_compat_r; [now apply Rinv_0_lt_compat|lra].
Qed.
Lemma psi_cont : forall Y a b, 0 < a -> (forall u, cube l u -> a <= Y u <= b) -> cont_on l Y -> cont_on l (fun u => psi (Y u)).
Proof.
  intros Y a b Ha HY CY. apply (cont_comp l Y psi a b); auto. intros x Hx. apply derivable_continuous_pt. unfold psi. exists (exp (- ln x / tau) * (- / x / tau)). apply is_derive_Reals. auto_derive; [lra|]. unfold Rdiv. ring.
Qed.

(** The standard exponential noise, kept away from zero and infinity. *)
Definition expo (eps : R) (e : idx) (u : idx -> R) : R := - ln (squash eps u e).
Lemma expo_range : forall eps e u, 0 < eps < 1 / 2 -> - ln (1 - eps) <= expo eps e u <= - ln eps.
Proof.
  intros eps e u H. unfold expo, squash. pose proof (squash1_in eps (u e) H) as S. split; apply Ropp_le_contravar.
  - destruct (Req_dec (squash1 eps (u e)) (1 - eps)) as [->|Hne]; [lra|]. left. apply ln_increasing; lra.
  - destruct (Req_dec (squash1 eps (u e)) eps) as [->|Hne]; [lra|]. left. apply ln_increasing; lra.
Qed.
Lemma low_pos : forall eps, 0 < eps < 1 / 2 -> 0 < - ln (1 - eps).
Proof. intros eps H. assert (ln (1 - eps) < 0) by (rewrite <- ln_1; apply ln_increasing; lra). lra. Qed.
Lemma squash1_cont : forall eps x, continuity_pt (squash1 eps) x.
Proof.
  intros eps x e He. exists e. split; [exact He|]. intros y [_ Hy]. unfold dist in *. simpl in *. unfold R_dist in *. eapply Rle_lt_trans; [|exact Hy]. unfold squash1, Rmax, Rmin. 
  repeat destruct Rle_dec; apply Rabs_le; pose proof (Rle_abs (y - x)); pose proof (Rle_abs (- (y - x))) as X; rewrite Rabs_Ropp in X; lra.
Qed.
Lemma expo_cont : forall eps e, 0 < eps < 1 / 2 -> In e l -> cont_on l (expo eps e).
Proof.
  intros eps e H He. unfold expo, squash. apply (cont_comp l (fun u => u e) (fun x => - ln (squash1 eps x)) 0 1); [intros u Hu; now apply Hu| |now apply cont_coord].
  intros x _. apply continuity_pt_opp. apply (continuity_pt_comp (squash1 eps) ln); [apply squash1_cont|]. apply derivable_continuous_pt. pose proof (squash1_in eps x H). exists (/ squash1 eps x). apply derivable_pt_lim_ln. lra.
Qed.

(** ** Relaxed samples *)
Definition opt (e : idx) : nat := last e 0%nat.
Lemma opt_key : forall r j, opt (key r j) = j. Proof. intros. apply key_last. Qed.
Section At.
Variable p : idx -> nat -> R.
Hypothesis Hp : forall r, In r rows -> probs_row K p r.
Definition wz (u : idx -> R) (e : idx) : R := psi (- (ln (u e) / p (row_of e) (opt e))).
Definition wc (b : idx -> nat) (v : idx -> R) (e : idx) : R :=
  if Nat.eqb (opt e) (b (row_of e)) then psi (- ln (v e)) else psi (- (ln (v e) / p (row_of e) (opt e)) - ln (v (key (row_of e) (b (row_of e))))).
Definition zz (u : idx -> R) : idx -> R := norm K (wz u).
Definition zc (b : idx -> nat) (v : idx -> R) : idx -> R := norm K (wc b v).
Definition share (b : idx -> nat) (v : idx -> R) (e : idx) : R :=
  if Nat.eqb (opt e) (b (row_of e)) then 0 else (- (ln (v e) / p (row_of e) (opt e))) / (- (ln (v e) / p (row_of e) (opt e)) - ln (v (key (row_of e) (b (row_of e))))).
Definition good (b : idx -> nat) : Prop := forall r, In r rows -> (b r < K)%nat.
Lemma good_fits : forall b, good b -> fits K p rows b. Proof. intros b H r Hr. split; [now apply Hp|now apply H]. Qed.
Lemma in_l : forall r j, In r rows -> (j < K)%nat -> In (key r j) l. Proof. intros r j Hr Hj. apply in_noise. exists r, j. auto. Qed.
Lemma wz_pos : forall u e, 0 < wz u e. Proof. intros. apply psi_pos. Qed.
Lemma wc_pos : forall b u e, 0 < wc b u e. Proof. intros. unfold wc. destruct Nat.eqb; apply psi_pos. Qed.
Lemma zz_cube : forall u, cube l (zz u). Proof. intros u. apply simplex_cube, norm_simplex; [exact HK|]. intros; apply wz_pos. Qed.
Lemma zc_cube : forall b u, cube l (zc b u). Proof. intros b u. apply simplex_cube, norm_simplex; [exact HK|]. intros; apply wc_pos. Qed.

Lemma subst_at : forall rs b u r j, NoDup rs -> fits K p rs b -> In r rs -> (j < K)%nat -> subst K p rs b u (key r j) = subst_row K p r (b r) u (key r j).
Proof.
  induction rs as [|r0 rs IH]; intros b u r j N Hf Hr Hj; [destruct Hr|]. inversion N as [|? ? N1 N2]; subst. cbn [subst]. pose proof (fits_tl _ _ _ _ _ Hf) as Hf'. destruct Hr as [<-|Hr].
  - apply (subst_out K p rs b _ _ Hf'). intros C. apply in_noise in C. destruct C as [r' [j' [R1 [R2 _]]]]. apply key_inj in R2. destruct R2 as [-> _]. contradiction.
  - rewrite IH by auto. assert (O : forall k, subst_row K p r0 (b r0) u (key r k) = u (key r k)).
    { intros k. apply sub_out. intros C. assert (Q : exists i, key r k = key r0 i) by (destruct C as [C|C]; [exists (b r0); now symmetry|apply in_oth in C; destruct C as [i [E _]]; now exists i]).
      destruct Q as [i E]. apply key_inj in E. destruct E as [-> _]. contradiction. }
    destruct (Nat.eq_dec j (b r)) as [->|Hne]; [rewrite !sub_key, O; reflexivity|]. rewrite !sub_oth by auto. now rewrite !O.
Qed.
Lemma ln_neg : forall x, 0 < x < 1 -> ln x < 0. Proof. intros x H. rewrite <- ln_1. apply ln_increasing; lra. Qed.
Lemma w_subst : forall b v r j, good b -> open_cube l v -> In r rows -> (j < K)%nat -> wz (subst K p rows b v) (key r j) = wc b v (key r j).
Proof.
  intros b v r j Hb Hv Hr Hj. unfold wz, wc. rewrite row_key, opt_key, (subst_at rows b v r j ND (good_fits b Hb) Hr Hj).
  pose proof (Hv _ (in_l r j Hr Hj)) as Vj. pose proof (Hv _ (in_l r (b r) Hr (Hb r Hr))) as Vb. pose proof (proj1 (Hp r Hr)) as P. pose proof (P j Hj) as Pj. pose proof (P (b r) (Hb r Hr)) as Pb.
  destruct (Nat.eqb_spec j (b r)) as [E|Hne].
  - rewrite E, sub_key, pw_pos by lra. rewrite ln_exp. f_equal. field. lra.
  - rewrite sub_oth, pw_pos by (auto; lra). rewrite ln_mult, ln_exp by (try lra; apply exp_pos). f_equal. field. lra.
Qed.
Lemma z_subst : forall b v e, good b -> open_cube l v -> In e l -> zz (subst K p rows b v) e = zc b v e.
Proof.
  intros b v e Hb Hv He. apply in_noise in He. destruct He as [r [j [Hr [-> Hj]]]]. unfold zz, zc, norm. rewrite row_key, w_subst by auto. f_equal. apply rowsum_ext. intros i Hi. now apply w_subst.
Qed.

(** ** Existence of the expectations *)
Lemma zz_cont : forall eps e, 0 < eps < 1 / 2 -> In e l -> cont_on l (fun u => zz (squash eps u) e).
Proof.
  intros eps e H He. pose proof (low_pos eps H) as LP.
  assert (Q : exists a b, 0 < a /\ forall e u, In e l -> a <= expo eps e u / p (row_of e) (opt e) <= b).
  { assert (Q' : forall xs, incl xs l -> exists a b, 0 < a /\ forall e u, In e xs -> a <= expo eps e u / p (row_of e) (opt e) <= b).
    { induction xs as [|x xs IH]; intros Hi; [exists 1, 1; split; [lra|intros e0 u []]|]. destruct (IH (fun y Hy => Hi y (or_intror Hy))) as [a [b [Ha Hab]]].
      assert (Hx : In x l) by (apply Hi; now left). apply in_noise in Hx. destruct Hx as [r [j [Hr [Ex Hj]]]]. pose proof (proj1 (Hp r Hr) j Hj) as Pj.
      assert (Px : 0 < p (row_of x) (opt x)) by (rewrite Ex, row_key, opt_key; exact Pj). assert (Ip : 0 < / p (row_of x) (opt x)) by now apply Rinv_0_lt_compat.
      exists (Rmin a (- ln (1 - eps) * / p (row_of x) (opt x))), (Rmax b (- ln eps * / p (row_of x) (opt x))). split; [apply Rmin_glb_lt; [exact Ha|now apply Rmult_lt_0_compat]|].
      intros e0 u [<-|He0].
      - pose proof (expo_range eps x u H) as R0. unfold Rdiv. split; [eapply Rle_trans; [apply Rmin_r|]; apply Rmult_le_compat_r; lra|eapply Rle_trans; [|apply Rmax_r]; apply Rmult_le_compat_r; lra].
      - specialize (Hab e0 u He0). pose proof (Rmin_l a (- ln (1 - eps) * / p (row_of x) (opt x))). pose proof (Rmax_l b (- ln eps * / p (row_of x) (opt x))). lra. }
    apply Q', incl_refl. }
  destruct Q as [a [b [Ha Hab]]].
  assert (E : forall u x, - (ln (squash eps u x) / p (row_of x) (opt x)) = expo eps x u / p (row_of x) (opt x)) by (intros; unfold expo, Rdiv; ring).
  unfold zz. apply (norm_cont K l rows (fun u => wz (squash eps u)) (psi b)); [apply psi_pos| | |exact He].
  - intros x Hx. unfold wz. apply (psi_cont _ a b Ha); [intros u _; rewrite E; now apply Hab|]. apply (cont_ext l (fun u => / p (row_of x) (opt x) * expo eps x u)); [intros; rewrite E; unfold Rdiv; ring|]. apply cont_scal. now apply expo_cont.
  - intros x u Hx _. unfold wz. rewrite E. specialize (Hab x u Hx). apply psi_mono; lra.
Qed.
Lemma expo_p : forall eps r j u, 0 < eps < 1 / 2 -> In r rows -> (j < K)%nat -> 0 < expo eps (key r j) u / p r j.
Proof. intros eps r j u H Hr Hj. pose proof (expo_range eps (key r j) u H). pose proof (low_pos eps H). apply Rdiv_lt_0_compat; [lra|]. now apply Hp. Qed.
(** The denominators of the resampled values. *)
Definition den2 (eps : R) (b : idx -> nat) (e : idx) (u : idx -> R) : R := expo eps e u / p (row_of e) (opt e) + expo eps (key (row_of e) (b (row_of e))) u.
Lemma den2_range : forall eps b, 0 < eps < 1 / 2 -> good b -> exists B, forall e u, In e l -> - ln (1 - eps) <= den2 eps b e u <= B.
Proof.
  intros eps b H Hb. pose proof (low_pos eps H) as LP. assert (Q : forall xs, incl xs l -> exists B, forall e u, In e xs -> - ln (1 - eps) <= den2 eps b e u <= B).
  { induction xs as [|x xs IH]; intros Hi; [exists 0; intros e u []|]. destruct (IH (fun y Hy => Hi y (or_intror Hy))) as [B HB]. assert (Hx : In x l) by (apply Hi; now left).
    apply in_noise in Hx. destruct Hx as [r [j [Hr [Ex Hj]]]]. pose proof (proj1 (Hp r Hr) j Hj) as Pj. assert (Ip : 0 < / p r j) by now apply Rinv_0_lt_compat.
    exists (Rmax B (- ln eps * / p r j + - ln eps)). intros e u [<-|He].
    - unfold den2. rewrite Ex, row_key, opt_key. pose proof (expo_range eps (key r j) u H) as R1. pose proof (expo_range eps (key r (b r)) u H) as R2. pose proof (expo_p eps r j u H Hr Hj) as R3. split; [lra|].
      eapply Rle_trans; [|apply Rmax_r]. apply Rplus_le_compat; [|lra]. unfold Rdiv. apply Rmult_le_compat_r; lra.
    - specialize (HB e u He). pose proof (Rmax_l B (- ln eps * / p r j + - ln eps)). lra. }
  apply Q, incl_refl.
Qed.
Lemma den2_cont : forall eps b e, 0 < eps < 1 / 2 -> good b -> In e l -> cont_on l (den2 eps b e).
Proof.
  intros eps b e H Hb He. unfold den2. apply cont_plus.
  - apply (cont_ext l (fun u => / p (row_of e) (opt e) * expo eps e u)); [intros; unfold Rdiv; ring|]. apply cont_scal. now apply expo_cont.
  - apply expo_cont; [exact H|]. apply in_noise in He. destruct He as [r [j [Hr [-> Hj]]]]. rewrite row_key. apply in_l; auto.
Qed.
Lemma den2_eq : forall eps b e u, - (ln (squash eps u e) / p (row_of e) (opt e)) - ln (squash eps u (key (row_of e) (b (row_of e)))) = den2 eps b e u.
Proof. intros. unfold den2, expo, Rdiv. ring. Qed.
Lemma zc_cont : forall eps b e, 0 < eps < 1 / 2 -> good b -> In e l -> cont_on l (fun u => zc b (squash eps u) e).
Proof.
  intros eps b e H Hb He. pose proof (low_pos eps H) as LP. destruct (den2_range eps b H Hb) as [B HB].
  unfold zc. apply (norm_cont K l rows (fun u => wc b (squash eps u)) (Rmin (psi B) (psi (- ln eps)))); [apply Rmin_glb_lt; apply psi_pos| | |exact He].
  - intros x Hx. unfold wc. destruct Nat.eqb.
    + apply (psi_cont (expo eps x) (- ln (1 - eps)) (- ln eps)); [exact LP|intros u _; now apply expo_range|now apply expo_cont].
    + apply (cont_ext l (fun u => psi (den2 eps b x u))); [intros u _; now rewrite <- den2_eq|]. apply (psi_cont (den2 eps b x) (- ln (1 - eps)) B); [exact LP|intros u _; now apply HB|now apply den2_cont].
  - intros x u Hx _. unfold wc. destruct Nat.eqb.
    + eapply Rle_trans; [apply Rmin_r|]. pose proof (expo_range eps x u H). apply psi_mono; unfold expo in *; lra.
    + eapply Rle_trans; [apply Rmin_l|]. rewrite den2_eq. specialize (HB x u Hx). apply psi_mono; lra.
Qed.
Lemma share_cont : forall eps b e, 0 < eps < 1 / 2 -> good b -> In e l -> cont_on l (fun u => share b (squash eps u) e).
Proof.
  intros eps b e H Hb He. pose proof (low_pos eps H) as LP. destruct (den2_range eps b H Hb) as [B HB]. unfold share. destruct Nat.eqb; [apply cont_const|].
  apply (cont_div l _ _ (- ln (1 - eps)) LP).
  - apply (cont_ext l (fun u => / p (row_of e) (opt e) * expo eps e u)); [intros; unfold expo, Rdiv; ring|]. apply cont_scal. now apply expo_cont.
  - apply (cont_ext l (den2 eps b e)); [intros u _; now rewrite <- den2_eq|now apply den2_cont].
  - intros u _. rewrite den2_eq. now apply HB.
Qed.
Lemma share_range : forall b v e, good b -> open_cube l v -> In e l -> 0 <= share b v e <= 1.
Proof.
  intros b v e Hb Hv He. apply in_noise in He. destruct He as [r [j [Hr [-> Hj]]]]. unfold share. rewrite row_key, opt_key. destruct Nat.eqb; [lra|].
  pose proof (ln_neg _ (Hv _ (in_l r j Hr Hj))) as L1. pose proof (ln_neg _ (Hv _ (in_l r (b r) Hr (Hb r Hr)))) as L2. pose proof (proj1 (Hp r Hr) j Hj) as Pj.
  assert (X : 0 < - (ln (v (key r j)) / p r j)) by (replace (- (ln (v (key r j)) / p r j)) with ((- ln (v (key r j))) / p r j) by (unfold Rdiv; ring); apply Rdiv_lt_0_compat; lra).
  set (x := - (ln (v (key r j)) / p r j)) in *. split; [left; apply Rdiv_lt_0_compat; lra|]. apply (Rmult_le_reg_r (x - ln (v (key r (b r))))); [lra|]. unfold Rdiv. rewrite Rmult_assoc, Rinv_l; lra.
Qed.

Lemma same_w : forall b u v e, (forall e, In e l -> u e = v e) -> good b -> In e l -> wz u e = wz v e /\ wc b u e = wc b v e /\ share b u e = share b v e.
Proof.
  intros b u v e E Hb He. pose proof (E e He) as E1. apply in_noise in He. destruct He as [r [j [Hr [-> Hj]]]]. pose proof (E _ (in_l r (b r) Hr (Hb r Hr))) as E2. unfold wz, wc, share. rewrite !row_key, !opt_key. now rewrite E1, E2.
Qed.
Lemma same_z : forall b u v e, (forall e, In e l -> u e = v e) -> good b -> In e l -> zz u e = zz v e /\ zc b u e = zc b v e.
Proof.
  intros b u v e E Hb He. pose proof (same_w b u v e E Hb He) as [W1 [W2 _]]. unfold zz, zc, norm. rewrite W1, W2. apply in_noise in He. destruct He as [r [j [Hr [-> Hj]]]]. rewrite !row_key.
  split; f_equal; apply rowsum_ext; intros i Hi; destruct (same_w b u v (key r i) E Hb (in_l r i Hr Hi)) as [A1 [A2 _]]; assumption.
Qed.
Lemma cont_out : forall G z z', cont_on l G -> cube l z -> (forall e, In e l -> z e = z' e) -> G z = G z'.
Proof. intros G z z' CG Hz E. apply (cont_same l); auto. intros e He. rewrite <- E by exact He. now apply Hz. Qed.
Lemma good_zero : good (fun _ => 0%nat). Proof. intros r _. exact HK. Qed.

Theorem zz_expect : forall G, cont_on l G -> exists v, expect l (fun u => G (zz u)) v.
Proof.
  intros G CG. pose proof CG as [[B HB] _]. apply (expect_open l _ B); [now apply noise_nodup|intros u _; apply HB, zz_cube| |].
  - intros eps He. apply (cont_vec l l G (fun e u => zz (squash eps u) e) CG); [intros e Hin; now apply zz_cont|]. intros e u Hin _. now apply zz_cube.
  - intros u w _ _ E. apply cont_out; [exact CG|apply zz_cube|]. intros e He. now apply (same_z (fun _ => 0%nat) u w e E good_zero).
Qed.
(** Functions of the resampled values and of their shares. *)
Theorem zc_expect : forall b G, good b -> cont_on l G -> exists v, expect l (fun u => G (zc b u)) v.
Proof.
  intros b G Hb CG. pose proof CG as [[B HB] _]. apply (expect_open l _ B); [now apply noise_nodup|intros u _; apply HB, zc_cube| |].
  - intros eps He. apply (cont_vec l l G (fun e u => zc b (squash eps u) e) CG); [intros e Hin; now apply zc_cont|]. intros e u Hin _. now apply zc_cube.
  - intros u w _ _ E. apply cont_out; [exact CG|apply zc_cube|]. intros e He. now apply (same_z b u w e E Hb).
Qed.
End At.
End Laws.
