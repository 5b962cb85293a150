(** Proofs about the enumeration of supports. *)
From Coq Require Import Reals List Arith Bool Lia Lra.
From Verif Require Import Base Torch Enumerate SpecEnumerate.
Import ListNotations.

Lemma tuples_length : forall e c, length (tuples e c) = e ^ c.
Proof.
  intros e. induction c as [|c IH]; simpl; auto.
  assert (G : forall l, length (flat_map (fun v => map (cons v) (tuples e c)) l) = length l * e ^ c).
  { induction l as [|a l IHl]; simpl; auto. rewrite app_length, map_length, IH, IHl. reflexivity. }
  rewrite G, seq_length. reflexivity.
Qed.

Lemma tuples_joint : forall e c t, In t (tuples e c) <-> joint e c t.
Proof.
  intros e. induction c as [|c IH]; intros t; simpl.
  - unfold joint. split; [intros [<-|[]]; auto|intros [H _]; left; destruct t; auto; discriminate].
  - rewrite in_flat_map. split.
    + intros [v [Hv Ht]]. apply in_map_iff in Ht as [u [<- Hu]]. apply IH in Hu as [HL HF]. apply in_seq in Hv.
      split; simpl; [lia|constructor; auto; lia].
    + intros [HL HF]. destruct t as [|v u]; [discriminate|]. inversion HF; subst. exists v. split; [apply in_seq; lia|].
      apply in_map. apply IH. split; auto.
Qed.

Lemma tuples_NoDup : forall e c, NoDup (tuples e c).
Proof.
  intros e. induction c as [|c IH]; simpl; [repeat constructor; auto|].
  assert (G : forall l, NoDup l -> NoDup (flat_map (fun v => map (cons v) (tuples e c)) l)).
  { induction l as [|a l IHl]; intros H; simpl; [constructor|]. inversion H; subst.
    assert (D : forall x, In x (map (cons a) (tuples e c)) -> ~ In x (flat_map (fun v => map (cons v) (tuples e c)) l)).
    { intros x Hx Hy. apply in_map_iff in Hx as [u [<- _]]. apply in_flat_map in Hy as [v [Hv Hy]]. apply in_map_iff in Hy as [w [E _]].
      injection E as -> _. contradiction. }
    assert (N1 : NoDup (map (cons a) (tuples e c))).
    { clear - IH. induction IH; simpl; constructor; auto. intros Hin. apply in_map_iff in Hin as [y [E Hy]]. injection E as ->. contradiction. }
    specialize (IHl H3). clear - D N1 IHl. induction (map (cons a) (tuples e c)) as [|x r IHr]; simpl; auto. inversion N1; subst. constructor.
    - intros Hin. apply in_app_or in Hin as [Hin|Hin]; [contradiction|]. apply (D x); simpl; auto.
    - apply IHr; auto. intros y Hy. apply D. simpl; auto. }
  apply G, seq_NoDup.
Qed.

Lemma fold_map_plus : forall {A} (f : A -> R) l1 l2, fold_right Rplus 0%R (map f (l1 ++ l2))
  = Rplus (fold_right Rplus 0%R (map f l1)) (fold_right Rplus 0%R (map f l2)).
Proof. intros A f. induction l1 as [|a l1 IH]; intros l2; simpl; [lra|]. rewrite IH. lra. Qed.

Lemma fold_scale : forall {A} (f : A -> R) c l, fold_right Rplus 0%R (map (fun a => Rmult c (f a)) l) = Rmult c (fold_right Rplus 0%R (map f l)).
Proof. intros A f c. induction l as [|a l IH]; simpl; [lra|]. rewrite IH. lra. Qed.

Definition tuple_lp (lps : list (list R)) (t : list nat) : R :=
  fold_right Rplus 0%R (map (fun vl => nth (fst vl) (snd vl) 0%R) (combine t lps)).

Lemma tuples_expectation : forall e lps, Forall (fun l => length l = e) lps -> forall f,
  fold_right Rplus 0%R (map (fun t => Rmult (exp (tuple_lp lps t)) (f t)) (tuples e (length lps))) = expectation lps f.
Proof.
  intros e. induction lps as [|lp lps IH]; intros HF f; simpl.
  - unfold tuple_lp. simpl. rewrite exp_0. lra.
  - inversion HF as [|? ? H1 H2]; subst.
    assert (G : forall l, fold_right Rplus 0%R (map (fun t => Rmult (exp (tuple_lp (lp :: lps) t)) (f t)) (flat_map (fun v => map (cons v) (tuples (length lp) (length lps))) l))
      = fold_right Rplus 0%R (map (fun v => Rmult (exp (nth v lp 0%R)) (expectation lps (fun t => f (v :: t)))) l)).
    { induction l as [|v l IHl]; simpl; auto. rewrite fold_map_plus, IHl. f_equal. rewrite map_map. rewrite <- IH by auto.
      rewrite <- fold_scale. f_equal. apply map_ext. intros t. unfold tuple_lp. simpl. rewrite exp_plus. lra. }
    apply G.
Qed.

Lemma expectation_one : forall lps, Forall (fun l => fold_right Rplus 0%R (map exp l) = 1%R) lps -> expectation lps (fun _ => 1%R) = 1%R.
Proof.
  induction 1 as [|l lps H HF IH]; simpl; auto. transitivity (fold_right Rplus 0%R (map exp l)); auto. rewrite IH.
  clear. assert (G : forall s (l : list R), fold_right Rplus 0%R (map (fun v => Rmult (exp (nth (v - s) l 0%R)) 1%R) (seq s (length l))) = fold_right Rplus 0%R (map exp l)).
  { intros s l0. revert s. induction l0 as [|a l0 IH]; intros s; simpl; auto. rewrite Nat.sub_diag. rewrite Rmult_1_r. f_equal. rewrite <- (IH (S s)).
    f_equal. apply map_ext_in. intros v Hv. apply in_seq in Hv. replace (v - s) with (S (v - S s)) by lia. reflexivity. }
  rewrite <- (G 0). f_equal. apply map_ext. intros v. now rewrite Nat.sub_0_r.
Qed.

Lemma nth_seq_map : forall {A} (l : list A) d, map (fun i => nth i l d) (seq 0 (length l)) = l.
Proof. intros A l d. induction l as [|a l IH]; simpl; auto. f_equal. rewrite <- seq_shift, map_map. exact IH. Qed.

(** With at most one size. *)
Lemma enumerate_one : forall e budget pd sizes, 2 <= e -> sizes = [] \/ (exists d, sizes = [d] /\ 1 <= d) ->
  forall amt, amt = e ^ (fold_right Nat.mul 1 sizes) ->
  enumerate e budget (length pd) (pd ++ sizes) =
    if budget <? amt then Err ValueError
    else Ok (amt, fun i idx => match nth_error (tuples e (fold_right Nat.mul 1 sizes)) i with Some t => row_at t idx | None => 0 end).
Proof.
  intros e budget pd sizes He Hs amt ->. unfold enumerate.
  replace (skipn (length pd) (pd ++ sizes)) with sizes by (rewrite skipn_app, skipn_all, Nat.sub_diag; reflexivity).
  assert (E1 : (e =? 1) = false) by (apply Nat.eqb_neq; lia). rewrite E1.
  destruct Hs as [->|[d [-> Hd]]].
  - cbn [count_sizes fold_left fold_right]. rewrite Nat.pow_1_r. destruct (budget <? e); auto.
    pose proof (tuples_length e 1) as TL. rewrite Nat.pow_1_r in TL. destruct (tuples e 1) eqn:ET; [simpl in TL; lia|]. rewrite <- ET in *.
    unfold row_fits. cbn [Nat.eqb orb negb]. rewrite TL, Nat.ltb_irrefl. reflexivity.
  - unfold count_sizes. cbn [fold_left fold_right]. rewrite Nat.mul_1_r. destruct (budget <? e ^ d); auto.
    pose proof (tuples_length e d) as TL. destruct (tuples e d) eqn:ET; [simpl in TL; pose proof (Nat.pow_nonzero e d); lia|]. rewrite <- ET in *.
    unfold row_fits. rewrite rev_app_distr. cbn [rev app]. rewrite Nat.eqb_refl, orb_true_r. cbn [negb]. rewrite TL, Nat.ltb_irrefl. reflexivity.
Qed.

Lemma row_values : forall s sizes t, sizes = [] \/ (exists d, sizes = [d] /\ 1 <= d) -> length t = fold_right Nat.mul 1 sizes ->
  map (row_at t) (events_of s sizes) = t.
Proof.
  intros s sizes t Hs HL. destruct Hs as [->|[d [-> Hd]]]; simpl in HL.
  - destruct t as [|v [|? ?]]; try discriminate. reflexivity.
  - rewrite Nat.mul_1_r in HL. unfold events_of. rewrite map_map. subst d.
    destruct t as [|v [|w u]]; [reflexivity|reflexivity|]. rewrite <- (nth_seq_map (v :: w :: u) 0) at 2. apply map_ext. intros c.
    unfold row_at. rewrite last_last. reflexivity.
Qed.

Lemma weight_tuple : forall lp s sizes t, sizes = [] \/ (exists d, sizes = [d] /\ 1 <= d) -> length t = fold_right Nat.mul 1 sizes ->
  enumerate_weight lp (events_of s sizes) (row_at t) = exp (tuple_lp (map lp (events_of s sizes)) t).
Proof.
  intros lp s sizes t Hs HL. unfold enumerate_weight, tuple_lp. f_equal. f_equal.
  assert (G : forall g l, map (fun x => nth (g x) (lp x) 0%R) l = map (fun vl => nth (fst vl) (snd vl) 0%R) (combine (map g l) (map lp l))).
  { intros g l. induction l as [|x l IH]; simpl; auto; f_equal; exact IH. }
  rewrite G, (row_values s sizes t Hs HL). reflexivity.
Qed.

Lemma enumerate_spec : forall e budget pd sizes, 2 <= e -> sizes = [] \/ (exists d, sizes = [d] /\ 1 <= d) ->
  e ^ (fold_right Nat.mul 1 sizes) <= budget ->
  exists f, enumerate e budget (length pd) (pd ++ sizes) = Ok (e ^ (fold_right Nat.mul 1 sizes), f) /\
    forall s,
      (forall t, joint e (fold_right Nat.mul 1 sizes) t ->
         exists i, i < e ^ (fold_right Nat.mul 1 sizes) /\ map (f i) (events_of s sizes) = t /\
                   forall j, j < e ^ (fold_right Nat.mul 1 sizes) -> map (f j) (events_of s sizes) = t -> j = i) /\
      (forall i, i < e ^ (fold_right Nat.mul 1 sizes) -> joint e (fold_right Nat.mul 1 sizes) (map (f i) (events_of s sizes))) /\
      (forall lp, (forall x, length (lp x) = e) -> forall cost,
         fold_right Rplus 0%R (map (fun i => Rmult (enumerate_weight lp (events_of s sizes) (f i)) (cost (map (f i) (events_of s sizes))))
                                   (seq 0 (e ^ (fold_right Nat.mul 1 sizes))))
         = expectation (map lp (events_of s sizes)) cost).
Proof.
  intros e budget pd sizes He Hs Hb. set (c := fold_right Nat.mul 1 sizes) in *.
  rewrite (enumerate_one e budget pd sizes He Hs _ eq_refl). fold c.
  destruct (Nat.ltb_spec budget (e ^ c)); [lia|]. eexists. split; [reflexivity|]. intros s.
  assert (V : forall i, i < e ^ c -> map (fun idx => match nth_error (tuples e c) i with Some t => row_at t idx | None => 0 end) (events_of s sizes)
      = nth i (tuples e c) []).
  { intros i Hi. assert (Hi' : i < length (tuples e c)) by (now rewrite tuples_length). rewrite (nth_error_nth' (tuples e c) [] Hi'). apply row_values; auto.
    apply (tuples_joint e c). apply nth_In. auto. }
  split; [|split].
  - intros t Ht. apply tuples_joint in Ht. apply (In_nth _ _ []) in Ht as [i [Hi E]]. rewrite tuples_length in Hi. exists i. split; auto.
    split; [rewrite V; auto|]. intros j Hj Ej. rewrite V in Ej by auto. apply (NoDup_nth (tuples e c) []); rewrite ?tuples_length; auto; [apply tuples_NoDup|congruence].
  - intros i Hi. rewrite V by auto. apply tuples_joint. apply nth_In. now rewrite tuples_length.
  - intros lp Hlp cost. rewrite <- (tuples_expectation e (map lp (events_of s sizes))).
    + assert (LE : length (map lp (events_of s sizes)) = c).
      { rewrite map_length. unfold c. destruct Hs as [->|[d [-> _]]]; simpl; [reflexivity|]. rewrite map_length, seq_length. lia. }
      rewrite LE. rewrite <- (nth_seq_map (tuples e c) []) at 1. rewrite map_map, tuples_length. f_equal. apply map_ext_in. intros i Hi.
      apply in_seq in Hi. rewrite V by lia. f_equal.
      assert (Hi' : i < length (tuples e c)) by (rewrite tuples_length; lia). rewrite (nth_error_nth' (tuples e c) [] Hi').
      change (fun idx => row_at (nth i (tuples e c) []) idx) with (row_at (nth i (tuples e c) [])).
      apply weight_tuple; auto. apply (tuples_joint e c). apply nth_In. auto.
    + apply Forall_forall. intros l Hl. apply in_map_iff in Hl as [x [<- _]]. auto.
Qed.

(** Above the budget. *)
Lemma enumerate_budget : forall e budget pd sizes, (forall d, In d sizes -> 1 <= d) -> budget < e ^ (fold_right Nat.mul 1 sizes) ->
  enumerate e budget (length pd) (pd ++ sizes) = Err ValueError.
Proof.
  intros e budget pd sizes Hp Hb. unfold enumerate.
  replace (skipn (length pd) (pd ++ sizes)) with sizes by (rewrite skipn_app, skipn_all, Nat.sub_diag; reflexivity).
  assert (G : forall l a cp, fst (fold_left (fun '(amt, cp) d => (amt ^ d, match cp with Some (S c) => Some (S c ^ d) | _ => Some d end)) l (a, cp)) = a ^ (fold_right Nat.mul 1 l)).
  { induction l as [|d l IH]; intros a cp; simpl; [lia|]. rewrite IH. now rewrite <- Nat.pow_mul_r. }
  unfold count_sizes. specialize (G sizes e (match sizes with [] => Some 1 | _ => None end)).
  destruct (fold_left _ sizes _) as [amt cp]. cbn [fst] in G. rewrite G. apply Nat.ltb_lt in Hb. now rewrite Hb.
Qed.

(** Two or more sizes above one: always an error. *)
Lemma pow_gt_self : forall c d, 2 <= c -> d < c ^ d.
Proof. intros c d H. pose proof (Nat.pow_gt_lin_r c d). lia. Qed.

Lemma enumerate_two : forall e budget pd d1 d2 r, 2 <= e -> 2 <= d1 -> (forall d, In d (d2 :: r) -> 1 <= d) ->
  e ^ (fold_right Nat.mul 1 (d1 :: d2 :: r)) <= budget -> enumerate e budget (length pd) (pd ++ d1 :: d2 :: r) = Err RuntimeError.
Proof.
  intros e budget pd d1 d2 r He H1 Hr Hb. unfold enumerate.
  replace (skipn (length pd) (pd ++ d1 :: d2 :: r)) with (d1 :: d2 :: r) by (rewrite skipn_app, skipn_all, Nat.sub_diag; reflexivity).
  set (step := fun '(amt, cp) d => (amt ^ d, match cp with Some (S c) => Some (S c ^ d) | _ => Some d end)).
  assert (G : forall l a c, 2 <= c -> (forall d, In d l -> 1 <= d) -> exists c', fold_left step l (a, Some c) = (a ^ (fold_right Nat.mul 1 l), Some c') /\ 2 <= c' /\
     (l <> [] -> last l 0 < c')).
  { induction l as [|d l IH]; intros a c Hc Hl.
    - exists c. simpl. split; [f_equal; lia|]. split; auto. congruence.
    - cbn [fold_left]. unfold step at 2. destruct c as [|c]; [lia|].
      assert (Hd : 1 <= d) by (apply Hl; left; auto).
      assert (H2 : 2 <= S c ^ d) by (rewrite <- (Nat.pow_1_r 2); transitivity (S c ^ 1); [apply Nat.pow_le_mono_l; lia|apply Nat.pow_le_mono_r; lia]).
      destruct (IH (a ^ d) (S c ^ d) H2) as [c' [E [C1 C2]]]; [intros; apply Hl; right; auto|].
      exists c'. rewrite E. simpl. rewrite <- Nat.pow_mul_r. split; auto. split; auto. intros _. destruct l as [|d' l'].
      + simpl in E. injection E as _ <-. change (last [d] 0) with d. apply pow_gt_self; auto.
      + apply C2. discriminate. }
  change (count_sizes e (d1 :: d2 :: r)) with (fold_left step (d2 :: r) (e ^ d1, Some d1)).
  destruct (G (d2 :: r) (e ^ d1) d1 H1 Hr) as [c' [E [C1 C2]]]. rewrite E. specialize (C2 ltac:(discriminate)).
  rewrite <- Nat.pow_mul_r. cbn [fold_right] in Hb |- *.
  destruct (Nat.ltb_spec budget (e ^ (d1 * (d2 * fold_right Nat.mul 1 r)))); [lia|].
  destruct (Nat.eqb_spec e 1); [lia|].
  pose proof (tuples_length e c') as TL. destruct (tuples e c') eqn:ET; [simpl in TL; pose proof (Nat.pow_nonzero e c'); lia|].
  assert (F : row_fits (pd ++ d1 :: d2 :: r) c' = false).
  { unfold row_fits. destruct (Nat.eqb_spec c' 1); [lia|]. cbn [orb].
    assert (NE : d2 :: r <> []) by discriminate. destruct (exists_last NE) as [q [m Em]]. rewrite Em in *. rewrite last_last in C2.
    rewrite app_comm_cons, app_assoc, rev_app_distr. cbn [rev app]. apply Nat.eqb_neq. lia. }
  rewrite F. reflexivity.
Qed.

(** Two sizes of which the first is one, and plates without a dimension: only constant outcomes, then zeros. *)
Lemma enumerate_constant : forall e budget d, 2 <= e -> 2 <= d -> e ^ d <= budget ->
  exists f, enumerate e budget 0 [1; d] = Ok (e ^ d, f) /\
    (forall i idx, i < e -> f i idx = i) /\ (forall i idx, e <= i -> f i idx = 0).
Proof.
  intros e budget d He Hd Hb. unfold enumerate, count_sizes. cbn [skipn fold_left]. rewrite Nat.pow_1_r, Nat.pow_1_l.
  destruct (Nat.ltb_spec budget (e ^ d)); [lia|]. destruct (Nat.eqb_spec e 1); [lia|].
  assert (ET : tuples e 1 = map (fun v => [v]) (seq 0 e)).
  { cbn [tuples map]. induction (seq 0 e) as [|v l IH]; simpl; auto; f_equal; exact IH. }
  assert (EL : length (tuples e 1) = e) by (rewrite tuples_length; apply Nat.pow_1_r).
  remember (tuples e 1) as T eqn:EqT. destruct T as [|t0 ts]; [simpl in EL; lia|]. change (row_fits [1; d] 1) with true. cbn [negb].
  destruct (Nat.ltb_spec (e ^ d) (length (t0 :: ts))) as [L|L].
  { exfalso. rewrite EL in L. assert (e ^ 1 <= e ^ d) by (apply Nat.pow_le_mono_r; lia). rewrite Nat.pow_1_r in H0. lia. }
  eexists. split; [reflexivity|]. rewrite ET. split; intros i idx Hi.
  - rewrite nth_error_map. rewrite (nth_error_nth' (seq 0 e) 0) by (now rewrite seq_length). rewrite seq_nth by auto. reflexivity.
  - replace (nth_error (map (fun v => [v]) (seq 0 e)) i) with (@None (list nat)); auto. symmetry. apply nth_error_None. rewrite map_length, seq_length. auto.
Qed.

Lemma enumerate_singleton_plate : forall e budget d, 2 <= e -> e <= budget ->
  exists f, enumerate e budget 1 [d] = Ok (e, f) /\ forall i idx, i < e -> f i idx = i.
Proof.
  intros e budget d He Hb. unfold enumerate, count_sizes. cbn [skipn fold_left].
  destruct (Nat.ltb_spec budget e); [lia|]. destruct (Nat.eqb_spec e 1); [lia|].
  assert (ET : tuples e 1 = map (fun v => [v]) (seq 0 e)).
  { cbn [tuples map]. induction (seq 0 e) as [|v l IH]; simpl; auto; f_equal; exact IH. }
  assert (EL : length (tuples e 1) = e) by (rewrite tuples_length; apply Nat.pow_1_r).
  remember (tuples e 1) as T eqn:EqT. destruct T as [|t0 ts]; [simpl in EL; lia|]. change (row_fits [d] 1) with true. cbn [negb].
  rewrite EL, Nat.ltb_irrefl. eexists. split; [reflexivity|]. rewrite ET. intros i idx Hi.
  rewrite nth_error_map. rewrite (nth_error_nth' (seq 0 e) 0) by (now rewrite seq_length). rewrite seq_nth by auto. reflexivity.
Qed.
