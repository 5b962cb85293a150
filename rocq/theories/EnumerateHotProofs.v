(** Enumeration of one-hot vectors. *)
From Coq Require Import Reals List Arith Bool Lia.
From Verif Require Import Base Torch Enumerate EnumerateHot SpecEnumerate EnumerateProofs.
Import ListNotations.
Open Scope nat_scope.

Lemma hot_errors : forall e budget np batch x, enumerate e budget np batch = Err x <-> enumerate_hot e budget np batch = Err x.
Proof.
  intros e budget np batch x. unfold enumerate, enumerate_hot. destruct (count_sizes e (skipn np batch)) as [amt cp]. set (c := match cp with Some c => c | None => 0 end).
  destruct (budget <? amt); [split; intros H; inversion H; reflexivity|]. destruct (e =? 1); [split; intros H; inversion H; reflexivity|]. rewrite map_length.
  destruct (tuples e c) as [|t ts]; cbn [map]; [split; discriminate|].
  destruct (negb (row_fits batch c)); [split; intros H; inversion H; reflexivity|]. destruct (amt <? length (t :: ts)); [split; intros H; inversion H; reflexivity|]. split; discriminate.
Qed.

Definition hot_rows (e c : nat) (i : nat) (idx : list nat) : list nat :=
  match nth_error (map (fun t => map (hot e) t) (tuples e c)) i with Some [r] => r | Some t => nth (last idx 0) t (repeat 0 e) | None => repeat 0 e end.
Lemma hot_one : forall e budget pd sizes, 2 <= e -> sizes = [] \/ (exists d, sizes = [d] /\ 1 <= d) ->
  enumerate_hot e budget (length pd) (pd ++ sizes) =
    if budget <? e ^ (fold_right Nat.mul 1 sizes) then Err ValueError else Ok (e ^ (fold_right Nat.mul 1 sizes), hot_rows e (fold_right Nat.mul 1 sizes)).
Proof.
  intros e budget pd sizes He Hs. unfold enumerate_hot.
  replace (skipn (length pd) (pd ++ sizes)) with sizes by (rewrite skipn_app, skipn_all, Nat.sub_diag; reflexivity).
  assert (E1 : (e =? 1) = false) by (apply Nat.eqb_neq; lia). rewrite E1.
  destruct Hs as [->|[d [-> Hd]]].
  - cbn [count_sizes fold_left fold_right]. rewrite Nat.pow_1_r. destruct (budget <? e); auto. unfold hot_rows.
    pose proof (tuples_length e 1) as TL. rewrite Nat.pow_1_r in TL. rewrite <- (map_length (fun t => map (hot e) t)) in TL.
    destruct (map (fun t => map (hot e) t) (tuples e 1)) eqn:ET; [simpl in TL; lia|]. rewrite <- ET in *.
    unfold row_fits. cbn [Nat.eqb orb negb]. rewrite TL, Nat.ltb_irrefl. reflexivity.
  - unfold count_sizes. cbn [fold_left fold_right]. rewrite Nat.mul_1_r. destruct (budget <? e ^ d); auto. unfold hot_rows.
    pose proof (tuples_length e d) as TL. rewrite <- (map_length (fun t => map (hot e) t)) in TL.
    destruct (map (fun t => map (hot e) t) (tuples e d)) eqn:ET; [simpl in TL; pose proof (Nat.pow_nonzero e d); lia|]. rewrite <- ET in *.
    unfold row_fits. rewrite rev_app_distr. cbn [rev app]. rewrite Nat.eqb_refl, orb_true_r. cbn [negb]. rewrite TL, Nat.ltb_irrefl. reflexivity.
Qed.

Lemma hot_values : forall e budget pd sizes, 2 <= e -> sizes = [] \/ (exists d, sizes = [d] /\ 1 <= d) -> e ^ (fold_right Nat.mul 1 sizes) <= budget ->
  exists f g, enumerate e budget (length pd) (pd ++ sizes) = Ok (e ^ (fold_right Nat.mul 1 sizes), f) /\
    enumerate_hot e budget (length pd) (pd ++ sizes) = Ok (e ^ (fold_right Nat.mul 1 sizes), g) /\
    forall i s x, i < e ^ (fold_right Nat.mul 1 sizes) -> In x (events_of s sizes) -> f i x < e /\ g i x = map (fun j => if j =? f i x then 1 else 0) (seq 0 e).
Proof.
  intros e budget pd sizes He Hs Hb. pose proof (enumerate_one e budget pd sizes He Hs _ eq_refl) as E. pose proof (hot_one e budget pd sizes He Hs) as F.
  set (c := fold_right Nat.mul 1 sizes) in *. assert (L : (budget <? e ^ c) = false) by now apply Nat.ltb_ge. rewrite L in E, F.
  eexists. eexists. split; [exact E|]. split; [exact F|]. intros i s x Hi Hx. unfold hot_rows. rewrite nth_error_map.
  destruct (nth_error (tuples e c) i) as [t|] eqn:T; [|apply nth_error_None in T; rewrite tuples_length in T; lia]. cbn [option_map].
  assert (J : joint e c t) by (apply tuples_joint; eapply nth_error_In; exact T). destruct J as [J1 J2]. rewrite Forall_forall in J2.
  assert (D : t = [hd 0 t] \/ last x 0 < length t).
  { destruct Hs as [->|[d [-> Hd]]].
    - left. unfold c in J1. cbn in J1. destruct t as [|v [|]]; try discriminate. reflexivity.
    - right. unfold c in J1. cbn in J1. rewrite Nat.mul_1_r in J1. cbn [events_of] in Hx. apply in_map_iff in Hx. destruct Hx as [k [<- Hk]]. rewrite last_last. apply in_seq in Hk. lia. }
  unfold row_at. destruct t as [|v [|w t]].
  - destruct D as [D|D]; [discriminate|simpl in D; lia].
  - cbn [map]. split; [apply J2; now left|reflexivity].
  - destruct D as [D|D]; [discriminate|]. set (l := v :: w :: t) in *. split; [apply J2, nth_In; exact D|].
    change (nth (last x 0) (map (hot e) l) (repeat 0 e) = hot e (nth (last x 0) l 0)).
    rewrite (nth_indep _ (repeat 0 e) (hot e 0)) by now rewrite map_length. now rewrite map_nth.
Qed.

(** Components of shape [1, d]: the samples beyond the first e are no one-hot vectors. *)
Lemma hot_flat : forall e budget d, 2 <= e -> 2 <= d -> e ^ d <= budget ->
  exists g, enumerate_hot e budget 0 [1; d] = Ok (e ^ d, g) /\ forall i idx, e <= i -> g i idx = repeat 0 e.
Proof.
  intros e budget d He Hd Hb. unfold enumerate_hot, count_sizes. cbn [skipn fold_left]. rewrite Nat.pow_1_r, Nat.pow_1_l.
  destruct (Nat.ltb_spec budget (e ^ d)); [lia|]. destruct (Nat.eqb_spec e 1); [lia|].
  assert (EL : length (map (fun t => map (hot e) t) (tuples e 1)) = e) by (rewrite map_length, tuples_length; apply Nat.pow_1_r).
  remember (map (fun t => map (hot e) t) (tuples e 1)) as T eqn:EqT. destruct T as [|t0 ts]; [simpl in EL; lia|]. change (row_fits [1; d] 1) with true. cbn [negb].
  destruct (Nat.ltb_spec (e ^ d) (length (t0 :: ts))) as [L|L].
  { exfalso. rewrite EL in L. assert (e ^ 1 <= e ^ d) by (apply Nat.pow_le_mono_r; lia). rewrite Nat.pow_1_r in H0. lia. }
  eexists. split; [reflexivity|]. intros i idx Hi. assert (Z : nth_error (t0 :: ts) i = None) by (apply nth_error_None; lia). cbv beta. now rewrite Z.
Qed.
