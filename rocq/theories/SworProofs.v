(** Sampling without replacement: the sampled sequences are distinct. *)
From Coq Require Import Reals List Arith Bool Lia Lra.
From Verif Require Import Base Gumbel GumbelProofs Swor SpecSwor.
Import ListNotations.

Lemma pick_length : forall {A} (d : A) l idx, length (pick d l idx) = length idx.
Proof. intros. unfold pick. now rewrite map_length. Qed.
Lemma nth_pick : forall {A} (d d' : A) l idx j, j < length idx -> nth j (pick d l idx) d' = nth (nth j idx 0) l d.
Proof.
  intros A d d' l idx. induction idx as [|i idx IH]; intros j H; simpl in *; [lia|]. destruct j; auto. apply IH. lia.
Qed.

Lemma upd_length : forall e v r, e < length r -> length (upd e v r) = length r.
Proof. intros. unfold upd. rewrite app_length, firstn_length. cbn [length]. rewrite skipn_length. lia. Qed.
Lemma firstn_upd : forall e v r, e < length r -> firstn (S e) (upd e v r) = firstn e r ++ [v].
Proof.
  intros e v r H. unfold upd. rewrite firstn_app, firstn_firstn, firstn_length.
  replace (Nat.min (S e) e) with e by lia. replace (S e - Nat.min e (length r)) with 1 by lia. reflexivity.
Qed.

Lemma write_col_length : forall e vals rows, length (write_col e vals rows) = length rows.
Proof. intros e. induction vals; intros [|r rows]; simpl; auto. Qed.
Lemma nth_write_col : forall e vals rows j, j < length vals -> length vals <= length rows ->
  nth j (write_col e vals rows) [] = upd e (nth j vals 0) (nth j rows []).
Proof.
  intros e. induction vals as [|v vals IH]; intros [|r rows] j H1 H2; simpl in *; try lia. destruct j; auto. apply IH; lia.
Qed.

Lemma flat_length : forall {A} (f : nat -> list A) d amt s, (forall j, s <= j < s + amt -> length (f j) = d) ->
  length (flat_map f (seq s amt)) = amt * d.
Proof.
  intros A f d amt. induction amt as [|n IH]; intros s H; simpl; auto.
  rewrite app_length, IH, H by (intros; try apply H; lia). reflexivity.
Qed.
Lemma nth_flat : forall {A} (f : nat -> list A) d (x : A) amt s i, (forall j, s <= j < s + amt -> length (f j) = d) ->
  i < amt * d -> nth i (flat_map f (seq s amt)) x = nth (i mod d) (f (s + i / d)) x.
Proof.
  intros A f d x amt. induction amt as [|n IH]; intros s i H Hi; simpl in *; [lia|].
  assert (Hd : 0 < d) by (destruct d; lia). destruct (Nat.lt_ge_cases i d) as [L|G].
  - rewrite app_nth1 by (rewrite H; lia). rewrite Nat.mod_small, Nat.div_small by auto. now rewrite Nat.add_0_r.
  - rewrite app_nth2 by (rewrite H; lia). rewrite H by lia. rewrite IH by (intros; try apply H; lia).
    replace i with ((i - d) + 1 * d) at 3 4 by lia. rewrite Nat.mod_add, Nat.div_add by lia.
    f_equal. f_equal. lia.
Qed.

(** What the proofs need of a selection: distinct indices, in range, as many as possible up to [k]. *)
Definition good_select (k : nat) (select : list (option R) -> list R -> list nat) : Prop :=
  forall pert joint, length pert = length joint ->
    NoDup (select pert joint) /\ length (select pert joint) = Nat.min k (length pert) /\
    Forall (fun i => i < length pert) (select pert joint).

Lemma swor_good : forall topk k, topk_fn ple topk -> good_select k (select_swor topk k).
Proof.
  intros topk k H pert joint _. unfold select_swor. destruct (H pert (Nat.min k (length pert))) as [A [B [C _]]]; [lia|].
  split; auto. split; auto. now apply Forall_forall.
Qed.

Section Steps.
Variable k : nat.
Variable select : list (option R) -> list R -> list nat.
Hypothesis Hsel : good_select k select.
Variable cond : bool.
Variable fin : option (nat * list bool).
Variables (E d n : nat).
Variable lp : nat -> nat -> list R.
Variable noise : nat -> nat -> list R.
Variable base : nat -> R.
Hypothesis Hd : 1 <= d.
Hypothesis Hlp : forall e i, length (lp e i) = d.
Hypothesis Hnoise : forall e j, length (noise e j) = d.

Definition rowf (b : beam) (j : nat) : list nat := nth j (b_rows b) [].
Definition parf (b : beam) (j : nat) : nat := match b_parent b with Some p => nth j p 0 | None => 0 end.
Definition prefix_lp (e : nat) (i : nat) (r : list nat) : R :=
  fold_right Rplus 0%R (map (fun e => nth (nth e r 0) (lp e (if cond then i else 0)) 0%R) (seq 0 e)).

(** After [e] events. *)
Record inv (e : nat) (b : beam) : Prop := mkInv {
  i_amt : b_amt b = Nat.min k (n * d ^ e);
  i_joint : exists l, b_joint b = Some l /\ length l = b_amt b /\
     forall j, j < b_amt b -> nth j l 0%R = (base (parf b j) + prefix_lp e (parf b j) (rowf b j))%R;
  i_pert : length (b_pert b) = b_amt b;
  i_rows : b_amt b <= length (b_rows b);
  i_len : forall j, j < b_amt b -> length (rowf b j) = E;
  i_dom : forall j v, j < b_amt b -> In v (firstn e (rowf b j)) -> v < d;
  i_par : match b_parent b with Some p => b_amt b <= length p /\ forall j, j < b_amt b -> nth j p 0 < n | None => n = 1 end;
  i_key : forall i j, i < b_amt b -> j < b_amt b -> parf b i = parf b j -> firstn e (rowf b i) = firstn e (rowf b j) -> i = j }.

Lemma prefix_ext : forall e i r r', firstn e r = firstn e r' -> prefix_lp e i r = prefix_lp e i r'.
Proof.
  intros e i r r' H. unfold prefix_lp. f_equal. apply map_ext_in. intros a Ha. apply in_seq in Ha.
  assert (N : nth a r 0 = nth a r' 0); [|now rewrite N].
  rewrite <- (firstn_skipn e r), <- (firstn_skipn e r'), H.
  destruct (Nat.lt_ge_cases a (length (firstn e r'))) as [L|G].
  - now rewrite !app_nth1.
  - rewrite firstn_length in G. rewrite app_nth2, app_nth2 by (rewrite firstn_length; lia).
    assert (length r' <= a) by lia. assert (length (firstn e r) = length (firstn e r')) by now rewrite H.
    rewrite !firstn_length in H1. rewrite !nth_overflow; auto; rewrite skipn_length; lia.
Qed.

Lemma prefix_snoc : forall e i r, prefix_lp (S e) i r
  = Rplus (prefix_lp e i r) (nth (nth e r 0) (lp e (if cond then i else 0)) 0%R).
Proof.
  intros e i r. unfold prefix_lp. rewrite seq_S, map_app, fold_right_app. simpl.
  set (x := nth (nth e r 0) (lp e (if cond then i else 0)) 0%R). rewrite Rplus_0_r.
  generalize (map (fun e0 : nat => nth (nth e0 r 0) (lp e0 (if cond then i else 0)) 0%R) (seq 0 e)).
  intros l. induction l as [|y l IH]; simpl; [lra|]. rewrite IH. lra.
Qed.

(** The beam before the first event of the first variable. *)
Record start (b : beam) : Prop := mkStart {
  s_joint : b_joint b = None; s_par : b_parent b = None; s_n : n = 1; s_rows : length (b_rows b) = k;
  s_len : forall r, In r (b_rows b) -> length r = E; s_base : base 0 = 0%R }.

Lemma step_first : forall b, start b -> 0 < E ->
  inv 1 (decode_step select cond fin 0 (lp 0) (noise 0) b) /\ length (b_rows (decode_step select cond fin 0 (lp 0) (noise 0) b)) = k.
Proof.
  intros b [SJ SP SN SR SL SB] HE. unfold decode_step. rewrite SJ.
  set (g := map Some (cond_gumbel 0 (noise 0 0))). set (arg := select g (lp 0 0)).
  assert (Lg : length g = d) by (unfold g; rewrite map_length, cond_length; auto).
  destruct (Hsel g (lp 0 0)) as [N [L F]]; [now rewrite Lg, Hlp|]. fold arg in N, L, F. rewrite Forall_forall in F.
  assert (La : length arg <= k) by lia.
  split; [|simpl; now rewrite write_col_length].
  assert (R : forall j, j < length arg -> nth j (write_col 0 arg (b_rows b)) [] = upd 0 (nth j arg 0) (nth j (b_rows b) [])).
  { intros j Hj. apply nth_write_col; lia. }
  assert (RL : forall j, j < length arg -> length (nth j (b_rows b) []) = E) by (intros j Hj; apply SL, nth_In; lia).
  constructor; unfold rowf, parf; cbn [b_amt b_rows b_joint b_pert b_parent]; try rewrite SP.
  - rewrite L, Lg. rewrite SN, Nat.mul_1_l, Nat.pow_1_r. reflexivity.
  - eexists; split; [reflexivity|]. split; [apply pick_length|]. intros j Hj. rewrite nth_pick by auto. rewrite R by auto.
    rewrite prefix_snoc. unfold prefix_lp; simpl. rewrite SB. destruct cond; lra.
  - apply pick_length.
  - rewrite write_col_length. lia.
  - intros j Hj. rewrite R by auto. rewrite upd_length; rewrite RL; auto.
  - intros j v Hj Hv. rewrite R in Hv by auto.  rewrite firstn_upd in Hv by (rewrite RL; auto).
    simpl in Hv. destruct Hv as [<-|[]]. rewrite <- Lg. apply F, nth_In; auto.
  - auto.
  - intros i j Hi Hj _ H. rewrite !R in H by auto.  rewrite !firstn_upd in H by (rewrite RL; auto).
    simpl in H. injection H as H. apply (NoDup_nth arg 0) in H; auto.
Qed.

Lemma step_next : forall e b, inv e b -> e < E ->
  inv (S e) (decode_step select cond fin e (lp e) (noise e) b) /\
  length (b_rows (decode_step select cond fin e (lp e) (noise e) b)) = b_amt (decode_step select cond fin e (lp e) (noise e) b).
Proof.
  intros e b [IA [l [IJ [IJL IJV]]] IP IR IL ID IPar IK] HE. unfold decode_step. rewrite IJ.
  set (par := match b_parent b with Some p => p | None => [] end).
  set (row := fun j => if cond then lp e (nth j par 0) else lp e 0).
  assert (Hrow : forall j, length (row j) = d) by (intros j; unfold row; destruct cond; auto).
  fold (row 0). set (dd := length (row 0)). assert (Edd : dd = d) by apply Hrow.
  set (all := flat_map (fun j => map (fun l0 => (nth j l 0 + l0)%R) (row j)) (seq 0 (b_amt b))).
  set (G := fun j => match fin with
                     | Some (eos, f) => if nth j f false then finished_vec eos (nth j (b_pert b) None) dd
                                        else cond_gumbel_inf (nth j (b_pert b) None) (noise e j)
                     | None => cond_gumbel_inf (nth j (b_pert b) None) (noise e j)
                     end).
  change (flat_map _ (seq 0 (b_amt b))) with (flat_map G (seq 0 (b_amt b))) at 1. 
  set (g := flat_map G (seq 0 (b_amt b))).
  assert (LC : forall T gs, length (cond_gumbel_inf T gs) = length gs).
  { intros [T|] gs; unfold cond_gumbel_inf; rewrite map_length; auto. apply cond_length. }
  assert (LG : forall j, length (G j) = d).
  { intros j. unfold G. destruct fin as [[eos f]|]; [destruct (nth j f false)|]; rewrite ?LC; auto.
    unfold finished_vec. rewrite map_length, seq_length. auto. }
  assert (Lg : length g = b_amt b * d) by (apply flat_length; auto).
  assert (Lall : length all = b_amt b * d) by (apply flat_length; intros; rewrite map_length; auto).
  set (arg := select g all). destruct (Hsel g all) as [N [L F]]; [lia|]. fold arg in N, L, F. rewrite Forall_forall in F.
  assert (Fn : forall j, j < length arg -> nth j arg 0 < b_amt b * d) by (intros j Hj; rewrite <- Lg; apply F, nth_In; auto).
  change (flat_map (fun j => map (fun l0 => (nth j l 0 + l0)%R) (if cond then lp e (nth j par 0) else lp e 0)) (seq 0 (b_amt b))) with all.
  fold arg. set (parents := map (fun i => i / dd) arg). set (vals := map (fun i => i mod dd) arg).
  assert (Lp : length parents = length arg) by (unfold parents; now rewrite map_length).
  assert (Lv : length vals = length arg) by (unfold vals; now rewrite map_length).
  assert (Np : forall j, j < length arg -> nth j parents 0 = nth j arg 0 / d).
  { intros j Hj. unfold parents. rewrite nth_indep with (d' := 0 / dd) by now rewrite map_length.
    rewrite (map_nth (fun i => i / dd)). now rewrite Edd. }
  assert (Nv : forall j, j < length arg -> nth j vals 0 = nth j arg 0 mod d).
  { intros j Hj. unfold vals. rewrite nth_indep with (d' := 0 mod dd) by now rewrite map_length.
    rewrite (map_nth (fun i => i mod dd)). now rewrite Edd. }
  assert (Pb : forall j, j < length arg -> nth j arg 0 / d < b_amt b).
  { intros j Hj. apply Nat.div_lt_upper_bound; [lia|]. rewrite Nat.mul_comm. auto. }
  assert (R : forall j, j < length arg ->
    nth j (write_col e vals (pick [] (b_rows b) parents)) [] = upd e (nth j arg 0 mod d) (rowf b (nth j arg 0 / d))).
  { intros j Hj. rewrite nth_write_col by (rewrite ?pick_length; lia). rewrite Nv, nth_pick, Np by lia. reflexivity. }
  assert (P : forall j, j < length arg ->
    match option_map (fun p => pick 0 p parents) (b_parent b) with Some p => nth j p 0 | None => 0 end = parf b (nth j arg 0 / d)).
  { intros j Hj. unfold parf. destruct (b_parent b) as [p|]; simpl; auto. rewrite nth_pick by lia. now rewrite Np. }
  split; [|simpl; rewrite write_col_length, pick_length; lia].
  constructor; unfold rowf, parf; cbn [b_amt b_rows b_joint b_pert b_parent].
  - rewrite L, Lg, IA. simpl. destruct (Nat.le_ge_cases k (n * d ^ e)) as [C|C].
    + rewrite Nat.min_l with (n := k) (m := n * d ^ e) by auto. rewrite !Nat.min_l; auto; nia.
    + rewrite Nat.min_r with (n := k) (m := n * d ^ e) by auto. f_equal. nia.
  - eexists; split; [reflexivity|]. split; [apply pick_length|]. intros j Hj. rewrite nth_pick by auto. rewrite R by auto.
    rewrite P by auto. unfold all. rewrite nth_flat with (d := d) by (auto; intros; rewrite map_length; auto).
    rewrite Nat.add_0_l. pose proof (Pb j Hj) as Pj. set (q := nth j arg 0 / d) in *. set (v := nth j arg 0 mod d).
    assert (Hv : v < d) by (apply Nat.mod_upper_bound; lia).
    rewrite nth_indep with (d' := (nth q l 0 + 0)%R) by (rewrite map_length, Hrow; auto).
    rewrite (map_nth (fun l0 => (nth q l 0 + l0)%R)). rewrite IJV by auto. rewrite prefix_snoc.
    assert (U : length (rowf b q) = E) by (apply IL; auto).
    assert (F1 : firstn e (upd e v (rowf b q)) = firstn e (rowf b q)).
    { unfold upd. rewrite firstn_app, firstn_firstn, firstn_length, Nat.min_id. replace (e - Nat.min e (length (rowf b q))) with 0 by lia.
      simpl. apply app_nil_r. }
    rewrite (prefix_ext e _ (upd e v (rowf b q)) (rowf b q)) by auto.
    assert (F2 : nth e (upd e v (rowf b q)) 0 = v).
    { unfold upd. rewrite app_nth2; rewrite firstn_length; [|lia]. replace (e - Nat.min e (length (rowf b q))) with 0 by lia. reflexivity. }
    rewrite F2. rewrite Rplus_assoc. f_equal. f_equal.
    unfold row, parf, par. destruct cond; auto. destruct (b_parent b); auto. destruct q; auto.
  - apply pick_length.
  - rewrite write_col_length, pick_length. lia.
  - intros j Hj. rewrite R by auto. rewrite upd_length; rewrite IL; auto.
  - intros j v Hj Hv. rewrite R in Hv by auto. rewrite firstn_upd in Hv by (rewrite IL; auto).
    apply in_app_or in Hv as [Hv|[<-|[]]].
    + eapply ID; eauto.
    + apply Nat.mod_upper_bound. lia.
  - destruct (b_parent b) as [p|] eqn:EP; simpl; auto. destruct IPar as [IP1 IP2]. split; [rewrite pick_length; lia|].
    intros j Hj. rewrite nth_pick by lia. rewrite Np by auto. apply IP2. auto.
  - intros i j Hi Hj HP HR. rewrite !P in HP by auto. rewrite !R in HR by auto. rewrite !firstn_upd in HR by (rewrite IL; auto).
    apply app_inj_tail in HR as [HR HV].
    assert (Q : nth i arg 0 / d = nth j arg 0 / d) by (apply IK; auto).
    apply (NoDup_nth arg 0); auto.
    rewrite (Nat.div_mod (nth i arg 0) d), (Nat.div_mod (nth j arg 0) d) by lia. now rewrite Q, HV.
Qed.

Lemma steps : forall m e b, inv e b -> e + m <= E ->
  inv (e + m) (fold_left (fun b e => decode_step select cond fin e (lp e) (noise e) b) (seq e m) b) /\
  (0 < m -> length (b_rows (fold_left (fun b e => decode_step select cond fin e (lp e) (noise e) b) (seq e m) b))
            = b_amt (fold_left (fun b e => decode_step select cond fin e (lp e) (noise e) b) (seq e m) b)).
Proof.
  induction m as [|m IH]; intros e b I H; simpl.
  - rewrite Nat.add_0_r. split; auto; lia.
  - destruct (step_next e b I) as [I' L]; [lia|]. destruct (IH (S e) _ I') as [I'' L']; [lia|].
    rewrite <- Nat.add_succ_comm. split; auto. intros _. destruct m; [exact L|apply L'; lia].
Qed.

Lemma events_first : forall b, start b -> 0 < E ->
  inv E (fold_left (fun b e => decode_step select cond fin e (lp e) (noise e) b) (seq 0 E) b) /\
  length (b_rows (fold_left (fun b e => decode_step select cond fin e (lp e) (noise e) b) (seq 0 E) b))
  = (if E =? 1 then k else b_amt (fold_left (fun b e => decode_step select cond fin e (lp e) (noise e) b) (seq 0 E) b)).
Proof.
  intros b Hs HE. destruct (step_first b Hs HE) as [I L]. replace (seq 0 E) with (0 :: seq 1 (E - 1)) by (destruct E; [lia|simpl; now rewrite Nat.sub_0_r]).
  simpl fold_left. destruct (steps (E - 1) 1 _ I) as [I' L']; [lia|]. replace (1 + (E - 1)) with E in I' by lia. split; auto.
  destruct (Nat.eqb_spec E 1) as [->|NE]; [exact L|apply L'; lia].
Qed.

Lemma events_next : forall b, inv 0 b -> 0 < E ->
  inv E (fold_left (fun b e => decode_step select cond fin e (lp e) (noise e) b) (seq 0 E) b) /\
  length (b_rows (fold_left (fun b e => decode_step select cond fin e (lp e) (noise e) b) (seq 0 E) b))
  = b_amt (fold_left (fun b e => decode_step select cond fin e (lp e) (noise e) b) (seq 0 E) b).
Proof. intros b I HE. destruct (steps E 0 b I) as [I' L]; [lia|]. split; auto. Qed.

End Steps.
