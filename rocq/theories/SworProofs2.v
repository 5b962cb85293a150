(** Sampling without replacement: whole variables and chains of variables. *)
From Coq Require Import Reals List Arith Bool Lia Lra.
From Verif Require Import Base Gumbel GumbelProofs Swor SpecSwor SworProofs.
Import ListNotations.

Lemma firstn_full : forall {A} (l : list A) n, length l = n -> firstn n l = l.
Proof. intros A l n <-. apply firstn_all. Qed.

Lemma lprod_app : forall a b, lprod (a ++ b) = lprod a * lprod b.
Proof. unfold lprod. induction a as [|x a IH]; intros b; simpl; [lia|]. rewrite IH. lia. Qed.

Lemma last_slice_all : forall ev amt rows, ev <> [] -> 1 <= lprod ev -> lprod ev <= amt ->
  (forall r, In r rows -> length r = lprod ev) -> last_slice ev amt rows = (ev, rows).
Proof.
  intros ev amt rows Hne H1 H2 HR. unfold last_slice. destruct (rev ev) as [|m r] eqn:E.
  - exfalso. apply Hne. rewrite <- (rev_involutive ev), E. reflexivity.
  - assert (Eev : ev = rev r ++ [m]) by (rewrite <- (rev_involutive ev), E; reflexivity).
    assert (Hm : m <= lprod ev /\ 1 <= m).
    { assert (EL : lprod ev = lprod (rev r) * m) by (rewrite Eev, lprod_app; unfold lprod at 2; simpl; lia).
      rewrite EL in *. destruct m; [lia|]. destruct (lprod (rev r)); [lia|]. simpl. split; lia. }
    f_equal.
    + rewrite Eev. f_equal. f_equal. lia.
    + rewrite <- (map_id rows) at 2. apply map_ext_in. intros row Hr.
      assert (F : forall l, (forall x, In x l -> x < lprod ev) -> filter (fun e => e mod m <? amt) l = l).
      { induction l as [|x l IH]; intros Hl; simpl; auto. replace (x mod m <? amt) with true.
        - f_equal. apply IH. intros; apply Hl; right; auto.
        - symmetry. apply Nat.ltb_lt. pose proof (Nat.mod_upper_bound x m). lia. }
      rewrite F by (intros x Hx; apply in_seq in Hx; lia).
      rewrite <- (HR row Hr). clear. induction row as [|a row IH]; simpl; auto. f_equal.
      rewrite <- seq_shift, map_map. exact IH.
Qed.

Lemma pow_gt : forall d e, 2 <= d -> e < d ^ e.
Proof. intros d e H. pose proof (Nat.pow_gt_lin_r d e). lia. Qed.

(** What one variable adds to [n] sequences. *)
Record drawn (k n : nat) (x : var) (d : nat) (base : nat -> R) (rows : list (list nat)) (parent : option (list nat)) (joint : list R)
  : Prop := mkDrawn {
  d_count : length rows = Nat.min k (n * d ^ lprod (v_events x));
  d_joint : length joint = length rows;
  d_lp : forall j, j < length rows ->
    nth j joint 0%R = (base (match parent with Some p => nth j p 0%nat | None => 0%nat end)
      + row_log_prob x (match parent with Some p => nth j p 0%nat | None => 0%nat end) (nth j rows []))%R;
  d_len : forall r, In r rows -> length r = lprod (v_events x);
  d_dom : forall r v, In r rows -> In v r -> v < d;
  d_par : match parent with Some p => length p = length rows /\ forall i, In i p -> i < n | None => n = 1 end;
  d_key : forall i j, i < length rows -> j < length rows ->
    match parent with Some p => nth i p 0 = nth j p 0 | None => True end -> nth i rows [] = nth j rows [] -> i = j }.

Section Vars.
Variable k : nat.
Hypothesis Hk : 1 <= k.
Variable select : list (option R) -> list R -> list nat.
Hypothesis Hsel : good_select k select.

Lemma inv_drawn : forall cond E d n lp base b x,
  1 <= E -> inv k cond E d n lp base E b -> length (b_rows b) = b_amt b ->
  cond = v_cond x -> E = lprod (v_events x) -> lp = v_lp x ->
  match b_parent b with Some p => length p = b_amt b | None => True end ->
  exists l, b_joint b = Some l /\ drawn k n x d base (b_rows b) (b_parent b) l /\ length (b_pert b) = length (b_rows b).
Proof.
  intros cond E d n lp base b x HE [IA [l [IJ [IJL IJV]]] IP IR IL ID IPar IK] HL -> -> -> HP.
  exists l. split; auto. split; [|lia]. constructor.
  - lia.
  - lia.
  - intros j Hj. rewrite HL in Hj. rewrite IJV by auto. unfold parf, rowf. f_equal. unfold prefix_lp, row_log_prob.
    specialize (IL j Hj). unfold rowf in IL. now rewrite IL.
  - intros r Hr. apply (In_nth _ _ []) in Hr as [j [Hj <-]]. apply IL. lia.
  - intros r v Hr Hv. apply (In_nth _ _ []) in Hr as [j [Hj <-]]. rewrite HL in Hj. apply (ID j v Hj).
    rewrite firstn_full; auto.
  - destruct (b_parent b) as [p|]; auto. destruct IPar as [P1 P2]. split; [lia|]. intros i Hi.
    apply (In_nth _ _ 0) in Hi as [j [Hj <-]]. apply P2. lia.
  - intros i j Hi Hj HPe HR. rewrite HL in Hi, Hj. apply IK; auto.
    + unfold parf. destruct (b_parent b); auto.
    + unfold rowf. now rewrite HR.
Qed.

Lemma parent_length : forall cond fin e yv noise b, b_joint b <> None ->
  match b_parent (decode_step select cond fin e yv noise b) with
  | Some p => length p = b_amt (decode_step select cond fin e yv noise b) /\ b_parent b <> None
  | None => b_parent b = None end.
Proof.
  intros cond fin e yv noise b H. unfold decode_step. destruct (b_joint b); [|congruence]. cbn [b_parent b_amt].
  destruct (b_parent b); cbn [option_map]; auto. split; [|discriminate]. now rewrite pick_length, map_length.
Qed.

Lemma joint_some : forall cond fin e yv noise b, b_joint (decode_step select cond fin e yv noise b) <> None.
Proof. intros. unfold decode_step. destruct (b_joint b); discriminate. Qed.

Lemma events_parent : forall cond fin lp noise m e b, b_joint b <> None -> 0 < m ->
  match b_parent (fold_left (fun b e => decode_step select cond fin e (lp e) (noise e) b) (seq e m) b) with
  | Some p => length p = b_amt (fold_left (fun b e => decode_step select cond fin e (lp e) (noise e) b) (seq e m) b) /\ b_parent b <> None
  | None => b_parent b = None end.
Proof.
  intros cond fin lp noise. induction m as [|m IH]; intros e b Hb Hm; [lia|]. cbn [seq fold_left]. destruct m as [|m].
  - apply parent_length; auto.
  - set (b1 := decode_step select cond fin e (lp e) (noise e) b). specialize (IH (S e) b1).
    assert (P1 := parent_length cond fin e (lp e) (noise e) b Hb). fold b1 in P1.
    assert (J1 : b_joint b1 <> None) by apply joint_some. specialize (IH J1 ltac:(lia)).
    destruct (b_parent (fold_left _ _ b1)) as [p|].
    + destruct IH as [L N]. split; auto. destruct (b_parent b1); [apply P1|congruence].
    + rewrite IH in P1. auto.
Qed.

Lemma events_no_parent : forall cond fin lp noise m e b, b_parent b = None ->
  b_parent (fold_left (fun b e => decode_step select cond fin e (lp e) (noise e) b) (seq e m) b) = None.
Proof.
  intros cond fin lp noise. induction m as [|m IH]; intros e b Hb; simpl; auto. apply IH. unfold decode_step.
  destruct (b_joint b); cbn [b_parent]; rewrite Hb; reflexivity.
Qed.

Lemma decode_first : forall fin x d pert, has_domain x d -> slice_ok k true x d ->
  exists b joint, decode select k fin x None pert = (v_events x, b) /\ b_joint b = Some joint /\ b_parent b = None /\
    drawn k 1 x d (fun _ => 0%R) (b_rows b) None joint /\ length (b_pert b) = length (b_rows b).
Proof.
  intros fin x d pert [Hd [HE [Hlp Hno]]] Hs. unfold decode. cbn [option_map].
  set (E := lprod (v_events x)) in *. set (b0 := mkBeam (repeat (repeat 0 E) k) None pert None 0).
  assert (S0 : start k E 1 (fun _ => 0%R) b0).
  { constructor; auto; simpl. apply repeat_length. intros r Hr. apply repeat_spec in Hr. subst. apply repeat_length. }
  destruct (events_first k select Hsel (v_cond x) fin E d 1 (v_lp x) (v_noise x) (fun _ => 0%R) Hd Hlp Hno b0 S0) as [I L]; [lia|].
  fold E in Hs. unfold decode_events. fold E.
  assert (PN : b_parent (fold_left (fun b e => decode_step select (v_cond x) fin e (v_lp x e) (v_noise x e) b) (seq 0 E) b0) = None)
    by (apply events_no_parent; reflexivity).
  set (b := fold_left _ (seq 0 E) b0) in *.
  destruct (Nat.ltb_spec (b_amt b) k) as [Lt|Ge].
  - destruct Hs as [Hs|[Hd2 Hs]].
    + rewrite Hs. cbn [last_slice rev].
      set (b' := mkBeam (firstn (b_amt b) (b_rows b)) (b_joint b) (b_pert b) (b_parent b) (b_amt b)).
      assert (Lb' : length (b_rows b') = b_amt b') by (simpl; rewrite firstn_length; pose proof (i_rows _ _ _ _ _ _ _ _ _ I); lia).
      assert (I' : inv k (v_cond x) E d 1 (v_lp x) (fun _ => 0%R) E b').
      { destruct I as [IA [l [IJ [IJL IJV]]] IP IR IL ID IPar IK].
        assert (RR : forall j, j < b_amt b -> rowf b' j = rowf b j).
        { intros j Hj. unfold rowf, b'. cbn [b_rows]. rewrite <- (firstn_skipn (b_amt b) (b_rows b)) at 2.
          rewrite app_nth1; auto. rewrite firstn_length. lia. }
        constructor; cbn [b_amt b_joint b_pert b_parent b_rows b']; auto.
        - exists l. repeat split; auto. intros j Hj. rewrite IJV by auto. rewrite RR by auto. reflexivity.
        - rewrite firstn_length. lia.
        - intros j Hj. rewrite RR by auto. auto.
        - intros j v Hj. rewrite RR by auto. now apply ID.
        - intros i j Hi Hj HP. rewrite !RR by auto. apply IK; auto. }
      destruct (inv_drawn (v_cond x) E d 1 (v_lp x) (fun _ => 0%R) b' x) as [l [J [D P]]]; auto.
      { cbn [b' b_parent]. now rewrite PN. }
      change (b_parent b') with (b_parent b) in D. rewrite PN in D.
      exists b', l. repeat (split; [solve [auto]|]). auto.
    + assert (LR : length (b_rows b) = b_amt b).
      { destruct Hs as [Hs|[Hs|Hs]]; [discriminate| |].
        - rewrite L. destruct (Nat.eqb_spec E 1); lia.
        - exfalso. rewrite (i_amt _ _ _ _ _ _ _ _ _ I), Nat.mul_1_l in Lt.
          assert (d <= d ^ E) by (rewrite <- (Nat.pow_1_r d) at 1; apply Nat.pow_le_mono_r; lia). lia. }
      assert (Lam : E < b_amt b).
      { rewrite (i_amt _ _ _ _ _ _ _ _ _ I) in *. pose proof (pow_gt d E Hd2). lia. }
      destruct (list_eq_dec Nat.eq_dec (v_events x) []) as [Ev|Ev].
      * exfalso. assert (E1 : E = 1) by (unfold E; rewrite Ev; reflexivity). rewrite E1 in *.
        destruct Hs as [Hs|[Hs|Hs]]; [discriminate|lia|].
        rewrite (i_amt _ _ _ _ _ _ _ _ _ I) in Lt. rewrite Nat.pow_1_r in Lt. lia.
      * rewrite last_slice_all.
        -- destruct (inv_drawn (v_cond x) E d 1 (v_lp x) (fun _ => 0%R) b x) as [l [J [D P]]]; auto.
           { now rewrite PN. }
           rewrite PN in D.
           eexists (mkBeam (b_rows b) (b_joint b) (b_pert b) (b_parent b) (b_amt b)), l. cbn [b_joint b_parent b_rows b_pert].
           repeat (split; [solve [auto]|]). auto.
        -- auto.
        -- exact HE.
        -- fold E. lia.
        -- intros r Hr. fold E. apply (In_nth _ _ []) in Hr as [j [Hj <-]]. apply (i_len _ _ _ _ _ _ _ _ _ I). lia.
  - assert (Ak : b_amt b = k) by (rewrite (i_amt _ _ _ _ _ _ _ _ _ I) in *; lia).
    assert (LR : length (b_rows b) = b_amt b) by (rewrite L; destruct (E =? 1); lia).
    destruct (inv_drawn (v_cond x) E d 1 (v_lp x) (fun _ => 0%R) b x) as [l [J [D P]]]; auto.
    { now rewrite PN. }
    rewrite PN in D. exists b, l. repeat (split; [solve [auto]|]). auto.
Qed.

Lemma decode_next : forall fin x d l pert, has_domain x d -> slice_ok k false x d -> 1 <= length l <= k -> length pert = length l ->
  exists b joint, decode select k fin x (Some l) pert = (v_events x, b) /\ b_joint b = Some joint /\ b_parent b <> None /\
    drawn k (length l) x d (fun i => nth i l 0%R) (b_rows b) (b_parent b) joint /\ length (b_pert b) = length (b_rows b).
Proof.
  intros fin x d l pert [Hd [HE [Hlp Hno]]] Hs Hl Hp. unfold decode. cbn [option_map].
  set (E := lprod (v_events x)) in *. set (n := length l) in *.
  set (b0 := mkBeam (repeat (repeat 0 E) k) (Some l) pert (Some (seq 0 n ++ repeat 0 (k - n))) n).
  assert (PP : forall j, j < n -> nth j (seq 0 n ++ repeat 0 (k - n)) 0 = j).
  { intros j Hj. rewrite app_nth1 by (rewrite seq_length; auto). now rewrite seq_nth. }
  assert (S0 : inv k (v_cond x) E d n (v_lp x) (fun i => nth i l 0%R) 0 b0).
  { constructor; cbn [b_amt b_joint b_pert b_parent b_rows b0].
    - simpl. lia.
    - exists l. repeat split; auto. intros j Hj. unfold parf. cbn [b_parent b0]. rewrite PP by auto. unfold prefix_lp. simpl. lra.
    - auto.
    - rewrite repeat_length. lia.
    - intros j Hj. unfold rowf. cbn [b_rows b0]. rewrite nth_indep with (d' := repeat 0 E) by (rewrite repeat_length; lia).
      rewrite nth_repeat. apply repeat_length.
    - simpl. intros j v _ [].
    - split; [rewrite app_length, seq_length, repeat_length; lia|]. intros j Hj. now rewrite PP.
    - unfold parf. cbn [b_parent b0]. intros i j Hi Hj. rewrite !PP by auto. auto. }
  destruct (events_next k select Hsel (v_cond x) fin E d n (v_lp x) (v_noise x) (fun i => nth i l 0%R) Hd Hlp Hno b0 S0) as [I L]; [lia|].
  fold E in Hs. unfold decode_events. fold E.
  assert (PL := events_parent (v_cond x) fin (v_lp x) (v_noise x) E 0 b0 ltac:(discriminate) ltac:(lia)).
  set (b := fold_left _ (seq 0 E) b0) in *.
  assert (PN : b_parent b <> None) by (intros PN; rewrite PN in PL; discriminate).
  assert (PE : match b_parent b with Some p => length p = b_amt b | None => True end) by (destruct (b_parent b); [apply PL|auto]).
  destruct (inv_drawn (v_cond x) E d n (v_lp x) (fun i => nth i l 0%R) b x) as [l' [J [D P]]]; auto.
  destruct (Nat.ltb_spec (b_amt b) k) as [Lt|Ge]; [|exists b, l'; auto].
  assert (LS : last_slice (v_events x) (b_amt b) (b_rows b) = (v_events x, b_rows b)).
  { destruct Hs as [Hs|[Hd2 Hs]].
    - rewrite Hs. cbn [last_slice rev]. f_equal. apply firstn_full. auto.
    - destruct (list_eq_dec Nat.eq_dec (v_events x) []) as [Ev|Ev].
      + rewrite Ev. cbn [last_slice rev]. f_equal. apply firstn_full. auto.
      + rewrite last_slice_all; auto.
        * fold E. rewrite (i_amt _ _ _ _ _ _ _ _ _ I) in *. pose proof (pow_gt d E Hd2). nia.
        * intros r Hr. apply (d_len _ _ _ _ _ _ _ _ D). auto. }
  rewrite LS. eexists (mkBeam (b_rows b) (b_joint b) (b_pert b) (b_parent b) (b_amt b)), l'. cbn [b_joint b_parent b_rows b_pert]. auto.
Qed.

End Vars.
