(** Two selections that agree on lists shorter than [k] give the same samples if there are fewer than [k] outcomes. *)
From Coq Require Import Reals List Arith Bool Lia Lra.
From Verif Require Import Base Gumbel GumbelProofs Swor SpecSwor SworProofs SworProofs2 SworProofs3 SworTotal.
Import ListNotations.

Lemma inf_length : forall T gs, length (cond_gumbel_inf T gs) = length gs.
Proof. intros [T|] gs; unfold cond_gumbel_inf; rewrite map_length; auto. apply cond_length. Qed.

Section Agree.
Variable k : nat.
Hypothesis Hk : 1 <= k.
Variables s1 s2 : list (option R) -> list R -> list nat.
Hypothesis Hsel : good_select k s2.
Hypothesis Hagree : forall g j, length g = length j -> length g < k -> s1 g j = s2 g j.

Lemma step_agree : forall cond fin E d n lp noise base, 1 <= d -> (forall e i, length (lp e i) = d) -> (forall e j, length (noise e j) = d) ->
  forall e b, (inv k cond E d n lp base e b \/ b_joint b = None /\ n = 1 /\ e = 0) -> n * d ^ S e < k ->
  decode_step s1 cond fin e (lp e) (noise e) b = decode_step s2 cond fin e (lp e) (noise e) b.
Proof.
  intros cond fin E d n lp noise base Hd Hlp Hno e b H Hk'. unfold decode_step. destruct H as [I|[HJ [-> ->]]].
  - destruct I as [IA [l [IJ [IJL IJV]]] IP IR IL ID IPar IK]. rewrite IJ.
    set (par := match b_parent b with Some p => p | None => [] end).
    set (row := fun j => if cond then lp e (nth j par 0) else lp e 0).
    assert (Hrow : forall j, length (row j) = d) by (intros j; unfold row; destruct cond; auto).
    set (all := flat_map (fun j => map (fun l0 => (nth j l 0 + l0)%R) (row j)) (seq 0 (b_amt b))).
    set (G := fun j => match fin with
                     | Some (eos, f) => if nth j f false then finished_vec eos (nth j (b_pert b) None) (length (row 0))
                                        else cond_gumbel_inf (nth j (b_pert b) None) (noise e j)
                     | None => cond_gumbel_inf (nth j (b_pert b) None) (noise e j)
                     end).
    set (g := flat_map G (seq 0 (b_amt b))).
    assert (Lall : length all = b_amt b * d).
    { apply flat_length. intros. rewrite map_length. auto. }
    assert (Lg : length g = b_amt b * d).
    { apply flat_length. intros j _. unfold G. destruct fin as [[eos f]|]; [destruct (nth j f false)|]; rewrite ?inf_length; auto.
      unfold finished_vec. rewrite map_length, seq_length. auto. }
    assert (Lt : length g < k).
    { rewrite Lg, IA. simpl in Hk'. assert (Nat.min k (n * d ^ e) <= n * d ^ e) by lia. nia. }
    change (s1 _ _) with (s1 g all). change (s2 _ _) with (s2 g all). rewrite Hagree by lia. reflexivity.
  - rewrite HJ. rewrite Hagree; auto.
    + rewrite map_length, cond_length, Hno, Hlp. reflexivity.
    + rewrite map_length, cond_length, Hno. simpl in Hk'. lia.
Qed.

Lemma fold_agree : forall cond fin E d n lp noise base, 1 <= d -> (forall e i, length (lp e i) = d) -> (forall e j, length (noise e j) = d) ->
  n * d ^ E < k -> forall m e b, inv k cond E d n lp base e b -> e + m <= E ->
  fold_left (fun b e => decode_step s1 cond fin e (lp e) (noise e) b) (seq e m) b
  = fold_left (fun b e => decode_step s2 cond fin e (lp e) (noise e) b) (seq e m) b.
Proof.
  intros cond fin E d n lp noise base Hd Hlp Hno HkE. induction m as [|m IH]; intros e b I H; simpl; auto.
  assert (n * d ^ S e < k).
  { assert (d ^ S e <= d ^ E) by (apply Nat.pow_le_mono_r; lia). nia. }
  rewrite (step_agree cond fin E d n lp noise base); auto. apply IH; [|lia].
  destruct (step_next k s2 Hsel cond fin E d n lp noise base Hd Hlp Hno e b I) as [I' _]; [lia|auto].
Qed.

Lemma decode_first_agree : forall fin x d pert, has_domain x d -> d ^ lprod (v_events x) < k ->
  decode s1 k fin x None pert = decode s2 k fin x None pert.
Proof.
  intros fin x d pert [Hd [HE [Hlp Hno]]] Hk'. unfold decode, decode_events. cbn [option_map].
  set (E := lprod (v_events x)) in *. set (b0 := mkBeam (repeat (repeat 0 E) k) None pert None 0).
  assert (S0 : start k E 1 (fun _ => 0%R) b0).
  { constructor; auto; simpl. apply repeat_length. intros r Hr. apply repeat_spec in Hr. subst. apply repeat_length. }
  assert (EQ : fold_left (fun b e => decode_step s1 (v_cond x) fin e (v_lp x e) (v_noise x e) b) (seq 0 E) b0
             = fold_left (fun b e => decode_step s2 (v_cond x) fin e (v_lp x e) (v_noise x e) b) (seq 0 E) b0).
  { destruct E as [|E'] eqn:EE; [reflexivity|]. rewrite <- EE in *. replace (seq 0 (S E')) with (0 :: seq 1 E') by reflexivity.
    replace (seq 0 E) with (0 :: seq 1 E') by (rewrite EE; reflexivity). cbn [fold_left].
    destruct (step_first k s2 Hsel (v_cond x) fin E d 1 (v_lp x) (v_noise x) (fun _ => 0%R) Hd Hlp Hno b0 S0) as [I _]; [lia|].
    rewrite (step_agree (v_cond x) fin E d 1 (v_lp x) (v_noise x) (fun _ => 0%R)); auto.
    - apply fold_agree with (E := E) (d := d) (n := 1) (base := fun _ => 0%R); auto; lia.
    - assert (d ^ 1 <= d ^ E) by (apply Nat.pow_le_mono_r; lia). lia. }
  rewrite EQ. reflexivity.
Qed.

Lemma start_inv : forall x d (l : list R) pert, has_domain x d -> 1 <= length l <= k -> length pert = length l ->
  inv k (v_cond x) (lprod (v_events x)) d (length l) (v_lp x) (fun i => nth i l 0%R) 0
    (mkBeam (repeat (repeat 0 (lprod (v_events x))) k) (Some l) pert (Some (seq 0 (length l) ++ repeat 0 (k - length l))) (length l)).
Proof.
  intros x d l pert _ Hl Hp. set (n := length l) in *. set (E := lprod (v_events x)).
  assert (PP : forall j, j < n -> nth j (seq 0 n ++ repeat 0 (k - n)) 0 = j).
  { intros j Hj. rewrite app_nth1 by (rewrite seq_length; auto). now rewrite seq_nth. }
  constructor; cbn [b_amt b_joint b_pert b_parent b_rows].
  - simpl. lia.
  - exists l. repeat split; auto. intros j Hj. unfold parf. cbn [b_parent]. rewrite PP by auto. unfold prefix_lp. simpl. lra.
  - auto.
  - rewrite repeat_length. lia.
  - intros j Hj. unfold rowf. cbn [b_rows]. rewrite nth_indep with (d' := repeat 0 E) by (rewrite repeat_length; lia).
    rewrite nth_repeat. apply repeat_length.
  - simpl. intros j v _ [].
  - split; [rewrite app_length, seq_length, repeat_length; lia|]. intros j Hj. now rewrite PP.
  - unfold parf. cbn [b_parent]. intros i j Hi Hj. rewrite !PP by auto. auto.
Qed.

Lemma decode_next_agree : forall fin x d l pert, has_domain x d -> 1 <= length l <= k -> length pert = length l ->
  length l * d ^ lprod (v_events x) < k ->
  decode s1 k fin x (Some l) pert = decode s2 k fin x (Some l) pert.
Proof.
  intros fin x d l pert HD Hl Hp Hk'. pose proof (start_inv x d l pert HD Hl Hp) as S0. destruct HD as [Hd [HE [Hlp Hno]]].
  unfold decode, decode_events. cbn [option_map].
  rewrite (fold_agree (v_cond x) fin (lprod (v_events x)) d (length l) (v_lp x) (v_noise x) (fun i => nth i l 0%R)); auto.
Qed.

Lemma sample_agree_next : forall eos xs ds, Forall2 has_domain xs ds -> Forall2 (slice_ok k false) xs ds -> Forall (eos_ok eos) xs ->
  forall s l, 1 <= length l -> length l * outcomes xs ds < k -> ss_joint s = Some l -> length (ss_pert s) = length l -> fin_ok eos s ->
  sample_vars s1 k eos xs s = sample_vars s2 k eos xs s.
Proof.
  intros eos. induction xs as [|x xs IH]; intros ds HD HS HEos s l Hge Hk' HJ HP HF; auto.
  inversion HD as [|? d ? ds' Dx Dxs]; subst. inversion HS as [|? ? ? ? Sx Sxs]; subst.
  apply Forall_cons_iff in HEos as [Ex Exs].
  pose proof (outcomes_pos _ _ Dxs) as OP.
  assert (Dpow : 1 <= d ^ lprod (v_events x)) by (apply pow_pos; apply Dx).
  unfold outcomes in Hk'. cbn [combine fold_right fst snd] in Hk'. fold (outcomes xs ds') in Hk'.
  assert (K1 : length l * d ^ lprod (v_events x) < k) by nia. assert (K2 : length l <= k) by nia.
  cbn [sample_vars]. unfold sample_var. destruct (fin_compute eos s HF) as [fin EF]. rewrite EF, HJ. cbn [bind].
  rewrite (decode_next_agree fin x d l (ss_pert s)) by (auto; lia).
  destruct (decode_next k Hk s2 Hsel fin x d l (ss_pert s)) as [b [joint [E [BJ [BP [D P]]]]]]; auto; try lia.
  rewrite E, BJ. rewrite (d_joint _ _ _ _ _ _ _ _ D), Nat.eqb_refl, andb_false_r. cbn [bind].
  pose proof (d_count _ _ _ _ _ _ _ _ D) as CN. rewrite Nat.min_r in CN by lia.
  erewrite IH with (l := joint); eauto.
  - rewrite (d_joint _ _ _ _ _ _ _ _ D), CN. nia.
  - rewrite (d_joint _ _ _ _ _ _ _ _ D), CN. nia.
  - cbn [ss_pert]. now rewrite P, (d_joint _ _ _ _ _ _ _ _ D).
  - now apply fin_next.
Qed.

Lemma sample_agree : forall eos x xs d ds, Forall2 has_domain (x :: xs) (d :: ds) -> slice_ok k true x d ->
  Forall2 (slice_ok k false) xs ds -> Forall (eos_ok eos) (x :: xs) -> outcomes (x :: xs) (d :: ds) < k ->
  sample_vars s1 k eos (x :: xs) sstart = sample_vars s2 k eos (x :: xs) sstart.
Proof.
  intros eos x xs d ds HD Sx Sxs HEos Hk'. inversion HD as [|? ? ? ? Dx Dxs]; subst.
  apply Forall_cons_iff in HEos as [Ex Exs].
  pose proof (outcomes_pos _ _ Dxs) as OP.
  assert (Dpow : 1 <= d ^ lprod (v_events x)) by (apply pow_pos; apply Dx).
  unfold outcomes in Hk'. cbn [combine fold_right fst snd] in Hk'. fold (outcomes xs ds) in Hk'.
  cbn [sample_vars]. unfold sample_var. cbn [ss_fin ss_joint ss_pert sstart bind].
  rewrite (decode_first_agree None x d []) by (auto; nia).
  destruct (decode_first k Hk s2 Hsel None x d [] Dx Sx) as [b [joint [E [BJ [BP [D P]]]]]].
  rewrite E, BJ. rewrite (d_joint _ _ _ _ _ _ _ _ D), Nat.eqb_refl, andb_false_r. cbn [bind].
  pose proof (d_count _ _ _ _ _ _ _ _ D) as CN. rewrite Nat.min_r in CN by nia.
  erewrite sample_agree_next with (l := joint); eauto.
  - rewrite (d_joint _ _ _ _ _ _ _ _ D), CN. lia.
  - rewrite (d_joint _ _ _ _ _ _ _ _ D), CN. lia.
  - cbn [ss_pert]. now rewrite P, (d_joint _ _ _ _ _ _ _ _ D).
  - apply (fin_next eos x sstart); auto. exact I.
Qed.

End Agree.

(** RaoBlackwellizedSample selects everything when there are fewer than [k] options. *)
Definition all_of (k : nat) (select : list (option R) -> list R -> list nat) (g : list (option R)) (j : list R) : list nat :=
  if length g <? k then select g j else seq 0 (Nat.min k (length g)).

Lemma rb_all_good : forall topk_prob argmax k, topk_fn Rle topk_prob -> good_select k (all_of k (select_rb topk_prob argmax k)).
Proof.
  intros tp am k H g j HL. unfold all_of. destruct (Nat.ltb_spec (length g) k) as [Lt|Ge].
  - unfold select_rb. replace (Nat.min k (length g)) with (length g) by lia.
    destruct (Nat.eqb_spec (length g) k); [lia|]. replace (Nat.min (k - 1) (length g)) with (length g) by lia.
    destruct (H j (length g)) as [A [B [C _]]]; [lia|]. split; auto. split; auto. apply Forall_forall. intros i Hi. specialize (C i Hi). lia.
  - rewrite seq_length. split; [apply seq_NoDup|]. split; auto. apply Forall_forall. intros i Hi. apply in_seq in Hi. lia.
Qed.

Lemma rb_total : forall topk_prob argmax k, topk_fn Rle topk_prob -> 1 <= k ->
  forall eos x xs d ds, Forall2 has_domain (x :: xs) (d :: ds) -> slice_ok k true x d ->
  Forall2 (slice_ok k false) xs ds -> Forall (eos_ok eos) (x :: xs) -> Forall normalised (x :: xs) ->
  outcomes (x :: xs) (d :: ds) < k ->
  exists outs s l, sample_vars (select_rb topk_prob argmax k) k eos (x :: xs) sstart = Ok (outs, s) /\
    ss_joint s = Some l /\ length l = outcomes (x :: xs) (d :: ds) /\ total (map exp l) = 1%R.
Proof.
  intros tp am k H Hk eos x xs d ds HD Sx Sxs HE HN Hlt.
  pose proof (rb_all_good tp am k H) as G.
  destruct (chain_all k Hk _ G eos x xs d ds HD Sx Sxs HE) as [outs [s [ER [_ [_ [HL [_ [HJ HLL]]]]]]]].
  destruct (total_all k Hk _ G eos x xs d ds HD Sx Sxs HE HN) with (outs := outs) (s := s) as [l [E1 E2]]; auto; [lia|].
  exists outs, s, l. rewrite (sample_agree k Hk (select_rb tp am k) (all_of k (select_rb tp am k)) G) with (d := d) (ds := ds); auto.
  - repeat split; auto. rewrite HJ in E1. injection E1 as <-. rewrite HLL, HL. lia.
  - intros g j _ Hg. unfold all_of. destruct (Nat.ltb_spec (length g) k); auto; lia.
Qed.
