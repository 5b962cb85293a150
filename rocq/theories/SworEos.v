(** Sampling without replacement with an eos token. *)
From Coq Require Import Reals List Arith Bool Lia Lra.
From Verif Require Import Base Gumbel GumbelProofs Swor SpecSwor SworProofs SworProofs2 SworProofs3 SworTotal SworAgree.
Import ListNotations.

Definition opts (fin : option (nat * list bool)) (x : var) (d : nat) (pert : list (option R)) (j : nat) : list (option R) :=
  match fin with
  | Some (eos, f) => if nth j f false then finished_vec eos (nth j pert None) d else cond_gumbel_inf (nth j pert None) (v_noise x 0 j)
  | None => cond_gumbel_inf (nth j pert None) (v_noise x 0 j)
  end.

Lemma opts_length : forall fin x d pert j, has_domain x d -> length (opts fin x d pert j) = d.
Proof.
  intros fin x d pert j [Hd [HE [Hlp Hno]]]. unfold opts. destruct fin as [[eos f]|]; [destruct (nth j f false)|]; rewrite ?inf_length; auto.
  unfold finished_vec. now rewrite map_length, seq_length.
Qed.

Section Single.
Variable k : nat.
Hypothesis Hk : 1 <= k.
Variable select : list (option R) -> list R -> list nat.
Hypothesis Hsel : good_select k select.

Lemma decode_single : forall fin x d l pert, v_events x = [] -> has_domain x d -> 1 <= length l <= k -> length pert = length l ->
  exists all b, let g := flat_map (opts fin x d pert) (seq 0 (length l)) in
    length all = length g /\ decode select k fin x (Some l) pert = ([], b) /\
    b_rows b = map (fun i => [i mod d]) (select g all) /\ b_parent b = Some (map (fun i => i / d) (select g all)) /\
    b_pert b = pick None g (select g all).
Proof.
  intros fin x d l pert Hev Dx Hl Hp. pose proof Dx as [Hd [HE [Hlp Hno]]]. unfold decode, decode_events. rewrite Hev. cbn [option_map].
  change (lprod []) with 1. cbn [seq fold_left repeat].
  set (b0 := mkBeam (repeat [0] k) (Some l) pert (Some (seq 0 (length l) ++ repeat 0 (k - length l))) (length l)).
  unfold decode_step. cbn [b_joint b_parent b_amt b_pert b_rows b0].
  set (row := fun j => if v_cond x then v_lp x 0 (nth j (seq 0 (length l) ++ repeat 0 (k - length l)) 0) else v_lp x 0 0).
  assert (Hrow : forall j, length (row j) = d) by (intros j; unfold row; destruct (v_cond x); auto).
  set (all := flat_map (fun j => map (fun l0 => (nth j l 0 + l0)%R) (row j)) (seq 0 (length l))).
  assert (EO : forall j, match fin with
       | Some (eos, f) => if nth j f false then finished_vec eos (nth j pert None) (length (row 0))
                          else cond_gumbel_inf (nth j pert None) (v_noise x 0 j)
       | None => cond_gumbel_inf (nth j pert None) (v_noise x 0 j) end = opts fin x d pert j).
  { intros j. unfold opts. rewrite Hrow. reflexivity. }
  exists all.
  set (g := flat_map (opts fin x d pert) (seq 0 (length l))).
  assert (EG : flat_map (fun j => match fin with
       | Some (eos, f) => if nth j f false then finished_vec eos (nth j pert None) (length (row 0))
                          else cond_gumbel_inf (nth j pert None) (v_noise x 0 j)
       | None => cond_gumbel_inf (nth j pert None) (v_noise x 0 j) end) (seq 0 (length l)) = g).
  { unfold g. rewrite !flat_map_concat_map. f_equal. apply map_ext. auto. }
  cbv zeta. fold (row 0).
  match goal with |- context[select ?G ?A] => change (select G A) with (select (flat_map (fun j => match fin with
       | Some (eos, f) => if nth j f false then finished_vec eos (nth j pert None) (length (row 0))
                          else cond_gumbel_inf (nth j pert None) (v_noise x 0 j)
       | None => cond_gumbel_inf (nth j pert None) (v_noise x 0 j) end) (seq 0 (length l))) all) end.
  match goal with |- context[pick None ?G _] => change G with (flat_map (fun j => match fin with
       | Some (eos, f) => if nth j f false then finished_vec eos (nth j pert None) (length (row 0))
                          else cond_gumbel_inf (nth j pert None) (v_noise x 0 j)
       | None => cond_gumbel_inf (nth j pert None) (v_noise x 0 j) end) (seq 0 (length l))) end.
  rewrite EG. rewrite (Hrow 0). set (arg := select g all).
  assert (Lg : length g = length l * d) by (apply flat_length; intros; apply opts_length; auto).
  assert (Lall : length all = length l * d) by (apply flat_length; intros; rewrite map_length; auto).
  destruct (Hsel g all) as [N [L F]]; [lia|]. fold arg in N, L, F. rewrite Forall_forall in F.
  assert (Pb : forall i, In i arg -> i / d < length l).
  { intros i Hi. apply Nat.div_lt_upper_bound; [lia|]. specialize (F i Hi). lia. }
  assert (ER : write_col 0 (map (fun i => i mod d) arg) (pick [] (repeat [0] k) (map (fun i => i / d) arg)) = map (fun i => [i mod d]) arg).
  { assert (GR : forall a, (forall i, In i a -> i / d < length l) ->
      write_col 0 (map (fun i => i mod d) a) (pick [] (repeat [0] k) (map (fun i => i / d) a)) = map (fun i => [i mod d]) a).
    { induction a as [|i a IH]; intros Ha; simpl; auto. f_equal.
      - rewrite nth_indep with (d' := [0]) by (rewrite repeat_length; specialize (Ha i (or_introl eq_refl)); lia). rewrite nth_repeat. reflexivity.
      - apply IH. intros; apply Ha; right; auto. }
    apply GR; auto. }
  assert (EP : pick 0 (seq 0 (length l) ++ repeat 0 (k - length l)) (map (fun i => i / d) arg) = map (fun i => i / d) arg).
  { unfold pick. rewrite map_map. apply map_ext_in. intros i Hi. specialize (Pb i Hi). rewrite app_nth1 by (rewrite seq_length; auto). now rewrite seq_nth. }
  rewrite ER. change (option_map (fun p => pick 0 p (map (fun i => i / d) arg)) (Some (seq 0 (length l) ++ repeat 0 (k - length l))))
    with (Some (pick 0 (seq 0 (length l) ++ repeat 0 (k - length l)) (map (fun i => i / d) arg))). rewrite EP. cbn [b_amt b_rows].
  destruct (length arg <? k).
  - cbn [last_slice rev]. rewrite firstn_full by (now rewrite map_length). eexists. split; [lia|]. repeat split.
  - eexists. split; [lia|]. repeat split.
Qed.

End Single.

Lemma filter_flat : forall {A B} (p : B -> bool) (f : A -> list B) l,
  length (filter p (flat_map f l)) = fold_right Nat.add 0 (map (fun a => length (filter p (f a))) l).
Proof. intros A B p f l. induction l as [|a l IH]; simpl; auto. rewrite filter_app, app_length, IH. reflexivity. Qed.

Definition fin_b (o : option R) : bool := match o with Some _ => true | None => false end.

Lemma finished_count : forall eos T d s, length (filter fin_b (map (fun i => if i =? eos then Some T else None) (seq s d)))
  = if (s <=? eos) && (eos <? s + d) then 1 else 0.
Proof.
  intros eos T d. induction d as [|d IH]; intros s; simpl.
  - destruct (s <=? eos) eqn:A; auto. destruct (Nat.ltb_spec eos (s + 0)); auto. apply Nat.leb_le in A. lia.
  - destruct (Nat.eqb_spec s eos) as [->|NE]; simpl.
    + rewrite IH. rewrite Nat.leb_refl. destruct (Nat.leb_spec (S eos) eos); [lia|]. destruct (Nat.ltb_spec eos (eos + S d)); [auto|lia].
    + rewrite IH. destruct (Nat.leb_spec (S s) eos), (Nat.leb_spec s eos), (Nat.ltb_spec eos (S s + d)), (Nat.ltb_spec eos (s + S d)); simpl; auto; lia.
Qed.

Lemma filter_all : forall {A} (p : A -> bool) l, (forall a, In a l -> p a = true) -> filter p l = l.
Proof. intros A p l. induction l as [|a l IH]; intros H; simpl; auto. rewrite H by (left; auto). f_equal. apply IH. intros; apply H; right; auto. Qed.
Lemma filter_none : forall {A} (p : A -> bool) l, (forall a, In a l -> p a = false) -> filter p l = [].
Proof. intros A p l. induction l as [|a l IH]; intros H; simpl; auto. rewrite H by (left; auto). apply IH. intros; apply H; right; auto. Qed.

Lemma count_opts : forall eos f x d pert n, has_domain x d -> eos < d -> length pert = n ->
  length (filter fin_b (flat_map (opts (Some (eos, f)) x d pert) (seq 0 n))) = finite_options d pert f.
Proof.
  intros eos f x d pert n Dx He <-. rewrite filter_flat. unfold finite_options. f_equal. apply map_ext. intros j.
  pose proof (opts_length (Some (eos, f)) x d pert j Dx) as OL. unfold opts in *. destruct (nth j f false).
  - unfold finished_vec in *. destruct (nth j pert None) as [T|].
    + rewrite finished_count. replace (eos <? 0 + d) with true by (symmetry; apply Nat.ltb_lt; lia). reflexivity.
    + rewrite filter_none; auto. intros a Ha. apply in_map_iff in Ha as [i [<- _]]. destruct (i =? eos); reflexivity.
  - destruct (nth j pert None) as [T|]; unfold cond_gumbel_inf in *.
    + rewrite filter_all; auto. intros a Ha. apply in_map_iff in Ha as [i [<- _]]. reflexivity.
    + rewrite filter_none; auto. intros a Ha. apply in_map_iff in Ha as [i [<- _]]. reflexivity.
Qed.

Lemma filter_nth : forall g, length (filter (fun i => fin_b (nth i g None)) (seq 0 (length g))) = length (filter fin_b g).
Proof.
  induction g as [|a g IH]; auto.
  assert (E : length (filter (fun i => fin_b (nth i (a :: g) None)) (seq 1 (length g))) = length (filter fin_b g)).
  { rewrite <- IH, <- seq_shift. clear. induction (seq 0 (length g)) as [|i l IHl]; simpl; auto. destruct (fin_b (nth i g None)); simpl; auto. }
  change (length (a :: g)) with (S (length g)). change (seq 0 (S (length g))) with (0 :: seq 1 (length g)). cbn [filter].
  change (nth 0 (a :: g) None) with a. destruct (fin_b a); cbn [length]; now rewrite E.
Qed.

Lemma topk_finite : forall g m idx, is_topk ple g m idx -> m <= length (filter fin_b g) ->
  forall i, In i idx -> nth i g None <> None.
Proof.
  intros g m idx [ND [L [R [Top _]]]] Hm i Hi Hn.
  set (S := filter (fun i => fin_b (nth i g None)) (seq 0 (length g))).
  assert (NS : NoDup (i :: S)).
  { constructor.
    - unfold S. rewrite filter_In. rewrite Hn. simpl. intuition discriminate.
    - apply NoDup_filter, seq_NoDup. }
  assert (incl (i :: S) idx).
  { intros j [<-|Hj]; auto. unfold S in Hj. apply filter_In in Hj as [Hj Fj]. apply in_seq in Hj.
    destruct (in_dec Nat.eq_dec j idx) as [|NI]; auto. exfalso.
    assert (E1 : nth_error g i = Some None) by (rewrite (nth_error_nth' g None) by auto; now rewrite Hn).
    assert (E2 : nth_error g j = Some (nth j g None)) by (apply nth_error_nth'; lia).
    specialize (Top i j _ _ Hi NI E1 E2). destruct (nth j g None); simpl in *; [contradiction|discriminate]. }
  apply NoDup_incl_length in H; auto. simpl in H. unfold S in H. rewrite filter_nth in H. lia.
Qed.

Lemma eos_step : forall topk, topk_fn ple topk -> forall k t x d l pert f,
  v_events x = [] -> has_domain x d -> S t < d -> length pert = length l -> 1 <= length l <= k -> 
  exists rows parent joint pert', 
    sample_var (select_swor topk k) k (Some (S t)) x (mkSState (Some l) pert (Some ([], map (fun b => [b]) f)))
      = Ok (rows, Some parent, mkSState (Some joint) pert' (Some ([], map (map (Nat.eqb (S t))) rows))) /\
    length rows = Nat.min k (length l * d) /\
    forall j, j < length rows ->
      nth j parent 0 < length l /\ (exists v, nth j rows [] = [v] /\ v < d) /\
      nth j joint 0%R = Rplus (nth (nth j parent 0) l 0%R)
        (nth (nth 0 (nth j rows []) 0) (v_lp x 0 (if v_cond x then nth j parent 0 else 0)) 0%R) /\
      (nth (nth j parent 0) f false = true -> nth j pert' None <> None -> 
         nth j rows [] = [S t] /\ nth j pert' None = nth (nth j parent 0) pert None) /\
      (k <= finite_options d pert f -> nth j pert' None <> None).
Proof.
  intros topk Htop k t x d l pert f Hev Dx Ht Hp Hl. assert (Hk : 1 <= k) by lia. pose proof (swor_good topk k Htop) as G.
  set (fin := Some (S t, f)).
  destruct (decode_single k Hk _ G fin x d l pert Hev Dx Hl Hp) as [all [b [LA [E [ER [EP EB]]]]]].
  destruct (decode_next k Hk _ G fin x d l pert Dx) as [b' [joint [E' [BJ [BP [D P]]]]]]; auto; [left; auto|].
  rewrite E' in E. injection E as Ev ->. set (g := flat_map (opts fin x d pert) (seq 0 (length l))) in *.
  set (arg := select_swor topk k g all) in *.
  exists (b_rows b), (map (fun i => i / d) arg), joint, (b_pert b). split; [|split].
  - unfold sample_var. cbn [ss_fin ss_joint ss_pert bind]. rewrite map_map. cbn [nth]. rewrite map_id. fold fin. rewrite E', BJ.
    rewrite (d_joint _ _ _ _ _ _ _ _ D), Nat.eqb_refl, andb_false_r. rewrite Hev, EP. reflexivity.
  - rewrite (d_count _ _ _ _ _ _ _ _ D), Hev. simpl. f_equal. lia.
  - pose proof Dx as [Hd [HE [Hlp Hno]]]. intros j Hj.
    assert (Ha : j < length arg) by (rewrite ER, map_length in Hj; auto).
    assert (Nr : nth j (b_rows b) [] = [nth j arg 0 mod d]).
    { rewrite ER. rewrite nth_indep with (d' := (fun i => [i mod d]) 0) by (now rewrite map_length). now rewrite (map_nth (fun i => [i mod d])). }
    assert (Np : nth j (map (fun i => i / d) arg) 0 = nth j arg 0 / d).
    { rewrite nth_indep with (d' := 0 / d) by (now rewrite map_length). now rewrite (map_nth (fun i => i / d)). }
    assert (Lg : length g = length l * d) by (apply flat_length; intros; apply opts_length; auto).
    destruct (G g all) as [N [L F]]; [lia|]. fold arg in N, L, F. rewrite Forall_forall in F.
    assert (Ain : nth j arg 0 < length g) by (apply F, nth_In; auto).
    assert (Hq : nth j arg 0 / d < length l) by (apply Nat.div_lt_upper_bound; [lia|]; nia).
    assert (Hv : nth j arg 0 mod d < d) by (apply Nat.mod_upper_bound; lia).
    assert (NB : nth j (b_pert b) None = nth (nth j arg 0 mod d) (opts fin x d pert (nth j arg 0 / d)) None).
    { rewrite EB, nth_pick by auto. unfold g. rewrite nth_flat with (d := d); auto. - intros; apply opts_length; auto. - lia. }
    rewrite Np, Nr. split; auto. split; [eauto|]. split.
    + rewrite (d_lp _ _ _ _ _ _ _ _ D) by auto. rewrite EP, Np, Nr. unfold row_log_prob. simpl. f_equal. apply Rplus_0_r.
    + split.
      * intros Hf Hn. rewrite NB in *. unfold opts, fin in *. rewrite Hf in *. unfold finished_vec in *.
        rewrite nth_map_seq in * by auto. destruct (Nat.eqb_spec (nth j arg 0 mod d) (S t)) as [->|]; [auto|congruence].
      * intros Hfo. rewrite EB, nth_pick by auto. eapply topk_finite with (idx := arg) (m := Nat.min k (length g)).
        -- unfold arg, select_swor. apply Htop. lia.
        -- unfold g, fin. rewrite count_opts; auto. lia.
        -- apply nth_In; auto.
Qed.

(** eos = 0 does nothing. *)
Lemma eos_zero : forall select k xs s, ss_fin s = None -> sample_vars select k (Some 0) xs s = sample_vars select k None xs s.
Proof.
  intros select k. induction xs as [|x xs IH]; intros s Hs; auto. cbn [sample_vars]. unfold sample_var. rewrite Hs. cbn [bind].
  destruct (decode select k None x (ss_joint s) (ss_pert s)) as [ev b]. destruct (negb _ && negb _); auto. cbn [bind].
  rewrite IH by auto. reflexivity.
Qed.

(** With event dimensions the second variable raises IndexError. *)
Lemma decode_events_shape : forall select k fin x joint pert, v_events x <> [] -> fst (decode select k fin x joint pert) <> [].
Proof.
  intros select k fin x joint pert H. unfold decode. destruct (_ <? k).
  - unfold last_slice. destruct (rev (v_events x)) as [|m r] eqn:E.
    + exfalso. apply H. rewrite <- (rev_involutive (v_events x)), E. reflexivity.
    + simpl. destruct (rev r); discriminate.
  - exact H.
Qed.

Lemma eos_events : forall select k t x y s s' rows p, v_events x <> [] ->
  sample_var select k (Some (S t)) x s = Ok (rows, p, s') -> sample_var select k (Some (S t)) y s' = Err IndexError.
Proof.
  intros select k t x y s s' rows p Hne E. unfold sample_var in E.
  destruct (match ss_fin s with Some _ => _ | None => _ end) as [fin|]; [|discriminate]. cbn [bind] in E.
  pose proof (decode_events_shape select k fin x (ss_joint s) (ss_pert s) Hne) as Hd.
  destruct (decode select k fin x (ss_joint s) (ss_pert s)) as [ev b]. cbn [fst] in Hd.
  destruct (negb _ && negb _); [discriminate|]. injection E as <- <- <-. unfold sample_var. cbn [ss_fin bind].
  destruct ev; [congruence|]. reflexivity.
Qed.

(** One event with an event dimension and fewer than [k] options. *)
Lemma one_event : forall select k eos x d, good_select k select -> v_events x = [1] -> has_domain x d -> d < k ->
  sample_var select k eos x sstart = Err ValueError.
Proof.
  intros select k eos x d G Hev Dx Hd. unfold sample_var. cbn [ss_fin ss_joint ss_pert sstart bind].
  pose proof Dx as [Hd1 [HE [Hlp Hno]]]. unfold decode, decode_events. rewrite Hev. cbn [option_map].
  change (lprod [1]) with 1. cbn [seq fold_left].
  set (b0 := mkBeam (repeat (repeat 0 1) k) None [] None 0).
  assert (S0 : start k 1 1 (fun _ => 0%R) b0).
  { constructor; auto; simpl. apply repeat_length. intros r Hr. apply repeat_spec in Hr. subst. reflexivity. }
  destruct (step_first k select G (v_cond x) None 1 d 1 (v_lp x) (v_noise x) (fun _ => 0%R) Hd1 Hlp Hno b0 S0) as [I L]; [lia|].
  set (b := decode_step _ _ _ _ _ _ b0) in *. destruct I as [IA [l [IJ [IJL IJV]]] IP IR IL ID IPar IK].
  rewrite Nat.mul_1_l, Nat.pow_1_r, Nat.min_r in IA by lia.
  replace (b_amt b <? k) with true by (symmetry; apply Nat.ltb_lt; lia). unfold last_slice. cbn [rev app b_joint b_rows]. rewrite IJ.
  rewrite map_length, L, IJL, IA.
  destruct (Nat.eqb_spec k 1); [lia|]. destruct (Nat.eqb_spec d k); [lia|]. reflexivity.
Qed.

(** One option and several events: the sample keeps one event. *)
Lemma truncated : forall select k x, good_select k select -> v_events x = [3] -> has_domain x 1 -> 2 <= k ->
  exists r s, sample_var select k None x sstart = Ok ([r], None, s) /\ length r = 1.
Proof.
  intros select k x G Hev Dx Hk. unfold sample_var. cbn [ss_fin ss_joint ss_pert sstart bind].
  pose proof Dx as [Hd1 [HE [Hlp Hno]]]. unfold decode, decode_events. rewrite Hev. cbn [option_map].
  set (b0 := mkBeam (repeat (repeat 0 (lprod [3])) k) None [] None 0).
  assert (S0 : start k 3 1 (fun _ => 0%R) b0).
  { constructor; auto; simpl. apply repeat_length. intros r Hr. apply repeat_spec in Hr. subst. reflexivity. }
  destruct (events_first k select G (v_cond x) None 3 1 1 (v_lp x) (v_noise x) (fun _ => 0%R) Hd1 Hlp Hno b0 S0) as [I L]; [lia|].
  change (lprod [3]) with 3. pose proof (events_no_parent select (v_cond x) None (v_lp x) (v_noise x) 3 0 b0 eq_refl) as PN.
  set (b := fold_left _ _ b0) in *. destruct I as [IA [l [IJ [IJL IJV]]] IP IR IL ID IPar IK].
  change (1 * 1 ^ 3) with 1 in IA. rewrite Nat.min_r in IA by lia. change (3 =? 1) with false in L. cbv iota in L.
  replace (b_amt b <? k) with true by (symmetry; apply Nat.ltb_lt; lia). unfold last_slice. cbn [rev app b_joint b_rows b_parent b_pert].
  rewrite IJ, IA in *. destruct (b_rows b) as [|r [|? ?]] eqn:EB; try discriminate. cbn [map].
  rewrite IJL. cbn [length Nat.eqb negb andb]. rewrite PN.
  exists (map (fun e => nth e r 0) (filter (fun e => e mod 3 <? 1) (seq 0 (lprod [3])))). eexists. split; reflexivity.
Qed.

(** If there are at most [k] outcomes, every outcome is sampled. *)
Lemma all_outcomes_list : forall xs ds, Forall2 has_domain xs ds -> exists L, length L = outcomes xs ds /\ (forall q, In q L <-> outcome xs ds q).
Proof.
  induction 1 as [|x d xs ds Dx H IH].
  - exists [[]]. split; auto. intros q. simpl. split; [intros [<-|[]]; auto|intros ->; auto].
  - destruct IH as [L [LL HL]]. exists (flat_map (fun r => map (fun t => r ++ t) L) (all_rows d (lprod (v_events x)))). split.
    + unfold outcomes. cbn [combine fold_right fst snd]. fold (outcomes xs ds). rewrite <- all_rows_length, <- LL.
      clear. induction (all_rows d (lprod (v_events x))) as [|r rs IH]; simpl; auto. rewrite app_length, map_length, IH. reflexivity.
    + intros q. rewrite in_flat_map. cbn [outcome]. split.
      * intros [r [Hr Hq]]. apply in_map_iff in Hq as [u [<- Hu]]. exists r, u. split; auto.
        assert (RR : forall e r, In r (all_rows d e) -> length r = e /\ Forall (fun v => v < d) r).
        { clear. induction e as [|e IH]; intros r Hr; simpl in Hr.
          - destruct Hr as [<-|[]]. auto.
          - apply in_flat_map in Hr as [v [Hv Hr]]. apply in_map_iff in Hr as [r' [<- Hr]]. destruct (IH r' Hr). apply in_seq in Hv.
            split; [simpl; lia|constructor; auto; lia]. }
        destruct (RR _ _ Hr). repeat split; auto. apply HL; auto.
      * intros [r [u [-> [Lr [Fr Ou]]]]]. exists r. split.
        -- apply all_rows_In; auto. apply Forall_forall; auto.
        -- apply in_map. apply HL; auto.
Qed.

Lemma sampled_all : forall k select, 1 <= k -> good_select k select ->
  forall eos x xs d ds, Forall2 has_domain (x :: xs) (d :: ds) -> slice_ok k true x d ->
  Forall2 (slice_ok k false) xs ds -> Forall (eos_ok eos) (x :: xs) -> outcomes (x :: xs) (d :: ds) <= k ->
  exists outs s, sample_vars select k eos (x :: xs) sstart = Ok (outs, s) /\
    forall q, outcome (x :: xs) (d :: ds) q -> In q (sequences outs).
Proof.
  intros k select Hk G eos x xs d ds HD Sx Sxs HE Ho.
  destruct (chain_all k Hk select G eos x xs d ds HD Sx Sxs HE) as [outs [s [ER [_ [ND [HL [HO _]]]]]]].
  exists outs, s. split; auto. intros q Hq. destruct (all_outcomes_list _ _ HD) as [L [LL HLs]].
  assert (incl L (sequences outs)).
  { apply NoDup_length_incl; auto. - lia. - intros y Hy. apply HLs. auto. }
  apply H. apply HLs. auto.
Qed.
