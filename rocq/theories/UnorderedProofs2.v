(** What UnorderedSetEstimator returns with its baseline. *)
From Coq Require Import String List Arith Bool ZArith Lia Permutation Ring.
From Verif Require Import Base Torch Plates Wrap OrderPlates Scalar Reduce Graph Surrogate Estimators ListLemmas IndexLemmas SpecTensor SpecWrap
  SpecOrder SpecReduce SpecGraph SpecSurrogate SpecScoreWor WrapProofs AlignProofs CallProofs CallProofs2 OpProofs OrderProofs ReduceProofs ReduceProofs2
  VarianceProofs PlateEqProofs GraphProofs SurrogateProofs SurrogateProofs2 SurrogateProofs3 EstimatorProofs RaoBlackwellProofs ScoreWorProofs.
Import ListNotations.
Open Scope nat_scope.

Section UO.
Context {V S : Type}.
Variable veq : V -> V -> bool.
Variable anc_unwrap : plate V -> stensor V -> res (stensor V).
Variable o : sops V.
Variable o_exp : V -> V.
Notation plate := (plate V).
Notation stensor := (stensor V).
Notation N l := (map (@pname V) l).
Notation op1 := (torch_op1 veq anc_unwrap top_ctx).
Notation op2 := (torch_op2 veq anc_unwrap top_ctx).

Variables (P : plate) (pl0 : list plate) (lp snd_ : stensor).
Hypothesis HnP : 1 < pn P.
Hypothesis Hlp : wf lp.
Hypothesis Hpl : splates lp = pl0 ++ [P].
Hypothesis Hlev : s_event_shape lp = [].
Hypothesis Hsnd : wf snd_.
Hypothesis Hspl : splates snd_ = pl0 ++ [P].
Hypothesis Hsev : s_event_shape snd_ = [pn P].
Notation pl := (pl0 ++ [P]).
Variable FP : list plate.
Hypothesis HS : sound veq FP.
Hypothesis Hin : incl pl FP.
Variables log_probs log_snd : plate -> stensor.
Hypothesis El : log_probs P = lp.
Hypothesis Es : log_snd P = snd_.

(** The baseline of the sample of [P] chosen by [s]. *)
Definition set_base (C : assignment -> V) (s : assignment) : V :=
  over_samples o (pn P) (fun i => let si := set_to s (pname P) i in
    o_mul o (o_exp (o_add o (den lp si []) (den snd_ si [s (pname P)]))) (C si)).

Lemma wide_P : forall l, wide (l ++ [P]) = wide l ++ [P].
Proof. intros l. unfold wide. rewrite filter_app. simpl. replace (1 <? pn P) with true by (symmetry; now apply Nat.ltb_lt). reflexivity. Qed.
Lemma den_set_same : forall (a : stensor) s x i e, ~ In x (N (splates a)) -> den a (set_to s x i) e = den a s e.
Proof.
  intros a s x i e H. unfold den. f_equal. f_equal. apply map_ext_in. intros p Hp. unfold set_to.
  destruct (String.eqb_spec (pname p) x) as [E|]; auto. exfalso. apply H. rewrite <- E. apply in_map. unfold wide in Hp. apply filter_In in Hp. tauto.
Qed.
Lemma find_plate : forall (l : list plate), NoDup (N l) -> In P l -> find (fun p => String.eqb (pname p) (pname P)) l = Some P.
Proof.
  induction l as [|q l IH]; intros Hd Hi; [destruct Hi|]. simpl in Hd. apply NoDup_cons_iff in Hd. destruct Hd as [Hq Hd]. simpl.
  destruct (String.eqb_spec (pname q) (pname P)) as [E|E].
  - destruct Hi as [->|Hi]; auto. exfalso. apply Hq. rewrite E. now apply in_map.
  - destruct Hi as [->|Hi]; [congruence|]. auto.
Qed.

Lemma broadcasts_ones : forall (l : list nat), broadcasts l (repeat 1 (length l)) l.
Proof. induction l as [|x l IH]; simpl; constructor; auto. Qed.
Lemma valid_zeros' : forall k, valid (repeat 0 k) (repeat 1 k).
Proof. intros. apply valid_zeros. Qed.

Theorem unordered_spec : forall x (rc : stensor) ql C nm (sg : S) base, stands (PT rc) ql C -> incl ql FP -> In P ql ->
  exists cv cp, @unordered_estimator V S veq anc_unwrap o o_exp log_probs log_snd (pname P) true x rc nm sg base = Ok (pair_of (PT lp) (PT cv), sg) /\
    stands (PT lp) pl (fun s => den lp s []) /\
    stands (PT cv) cp (fun s => o_mul o (o_sub o (o_one o) (box o o_exp (den lp s []))) (o_det o (set_base C s))) /\
    incl cp FP /\ NoDup (N cp) /\ (forall y, In y (N cp) <-> In y (N pl) \/ In y (N ql)).
Proof.
  intros x rc ql C nm sg base Hrc Hql HP. unfold unordered_estimator.
  pose proof Hrc as Hrc'. destruct Hrc' as [Wr [Pr [k [Er Dr]]]].
  assert (HPr : In P (splates rc)) by exact (Permutation_in _ (Permutation_sym Pr) HP).
  rewrite (find_plate (splates rc)) by (auto; apply (wf_names rc Wr)). cbn [negb]. rewrite El, Es.
  assert (Ilp : incl (splates lp) FP) by now rewrite Hpl. assert (Isn : incl (splates snd_) FP) by now rewrite Hspl.
  assert (Irc : incl (splates rc) FP) by (intros q Hq; apply Hql; eapply Permutation_in; eauto).
  assert (Nd : NoDup (N pl)) by (rewrite <- Hpl; apply (wf_names lp Hlp)).
  (* log_probs + log_snd_leave_one_out *)
  assert (HC1 : callable veq [lp; snd_]) by (apply (over_callable veq FP HS); [fwf|intros t [<-|[<-|[]]]; auto]).
  destruct (op2_spec veq anc_unwrap (o_add o) lp snd_ base [pn P] HC1) as [l [L1 [L2 [L3 [L4 [_ [_ [_ L8]]]]]]]].
  { unfold s_event_dims. rewrite Hlev, Hsev. unfold pad. simpl. repeat constructor. }
  rewrite L1. cbn [bind]. rewrite Hpl, Hspl in L2. rewrite union_self in L2.
  assert (Il : incl (splates l) FP) by now rewrite L2.
  assert (HC2 : callable veq [l]) by (apply (over_callable veq FP HS); [fwf|intros t [<-|[]]; auto]).
  destruct (op1_spec veq anc_unwrap o_exp l (base + 2) HC2) as [e [E1 [E2 [E3 [E4 [_ [_ [_ E8]]]]]]]]. rewrite E1. cbn [bind].
  assert (Ie : incl (splates e) FP) by now rewrite E2.
  assert (HC3 : callable veq [e; rc]) by (apply (over_callable veq FP HS); [fwf|intros t [<-|[<-|[]]]; auto]).
  set (m := Nat.max 1 k - 1).
  destruct (op2_spec veq anc_unwrap (o_mul o) e rc (base + 4) (pn P :: repeat 1 m) HC3) as [u [U1 [U2 [U3 [U4 [_ [_ [_ U8]]]]]]]].
  { unfold s_event_dims. rewrite E3, L3, Er, repeat_length. unfold pad. rewrite repeat_length. cbn [length]. rewrite <- repeat_app.
    fold m. replace (k + (Nat.max 1 k - k)) with (Datatypes.S m) by lia. simpl. apply B_right.
    pose proof (broadcasts_ones (repeat 1 m)) as B. rewrite repeat_length in B. exact B. }
  rewrite U1. cbn [bind as_tensor]. rewrite E2, L2 in U2.
  assert (Iu : incl (splates u) FP) by (rewrite U2; now apply (u_incl anc_unwrap)).
  assert (HC4 : callable veq [u]) by (apply (over_callable veq FP HS); [fwf|intros t [<-|[]]; auto]).
  assert (HPu : In P (splates u)) by (rewrite U2; apply in_or_app; left; apply in_or_app; right; now left).
  destruct (st_sum_plate veq anc_unwrap o u P (base + 6) HC4 HPu HnP) as [b [B1 [B2 [B3 [B4 [_ B6]]]]]].
  rewrite B1. cbn [bind as_tensor].
  assert (Ib : incl (splates b) FP) by (rewrite B2; intros q Hq; apply filter_In in Hq; apply Iu; tauto).
  assert (Nb : ~ In (pname P) (N (splates b))).
  { rewrite B2. intros K. apply in_map_iff in K. destruct K as [q [Eq Hq]]. apply filter_In in Hq. destruct Hq as [_ Hq]. rewrite Eq, String.eqb_refl in Hq. discriminate. }
  assert (NDb : NoDup (N (splates b ++ [P]))).
  { rewrite map_app. apply NoDup_app_intro; [apply (wf_names b B4)|repeat constructor; simpl; tauto|]. intros y Hy [<-|[]]. contradiction. }
  destruct (mk_tensor_good (base + 8) (st b) [sid b] (splates b ++ [P]) false (repeat 1 m)) as [b2 [C1 [_ [C3 [C4 [_ [_ [C7 C8]]]]]]]]; auto.
  { intros q Hq. apply in_app_or in Hq. destruct Hq as [Hq|[<-|[]]]; [now apply (wf_pos b B4)|lia]. }
  { rewrite (wf_shape b B4), B3, U3, wide_P, map_app. simpl. now rewrite <- app_assoc. }
  rewrite C1. cbn [bind].
  assert (Ib2 : incl (splates b ++ [P]) FP).
  { intros q Hq. apply in_app_or in Hq. destruct Hq as [Hq|[<-|[]]]; [now apply Ib|now apply Iu]. }
  assert (Mem : forall q, In q (splates b) <-> In q (union pl ql) /\ pname q <> pname P).
  { intros q. rewrite B2. unfold without. rewrite filter_In, U2. 
    assert (Eb : negb (String.eqb (pname q) (pname P)) = true <-> pname q <> pname P) by (rewrite negb_true_iff; apply String.eqb_neq). rewrite Eb.
    assert (In q (splates rc) <-> In q ql) by (split; apply Permutation_in; auto using Permutation_sym).
    unfold union. rewrite !in_app_iff, !filter_In. tauto. }
  assert (Sb : stands (PT b2) (splates b ++ [P]) (set_base C)).
  { split; [exact C8|]. split; [rewrite C4; apply Permutation_refl|]. exists m. split; [exact C7|]. intros s Hs.
    unfold den at 1. rewrite C3, C4, wide_P, map_app. simpl map. rewrite <- app_assoc. change ([s (pname P)] ++ repeat 0 m) with (s (pname P) :: repeat 0 m).
    assert (HsP : s (pname P) < pn P) by (apply Hs, in_or_app; right; now left).
    assert (Hsb : in_range s (splates b)) by (intros q Hq; apply Hs, in_or_app; now left).
    change (el (st b) (map (fun p => s (pname p)) (wide (splates b)) ++ s (pname P) :: repeat 0 m)) with (den b s (s (pname P) :: repeat 0 m)).
    rewrite B6; auto. 2:{ rewrite U3. constructor; [exact HsP|apply valid_zeros]. }
    unfold set_base, over_samples. apply osum_ext. intros i Hi. apply in_seq in Hi. cbv zeta. set (si := set_to s (pname P) i).
    assert (Hsu : in_range si (splates u)).
    { unfold si. apply set_to_range; [apply (wf_names u U4)| | |lia].
      - exact HPu.
      - now rewrite <- B2. }
    assert (Hsl : in_range si pl). { intros q Hq. apply Hsu. rewrite U2. apply in_or_app. now left. }
    assert (Hsr : in_range si (splates rc)).
    { intros q Hq. destruct (in_range_union anc_unwrap si pl (splates rc) FP (HND veq FP HS) Hin Irc) as [_ H2]; [now rewrite <- U2|]. now apply H2. }
    rewrite U8; [|exact Hsu|constructor; [exact HsP|apply valid_zeros]].
    rewrite E3, L3, Er. cbn [proj]. replace (pn P =? 1) with false by (symmetry; apply Nat.eqb_neq; lia).
    replace (proj [] (repeat 0 m)) with (@nil nat) by (destruct m; reflexivity).
    f_equal.
    - rewrite E8; [|rewrite L2; exact Hsl|rewrite L3; constructor; [exact HsP|constructor]]. f_equal.
      rewrite L8; [|rewrite L2; exact Hsl|constructor; [exact HsP|constructor]]. rewrite Hlev, Hsev. cbn [proj].
      replace (pn P =? 1) with false by (symmetry; apply Nat.eqb_neq; lia). reflexivity.
    - replace (proj (repeat 1 k) (s (pname P) :: repeat 0 m)) with (repeat 0 k).
      2:{ destruct k as [|k']; [reflexivity|]. simpl. f_equal. symmetry. apply proj_zeros. unfold m. lia. }
      apply Dr. intros q Hq. apply Hsr. exact (Permutation_in _ (Permutation_sym Pr) Hq). }
  destruct (stands_op1 veq anc_unwrap FP HS (o_det o) (PT b2) _ _ (base + 10) Sb Ib2) as [d [D1 [D2 D3]]]. rewrite D1. cbn [bind].
  destruct D3 as [d' ->]; [eexists; reflexivity|].
  assert (HL : stands (PT lp) pl (fun s => den lp s [])).
  { split; [exact Hlp|]. split; [rewrite Hpl; apply Permutation_refl|]. exists 0. split; [exact Hlev|]. reflexivity. }
  destruct (magic_box_spec veq anc_unwrap o o_exp FP HS (PT lp) pl _ (base + 12) HL Hin) as [mb [M1 [M2 M3]]]. rewrite M1. cbn [bind].
  destruct M3 as [mb' ->]; [eexists; reflexivity|].
  destruct (stands_op2 veq anc_unwrap FP HS (o_sub o) (PRaw (tscalar (o_one o))) (PT mb') [] pl _ _ (base + 18) (stands_num (o_one o)) M2) as [y [Y1 [Y2 Y3]]]; [intros q []|exact Hin|].
  rewrite Y1. cbn [bind]. destruct Y3 as [y' ->]; [right; eexists; reflexivity|]. rewrite union_nil_l in Y2.
  destruct (stands_op2 veq anc_unwrap FP HS (o_mul o) (PT y') (PT d') _ _ _ _ (base + 20) Y2 D2 Hin Ib2) as [z [Z1 [Z2 Z3]]]. rewrite Z1. cbn [bind].
  destruct Z3 as [z' ->]; [left; eexists; reflexivity|].
  exists z', (union pl (splates b ++ [P])). split; [reflexivity|]. split; [exact HL|]. split; [exact Z2|]. split; [now apply (u_incl anc_unwrap)|].
  split; [apply u_NoDup; auto|]. intros w. rewrite (u_names anc_unwrap). rewrite (map_app (@pname V) (splates b)), (in_app_iff (N (splates b))). cbn [map].
  assert (K : In w (N (splates b)) <-> (In w (N pl) \/ In w (N ql)) /\ w <> pname P).
  { rewrite <- (u_names anc_unwrap pl ql). split.
    - intros H. apply in_map_iff in H. destruct H as [q [<- Hq]]. apply Mem in Hq. destruct Hq. split; auto. now apply in_map.
    - intros [H H']. apply in_map_iff in H. destruct H as [q [<- Hq]]. apply in_map. now apply Mem. }
  rewrite K. destruct (string_dec w (pname P)) as [->|Hne].
  - split; [|intros _; left; apply in_map, in_or_app; right; now left]. intros _. left. apply in_map, in_or_app. right. now left.
  - split; [intros [H|[H|[H|[]]]]; auto; [tauto|congruence]|]. intros H. right. left. auto.
Qed.

Hypothesis Hring : is_ring o.
Hypothesis Hev : evaluates o o_exp.
Let Hring' : ring_theory (o_zero o) (o_one o) (o_add o) (o_mul o) (o_sub o) (o_opp o) (@eq V) := Hring.
Add Ring uo_ring : Hring'.

(** The control variate evaluates to zero. *)
Theorem unordered_estimates : forall (nodes : nat -> @snode V S) c a n slp m,
  nd_sto (nodes a) = Some (n, slp, true, Some m) ->
  me_estimator m = me_estimator (method_of (fun _ _ => Ok false) (unordered_estimator veq anc_unwrap o o_exp log_probs log_snd (pname P) true)) ->
  closed pl -> incl (splates (nd_t (nodes c))) FP -> In P (kept (nd_t (nodes c)) (splates (nd_t (nodes a)))) ->
  closed (kept (nd_t (nodes c)) (splates (nd_t (nodes a)))) ->
  estimates o FP nodes c a (fun sg tm sg' => sg' = sg /\ inert o FP tm /\ t_g tm = Some (pl, fun s => den lp s [])).
Proof.
  intros nodes c a n slp m En Em Cpl Ic HPk Ck. unfold estimates. rewrite En. intros np rc nm sg base _ Hav _ _. rewrite Em. cbn [me_estimator method_of].
  assert (Ik : incl (kept (nd_t (nodes c)) (splates (nd_t (nodes a)))) FP).
  { intros q Hq. apply Ic. unfold kept in Hq. apply filter_In in Hq. tauto. }
  destruct (unordered_spec (mkSample np (nd_name (nodes a)) n slp) rc _ _ nm sg base Hav Ik HPk) as [cv [cp [E1 [E2 [E3 [E4 [E5 E6]]]]]]].
  rewrite E1. cbn [bind unpack2 pair_of as_term].
  eexists (Some (PT lp)), (Some (PT cv)), sg, (mkTerm (Some (pl, _)) (Some (cp, _))).
  split; [reflexivity|]. split; [left; eauto|]. split; [|split].
  - simpl. split; [exact E2|]. repeat split; auto. rewrite <- Hpl. apply (wf_names lp Hlp).
  - simpl. split; [exact E3|]. split; [exact E4|]. split; [|exact E5].
    intros p q Hp Hq. assert (Hp' : In (pname p) (N cp)) by now apply in_map. apply E6. apply E6 in Hp'.
    assert (Same : forall l, incl l FP -> In (pname p) (N l) -> In p l).
    { intros l Hl H. apply in_map_iff in H. destruct H as [p' [Ep Hp'']]. replace p with p'; auto.
      apply (NoDup_map_inj (@pname V) FP); auto. apply (HND veq FP HS). }
    destruct Hp' as [H|H]; [left; eapply Cpl; [apply Same; eauto|exact Hq]|right; eapply Ck; [apply Same; eauto|exact Hq]].
  - split; [reflexivity|]. split; [|reflexivity]. unfold inert. cbn [t_cv]. intros s Hs.
    repeat (rewrite (ev_add _ _ Hev) || rewrite (ev_sub _ _ Hev) || rewrite (ev_mul _ _ Hev) || rewrite (ev_det _ _ Hev) || rewrite (ev_one _ _ Hev)).
    rewrite (box_one o Hring o_exp Hev). ring.
Qed.
End UO.
