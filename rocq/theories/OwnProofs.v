(** Proofs about the averages of baselines (C99). *)
From Coq Require Import String List Arith Bool ZArith Lia Permutation Ring.
From Verif Require Import Base Torch Plates Wrap OrderPlates Scalar Reduce Graph Surrogate ListLemmas IndexLemmas SpecTensor SpecWrap
  SpecOrder SpecReduce SpecGraph SpecSurrogate WrapProofs AlignProofs CallProofs CallProofs2 OpProofs OrderProofs ReduceProofs ReduceProofs2
  VarianceProofs PlateEqProofs SurrogateProofs SurrogateProofs3 MovingProofs SpecOwn.
Import ListNotations.

Section Own.
Context {V : Type}.
Variable veq : V -> V -> bool.
Variable anc_unwrap : plate V -> stensor V -> res (stensor V).
Variable o : sops V.
Variable o_exp : V -> V.
Variable o_divn : V -> nat -> V.
Notation plate := (plate V).
Notation stensor := (stensor V).
Notation N l := (map (@pname V) l).

Lemma moving_keeps : forall d, keeps_to_itself (moving_average veq anc_unwrap o d).
Proof.
  intros d x c key sg base b sg1 H. unfold moving_average in *.
  destruct (reduce_plates _ _ _ _ _ _ _ _) as [a|]; [|discriminate]. cbn [bind] in *.
  destruct (torch_op1 _ _ _ _ _ _) as [a'|]; [|discriminate]. cbn [bind] in *.
  destruct (torch_op2 _ _ _ _ _ a' _) as [y|]; [|discriminate]. cbn [bind] in *.
  destruct (torch_op2 _ _ _ _ _ y _) as [z|] eqn:Ez; [|discriminate]. cbn [bind] in *.
  destruct (as_tensor z) as [t|] eqn:Et; [|discriminate]. cbn [bind] in *. injection H as <- <-. split.
  - intros k Hk. destruct (String.eqb_spec k key); [contradiction|reflexivity].
  - intros sg' E. rewrite E, Ez. cbn [bind]. rewrite Et. cbn [bind]. eexists. split; [reflexivity|]. cbv beta. rewrite !String.eqb_refl. split; [reflexivity|].
    intros k Hk. destruct (String.eqb_spec k key); [contradiction|reflexivity].
Qed.
Lemma batch_keeps : keeps_to_itself (T := ten V) (batch_average veq anc_unwrap o o_divn).
Proof.
  intros x c key sg base b sg1 H. unfold batch_average in *. destruct (sm_n x =? 1); [discriminate|].
  repeat (match type of H with (bind ?e _) = _ => destruct e eqn:?; [|discriminate] end; cbn [bind] in * ).
  injection H as <- <-. split; [auto|]. intros sg' E. exists sg'. auto.
Qed.

(** One variable. *)
Section Nodes.
Variable nodes : nat -> @snode V (averages V).
Variable c base : nat.
Variable P : string -> Prop.

Definition local_at (p : nat) : Prop := forall L acc sg L' acc' sg1, add_parent veq anc_unwrap o o_exp nodes c base (L, acc, sg) p = Ok (L', acc', sg1) ->
  (forall k, ~ P k -> sg1 k = sg k) /\
  forall sg', (forall k, P k -> sg' k = sg k) -> exists sg1', add_parent veq anc_unwrap o o_exp nodes c base (L, acc, sg') p = Ok (L', acc', sg1') /\ forall k, P k -> sg1' k = sg1 k.

Lemma parent_local : forall p, (forall n lp m, nd_sto (nodes p) = Some (n, lp, true, Some m) ->
    score_function veq anc_unwrap o o_exp m /\
    exists red, plates_to_reduce veq (nd_t (nodes c)) (multi_dim_plates (nd_t (nodes p))) = Ok red /\ P (slot (nd_name (nodes p)) (reduced_name (nd_name (nodes c)) red))) -> local_at p.
Proof.
  intros p Hp L acc sg L' acc' sg1 H. unfold add_parent in *. destruct (nd_sto (nodes p)) as [[[[n lp] r] [m|]]|].
  2,3: injection H as <- <- <-; split; [auto|]; intros sg' E; exists sg'; auto.
  destruct r; [|injection H as <- <- <-; split; [auto|]; intros sg' E; exists sg'; auto].
  destruct (Hp n lp m eq_refl) as [[bl [-> Hb]] [red [Hr HK]]]. cbn [score_method me_pathwise me_estimator bind] in *. rewrite Hr in *. cbn [bind] in *.
  destruct (reduce_all _ _ _ _ _ _ _ _) as [rc|]; [|discriminate]. cbn [bind] in *. destruct (new_parent _ _ _ _) as [np|]; [|discriminate]. cbn [bind] in *.
  unfold score_estimator in *. destruct (sm_log_prob _ _ _) as [l|]; [|discriminate]. cbn [bind] in *.
  match type of H with context [bind (if ?b then ?x else ?y) _] => destruct (if b then x else y) as [l'|]; [|discriminate] end. cbn [bind] in *.
  destruct bl as [f|].
  - cbn [sm_name] in *. fold (slot (nd_name (nodes p)) (reduced_name (nd_name (nodes c)) red)) in *. set (K := slot _ _) in *.
    destruct (f _ _ K sg base) as [[b sg2]|] eqn:Ef; [|discriminate]. cbn [bind] in *. destruct (Hb _ _ _ _ _ _ _ Ef) as [B1 B2].
    destruct (magic_box _ _ _ _ _ _) as [mb|]; [|discriminate]. cbn [bind] in *. destruct (torch_op2 _ _ _ _ _ mb _) as [d|]; [|discriminate]. cbn [bind] in *.
    destruct (torch_op2 _ _ _ _ d b _) as [cv|] eqn:Ecv; [|discriminate]. cbn [bind] in *. destruct (add_terms _ _ _ _ _ _ _ _) as [[L2 acc2]|] eqn:Eat; [|discriminate]. cbn [bind] in *. injection H as <- <- <-. split.
    + intros k Hk. apply B1. intros ->. contradiction.
    + intros sg' E. destruct (B2 sg' (E K HK)) as [sg1' [F1 [F2 F3]]]. rewrite F1. cbn [bind]. rewrite Ecv. cbn [bind]. rewrite Eat. cbn [bind]. eexists. split; [reflexivity|]. intros k Hk. destruct (string_dec k K) as [->|Hn]; [exact F2|]. rewrite F3, B1 by exact Hn. auto.
  - cbn [bind] in *. destruct (add_terms _ _ _ _ _ _ _ _) as [[L2 acc2]|]; [|discriminate]. cbn [bind] in *. injection H as <- <- <-. split; [auto|]. intros sg' E. exists sg'. auto.
Qed.

Lemma fold_local : forall order, (forall p, In p order -> local_at p) -> forall L acc sg L' acc' sg1,
  foldM (add_parent veq anc_unwrap o o_exp nodes c base) order (L, acc, sg) = Ok (L', acc', sg1) ->
  (forall k, ~ P k -> sg1 k = sg k) /\
  forall sg', (forall k, P k -> sg' k = sg k) -> exists sg1', foldM (add_parent veq anc_unwrap o o_exp nodes c base) order (L, acc, sg') = Ok (L', acc', sg1') /\ forall k, P k -> sg1' k = sg1 k.
Proof.
  induction order as [|p order IH]; intros Hp L acc sg L' acc' sg1 H.
  - cbn [foldM] in H. injection H as <- <- <-. split; [auto|]. intros sg' E. exists sg'. auto.
  - cbn [foldM] in *. destruct (add_parent _ _ _ _ _ _ _ _ p) as [[[L2 acc2] sg2]|] eqn:Ea; [|discriminate]. cbn [bind] in *.
    destruct (Hp p (or_introl eq_refl) _ _ _ _ _ _ Ea) as [A1 A2]. destruct (IH (fun q Hq => Hp q (or_intror Hq)) _ _ _ _ _ _ H) as [I1 I2]. split.
    + intros k Hk. rewrite I1, A1; auto.
    + intros sg' E. destruct (A2 sg' E) as [sg2' [F1 F2]]. rewrite F1. cbn [bind]. exact (I2 sg2' F2).
Qed.

(** One cost. *)
Lemma cost_local : forall fuel h order, surrogate_order fuel h c = Some order -> (forall p, In p order -> local_at p) -> forall sg v sg1,
  surrogate_cost veq anc_unwrap o o_exp fuel h nodes base c sg = Ok (v, sg1) ->
  (forall k, ~ P k -> sg1 k = sg k) /\
  forall sg', (forall k, P k -> sg' k = sg k) -> exists sg1', surrogate_cost veq anc_unwrap o o_exp fuel h nodes base c sg' = Ok (v, sg1') /\ forall k, P k -> sg1' k = sg1 k.
Proof.
  intros fuel h order Ho Hl sg v sg1 H. unfold surrogate_cost in H. rewrite Ho in H. cbn [bind] in H.
  destruct (foldM _ _ _) as [[[L acc] sg2]|] eqn:Ef; [|discriminate]. cbn [bind] in H. destruct (fold_local order Hl _ _ _ _ _ _ Ef) as [F1 F2].
  destruct (magic_box _ _ _ _ _ _) as [b|] eqn:E1; [|discriminate]. cbn [bind] in H. destruct (torch_op2 _ _ _ _ b _ _) as [m|] eqn:E2; [|discriminate]. cbn [bind] in H.
  destruct (reduce_plates _ _ _ _ _ _ _ _) as [r|] eqn:E3; [|discriminate]. cbn [bind] in H. destruct (torch_op2 _ _ _ _ acc _ _) as [x|] eqn:E4; [|discriminate]. cbn [bind] in H.
  injection H as <- <-. split; [exact F1|]. intros sg' E. destruct (F2 sg' E) as [sg1' [G1 G2]]. unfold surrogate_cost. rewrite Ho. cbn [bind]. match goal with |- context [foldM ?f ?l ?x] => assert (G : foldM f l x = Ok (L, acc, sg1')) by exact G1; rewrite G end. cbn [bind]. rewrite E1. cbn [bind]. rewrite E2. cbn [bind]. rewrite E3. cbn [bind]. rewrite E4. cbn [bind]. eauto.
Qed.
End Nodes.

(** The plates that are averaged out. *)
Section Plates.
Variable FP : list plate.
Hypothesis Hok : plates_ok veq FP.
Hypothesis Hring : is_ring o.

Lemma red_foreign : forall c p base, over FP c -> over FP p -> s_event_shape c = [] -> no_gaps (wide (splates c)) ->
  exists red rc, plates_to_reduce veq c (multi_dim_plates p) = Ok red /\ reduce_all veq anc_unwrap o top_ctx red c true base = Ok rc /\
    Permutation red (foreign c (splates p)) /\ averaged o FP c p rc.
Proof.
  intros c p base Hc Hp Ec Hg. destruct Hok as [Hsound Hacyc Hfits].
  destruct (averaged_spec veq anc_unwrap o Hring FP Hsound Hacyc Hfits c p base Hc Hp Ec Hg) as [red [rc [R1 [R2 [_ [_ [_ [R6 _]]]]]]]].
  exists red, rc. split; [exact R1|]. split; [exact R2|]. split; [|exact R6].
  destruct Hc as [Wc Ic Cc]. destruct Hp as [Wp Ip Cp].
  assert (Wi : incl (wide (splates c)) FP) by (intros x Hx; apply filter_In in Hx; apply Ic; tauto).
  assert (Wj : incl (wide (splates p)) FP) by (intros x Hx; apply filter_In in Hx; apply Ip; tauto).
  assert (Nw : NoDup (N (wide (splates c)))) by (apply NoDup_wide; apply (wf_names c Wc)).
  assert (Sw : sound veq (wide (splates c))) by (apply (sound_sub veq FP); auto).
  destruct (order_plates_spec veq (wide (splates c)) (so_orderable _ _ Sw) Hg) as [_ Ho].
  assert (Hnc : ~ cyclic (wide (splates c))) by (intros C; apply Hacyc; exact (cyclic_sub _ _ Wi C)).
  destruct (Ho Hnc) as [l [O1 [O2 [O3 O4]]]]. clear Ho.
  assert (Il : incl l FP) by (intros x Hx; apply Wi; eapply Permutation_in; eauto).
  assert (Nl : NoDup (N l)) by (eapply Permutation_NoDup; [apply Permutation_map, Permutation_sym, O3|auto]).
  assert (Er : red = filter (fun q => negb (has (wide (splates p)) (pname q))) (rev l)).
  { unfold plates_to_reduce in R1. change (multi_dim_plates c) with (wide (splates c)) in R1. rewrite O2 in R1. cbn [bind] in R1. injection R1 as <-.
    apply filter_ext_in. intros q Hq. f_equal. apply in_rev in Hq. rewrite (pin_mem veq FP) by (auto using agree_FP). symmetry. apply has_mem. }
  rewrite Er. apply (same_names_perm FP); auto.
  - exact (proj1 (so_orderable _ _ Hsound)).
  - intros x Hx. apply filter_In in Hx. destruct Hx as [Hx _]. apply in_rev in Hx. auto.
  - intros x Hx. apply filter_In in Hx. destruct Hx as [Hx _]. auto.
  - apply NoDup_map_filter. rewrite map_rev. now apply NoDup_rev.
  - now apply NoDup_map_filter.
  - intros x. unfold foreign. rewrite !in_map_iff. split; intros [q [E Hq]]; exists q; (split; [exact E|]);
      apply filter_In in Hq; destruct Hq as [Hq Hh]; apply filter_In; split; auto.
    + apply in_rev in Hq. eapply Permutation_in; eauto.
    + apply -> in_rev. eapply Permutation_in; [apply Permutation_sym|]; eauto.
Qed.
End Plates.

Lemma reduced_name_is : forall (b : bool) (red : list plate) nm, (forall q, In q red -> one_number q = b) ->
  reduced_name nm red = match red with [] => nm | _ => if b then "mul1"%string else "sum1"%string end.
Proof.
  intros b red. induction red as [|q red IH]; intros nm H; [reflexivity|]. unfold reduced_name. cbn [fold_left].
  assert (E : match pweight q with WTorch w => if ndim w =? 0 then "mul1"%string else "sum1"%string | WStorch _ w _ => if ndim w =? 0 then "mul1"%string else "sum1"%string end = if b then "mul1"%string else "sum1"%string).
  { rewrite <- (H q (or_introl eq_refl)). unfold one_number. destruct (pweight q); reflexivity. }
  rewrite E. change (reduced_name (if b then "mul1"%string else "sum1"%string) red = if b then "mul1"%string else "sum1"%string). rewrite IH by (intros x Hx; apply H; now right). now destruct red.
Qed.

(** ** A cost whose plates the variables have *)
Theorem own_spec : is_ring o -> forall (nodes : nat -> @snode V (averages V)) FP fuel h base c order, covered veq anc_unwrap o o_exp nodes FP c order ->
  surrogate_order fuel h c = Some order ->
  forall sg v sg1, surrogate_cost veq anc_unwrap o o_exp fuel h nodes base c sg = Ok (v, sg1) ->
  (forall k, (forall p, In p order -> k <> slot (nd_name (nodes p)) (nd_name (nodes c))) -> sg1 k = sg k) /\
  forall sg', (forall p, In p order -> sg' (slot (nd_name (nodes p)) (nd_name (nodes c))) = sg (slot (nd_name (nodes p)) (nd_name (nodes c)))) ->
    exists sg1', surrogate_cost veq anc_unwrap o o_exp fuel h nodes base c sg' = Ok (v, sg1') /\
      forall p, In p order -> sg1' (slot (nd_name (nodes p)) (nd_name (nodes c))) = sg1 (slot (nd_name (nodes p)) (nd_name (nodes c))).
Proof.
  intros Hring nodes FP fuel h base c order [Hok Hc Ec Hg Hp] Ho sg v sg1 H.
  set (P := fun k => exists p, In p order /\ k = slot (nd_name (nodes p)) (nd_name (nodes c))).
  destruct (cost_local nodes c base P fuel h order Ho) with (sg := sg) (v := v) (sg1 := sg1) as [A B]; auto.
  { intros p Hin. apply parent_local. intros n lp m Em. destruct (Hp p n lp m Hin Em) as [Hm [Hop Hf]]. split; [exact Hm|].
    destruct (red_foreign FP Hok Hring (nd_t (nodes c)) (nd_t (nodes p)) base Hc Hop Ec Hg) as [red [rc [R1 [_ [R3 _]]]]].
    exists red. split; [exact R1|]. assert (R4 : Permutation red []). { eapply Permutation_trans; [exact R3|]. match type of Hf with ?x = _ => change (Permutation x []) end. rewrite Hf. constructor. }
    apply Permutation_sym, Permutation_nil in R4. subst red. exists p. auto. }
  split.
  - intros k Hk. apply A. intros [p [Hin E]]. exact (Hk p Hin E).
  - intros sg' E. destruct (B sg') as [sg1' [G1 G2]]. { intros k [p [Hin ->]]. auto. } exists sg1'. split; [exact G1|]. intros p Hin. apply G2. exists p. auto.
Qed.

Theorem apart_spec : is_ring o -> forall (nodes : nat -> @snode V (averages V)) FP1 FP2 fuel h base c1 c2 order1 order2,
  covered veq anc_unwrap o o_exp nodes FP1 c1 order1 -> covered veq anc_unwrap o o_exp nodes FP2 c2 order2 ->
  surrogate_order fuel h c1 = Some order1 -> surrogate_order fuel h c2 = Some order2 ->
  (forall p q, In p order1 -> In q order2 -> slot (nd_name (nodes p)) (nd_name (nodes c1)) <> slot (nd_name (nodes q)) (nd_name (nodes c2))) ->
  forall sg v1 v2 sg1 sg2, surrogate_cost veq anc_unwrap o o_exp fuel h nodes base c1 sg = Ok (v1, sg1) ->
  surrogate_cost veq anc_unwrap o o_exp fuel h nodes base c2 sg = Ok (v2, sg2) ->
  exists sg12, surrogate_cost veq anc_unwrap o o_exp fuel h nodes base c2 sg1 = Ok (v2, sg12).
Proof.
  intros Hring nodes FP1 FP2 fuel h base c1 c2 o1 o2 H1 H2 O1 O2 Hd sg v1 v2 sg1 sg2 E1 E2.
  destruct (own_spec Hring nodes FP1 fuel h base c1 o1 H1 O1 sg v1 sg1 E1) as [A _].
  destruct (own_spec Hring nodes FP2 fuel h base c2 o2 H2 O2 sg v2 sg2 E2) as [_ B].
  destruct (B sg1) as [sg12 [E _]]; [|eauto]. intros q Hq. apply A. intros p Hp E. exact (Hd p q Hp Hq (eq_sym E)).
Qed.
Lemma slot_inj : forall v c1 c2, slot v c1 = slot v c2 -> c1 = c2.
Proof.
  assert (A : forall v c1 c2 : string, (v ++ c1)%string = (v ++ c2)%string -> c1 = c2). { induction v; simpl; intros c1 c2 H; [exact H|]. injection H. apply IHv. }
  intros v c1 c2 H. unfold slot in H. apply A in H. apply A in H. apply A in H. exact H.
Qed.

(** ** Costs with plates the variable does not have *)
Theorem shared_spec : is_ring o -> forall (nodes : nat -> @snode V (averages V)) FP c p base n lp d b L acc L' acc' sg sg1,
  plates_ok veq FP -> over FP (nd_t (nodes c)) -> over FP (nd_t (nodes p)) -> s_event_shape (nd_t (nodes c)) = [] -> no_gaps (wide (splates (nd_t (nodes c)))) ->
  nd_sto (nodes p) = Some (n, lp, true, Some (score_method veq anc_unwrap o o_exp (Some (moving_average veq anc_unwrap o d)))) ->
  foreign (nd_t (nodes c)) (splates (nd_t (nodes p))) <> [] -> (forall q, In q (foreign (nd_t (nodes c)) (splates (nd_t (nodes p)))) -> one_number q = b) ->
  add_parent veq anc_unwrap o o_exp nodes c base (L, acc, sg) p = Ok (L', acc', sg1) ->
  let key := slot (nd_name (nodes p)) (if b then "mul1" else "sum1")%string in
  (forall k, k <> key -> sg1 k = sg k) /\
  exists rc, averaged o FP (nd_t (nodes c)) (nd_t (nodes p)) rc /\
    (averageable veq rc -> shape (sg key) = [] -> shape (sg1 key) = [] /\ el (sg1 key) [] = decayed o d (el (sg key) []) [average o rc]).
Proof.
  intros Hring nodes FP c p base n lp d b L acc L' acc' sg sg1 Hok Hc Hp Ec Hg Em Hf Hb H key.
  destruct (red_foreign FP Hok Hring (nd_t (nodes c)) (nd_t (nodes p)) base Hc Hp Ec Hg) as [red [rc [R1 [R2 [R3 R4]]]]].
  assert (Hn : reduced_name (nd_name (nodes c)) red = if b then "mul1"%string else "sum1"%string).
  { rewrite (reduced_name_is b). { destruct red; auto. apply Permutation_nil in R3. now rewrite R3 in Hf. } intros q Hq. apply Hb. eapply Permutation_in; eauto. }
  unfold add_parent in H. rewrite Em in H. cbn [score_method me_pathwise me_estimator bind] in H. rewrite R1 in H. cbn [bind] in H. rewrite R2 in H. cbn [bind] in H.
  destruct (new_parent _ _ _ _) as [np|]; [|discriminate]. cbn [bind] in H. rewrite Hn in H. unfold score_estimator in H. destruct (sm_log_prob _ _ _) as [l|]; [|discriminate]. cbn [bind] in H.
  match type of H with context [bind (if ?b then ?x else ?y) _] => destruct (if b then x else y) as [l'|]; [|discriminate] end. cbn [bind sm_name] in H.
  fold (slot (nd_name (nodes p)) (if b then "mul1" else "sum1")%string) in H. fold key in H.
  destruct (moving_average _ _ _ _ _ _ key sg base) as [[bb sg2]|] eqn:Ef; [|discriminate]. cbn [bind] in H.
  destruct (magic_box _ _ _ _ _ _) as [mb|]; [|discriminate]. cbn [bind] in H. destruct (torch_op2 _ _ _ _ _ mb _) as [dd|]; [|discriminate]. cbn [bind] in H.
  destruct (torch_op2 _ _ _ _ dd bb _) as [cv|]; [|discriminate]. cbn [bind] in H. destruct (add_terms _ _ _ _ _ _ _ _) as [[L2 acc2]|]; [|discriminate]. cbn [bind] in H. injection H as <- <- <-.
  split; [exact (proj1 (moving_keeps d _ _ _ _ _ _ _ Ef))|]. exists rc. split; [exact R4|]. intros [A1 A2 A3 A4 A5 A6] Hs.
  destruct (moving_average_spec veq anc_unwrap o Hring rc d (mkSample np (nd_name (nodes p)) n lp) key sg base A1 A2 A3 A4 A5 A6 Hs) as [z [Z1 [Z2 Z3]]].
  rewrite Z1 in Ef. injection Ef as <- <-. cbv beta. rewrite String.eqb_refl. split; [exact Z2|]. rewrite Z3. rewrite (decayed_cons o Hring), (decayed_nil o Hring). reflexivity.
Qed.
End Own.
