(** A concrete sampling program for the examples about expectations: x ~ Bernoulli(sigmoid(t)), 2 samples; for each of them
    3 samples of y ~ Bernoulli(sigmoid(t (1 + x))); the cost is (1 + x + 3 y) t. Numbers are functions of the parameter t. *)
From Coq Require Import String List Arith Bool ZArith Lia Permutation Reals Lra FunctionalExtensionality.
From Verif Require Import Base Torch Plates Wrap OrderPlates Scalar Reduce Graph Surrogate SpecTensor SpecWrap SpecOrder SpecReduce SpecGraph
  SpecSurrogate SpecProgram Curves OrderProofs ReduceProofs2 SurrogateProofs SurrogateProofs2 SurrogateProofs3.
Import ListNotations.
Open Scope string_scope.
Open Scope nat_scope.
Open Scope list_scope.

Definition C : Type := (R -> R).
Section Witness.
Variable t0 : R.
Let ops : sops C := curve_ops t0.
Definition c_eq (f g : C) : bool := if Req_EM_T (f 0%R) (g 0%R) then true else false.
Lemma c_eq_refl : forall f, c_eq f f = true.
Proof. intros f. unfold c_eq. destruct (Req_EM_T (f 0%R) (f 0%R)); congruence. Qed.
Definition c_anc (p : plate C) (a : stensor C) : res (stensor C) := Ok a.

Definition sig (u : R) : R := (/ (1 + exp (- u)))%R.
Lemma sig_pos : forall u, (0 < sig u < 1)%R.
Proof.
  intros u. unfold sig. assert (H := exp_pos (- u)). split; [apply Rinv_0_lt_compat; lra|].
  rewrite <- Rinv_1 at 2. apply Rinv_lt_contravar; lra.
Qed.
Definition bern (v u : C) : C := fun t => (v t * ln (sig (u t)) + (1 - v t) * ln (1 - sig (u t)))%R.
Definition ix (k : nat) (i : list nat) : nat := nth k i 0.
Definition num (b : bool) : R := if b then 1%R else 0%R.

Definition c_x : plate C := mkPlate PlainPlate "x" 2 (WTorch (tscalar (fun _ => (/ 2)%R))) [].
Definition c_y : plate C := mkPlate PlainPlate "y" 3 (WTorch (tscalar (fun _ => (/ 3)%R))) [c_x].
Definition c_plates : list (plate C) := [c_x; c_y].
Notation world := (@world bool).
Definition c_tx (w : world) : stensor C := mkS 0 (mkten [2] (fun i _ => num (w 0 i))) [c_x] 1 [] [] true.
Definition c_ty (w : world) : stensor C := mkS 1 (mkten [3; 2] (fun i _ => num (w 1 i))) [c_y; c_x] 2 [] [0] true.
Definition c_lx : stensor C := mkS 10 (tscalar (fun t => t)) [] 0 [] [] false.
Definition c_ly (w : world) : stensor C := mkS 11 (mkten [2] (fun i t => (t * (1 + num (w 0%nat i)))%R)) [c_x] 1 [] [] false.
Definition c_tc (w : world) : stensor C :=
  mkS 2 (mkten [2; 3] (fun i t => ((1 + num (w 0%nat [ix 0 i]) + 3 * num (w 1%nat [ix 1 i; ix 0 i])) * t)%R)) [c_x; c_y] 2 [] [0; 1] false.
Definition c_lp (prm : stensor C) (x : stensor C) (base : nat) : res (pyval C) := torch_op2 c_eq c_anc top_ctx bern (PT x) (PT prm) base.
Definition c_nodes (w : world) (i : nat) : @snode C unit :=
  match i with
  | 0 => mkNode (c_tx w) "x" (Some (2, c_lp c_lx, true, Some (score_method c_eq c_anc ops curve_exp None)))
  | 1 => mkNode (c_ty w) "y" (Some (3, c_lp (c_ly w), true, Some (score_method c_eq c_anc ops curve_exp None)))
  | _ => mkNode (c_tc w) "cost" None
  end.
Definition c_heap : heap := fold_left (fun h ps => construct ps h) [[]; [0]; [0; 1]] empty_heap.

Definition c_logp (a : nat) (s : assignment) (r : nat -> bool) : C :=
  match a with
  | 0 => bern (fun _ => num (r 0%nat)) (fun t => t)
  | _ => bern (fun _ => num (r 1%nat)) (fun t => (t * (1 + num (r 0%nat)))%R)
  end.
Definition c_prog : program C bool := mkProgram [0; 1] (fun a => match a with 0 => [c_x] | _ => [c_y; c_x] end)
  (fun a => match a with 0 => [] | _ => [0] end) (fun _ _ _ => [true; false]) c_logp.
Definition c_cost (c : nat) (r : nat -> bool) : C := fun t => ((1 + num (r 0%nat) + 3 * num (r 1%nat)) * t)%R.

Lemma c_sound : sound c_eq c_plates.
Proof.
  assert (A : forall p, ancestry c_plates p -> In p c_plates).
  { intros p Hp. apply ancestry_ups in Hp. simpl in Hp. simpl. intuition. }
  assert (Ex : peq c_eq c_x c_x = true).
  { unfold peq, c_x. cbn. try rewrite c_eq_refl. reflexivity. }
  assert (Ey : peq c_eq c_y c_y = true).
  { unfold peq, c_y, c_x. cbn. try rewrite c_eq_refl. reflexivity. }
  constructor.
  - split; [|split].
    + repeat constructor; simpl; intuition discriminate.
    + intros p Hp. simpl in Hp. destruct Hp as [<-|[<-|[]]]; repeat constructor; simpl; intuition discriminate.
    + intros p q Hp Hq E. apply A in Hp. apply A in Hq. simpl in Hp, Hq.
      destruct Hp as [<-|[<-|[]]], Hq as [<-|[<-|[]]]; try discriminate; assumption.
  - intros p q Hp Hq E. apply A in Hp. apply A in Hq. simpl in Hp, Hq. intuition (subst; simpl in *; try discriminate; reflexivity).
  - intros p Hp. apply A in Hp. simpl in Hp. intuition (subst; reflexivity).
  - intros p Hp. apply A in Hp. simpl in Hp. intuition (subst; simpl; lia).
Qed.
Lemma c_acyclic : ~ cyclic c_plates.
Proof.
  intros [c [Hne [Hi Hp]]]. assert (Hx : ~ In c_x c). { intros A. destruct (Hp _ A) as [p [_ H]]. destruct H. }
  destruct c as [|q c]; [congruence|]. destruct (Hp q (or_introl eq_refl)) as [p [Hpc H]].
  assert (Hp' := Hi p Hpc). assert (Hq' := Hi q (or_introl eq_refl)). simpl in Hp', Hq'. unfold parent_of in H.
  destruct Hp' as [<-|[<-|[]]]; try contradiction; destruct Hq' as [<-|[<-|[]]]; simpl in H; intuition discriminate.
Qed.
Lemma c_plates_ok : plates_ok c_eq c_plates.
Proof. constructor; [exact c_sound|exact c_acyclic|]. intros p [<-|[<-|[]]]; left; reflexivity. Qed.
Ltac wf_conc := constructor; try reflexivity; simpl; [repeat constructor; simpl; intuition discriminate|intros p H; intuition (subst; simpl; lia)].
Ltac closed_conc := intros p q Hp Hq; simpl in Hp; intuition (subst; simpl in *; intuition (subst; simpl; auto)).
Lemma c_over_x : forall w, over c_plates (c_tx w).
Proof. intros w. constructor; [wf_conc|intros p H; simpl in *; intuition|closed_conc]. Qed.
Lemma c_over_y : forall w, over c_plates (c_ty w).
Proof. intros w. constructor; [wf_conc|intros p H; simpl in *; intuition|closed_conc]. Qed.
Lemma c_over_c : forall w, over c_plates (c_tc w).
Proof. intros w. constructor; [wf_conc|intros p H; simpl in *; intuition|closed_conc]. Qed.
Lemma c_over_lx : over c_plates c_lx.
Proof. constructor; [wf_conc|intros p H; simpl in *; intuition|closed_conc]. Qed.
Lemma c_over_ly : forall w, over c_plates (c_ly w).
Proof. intros w. constructor; [wf_conc|intros p H; simpl in *; intuition|closed_conc]. Qed.
Lemma c_reach : forall a, reachable (h_parents c_heap) false 2 a -> a = 0 \/ a = 1 \/ a = 2.
Proof.
  assert (G : forall x y, reachable (h_parents c_heap) false x y -> x <= 2 -> y <= 2).
  { intros x y H. induction H as [x|x y z Hxy Hyz IH]; auto. intros Hx. apply IH. clear IH Hyz.
    destruct Hxy as [b [Hin _]]. destruct x as [|[|[|x]]]; [..|lia]; cbv in Hin; repeat (destruct Hin as [Hin|Hin]); try contradiction; injection Hin; intros; lia. }
  intros a H. apply G in H; lia.
Qed.
Lemma c_closed : closed_under (h_parents c_heap) [0; 1; 2] /\ closed c_plates.
Proof.
  split; [|closed_conc]. intros v u d Hv Hw. simpl in Hv. destruct Hv as [<-|[<-|[<-|[]]]]; cbv in Hw; repeat (destruct Hw as [Hw|Hw]); try contradiction; injection Hw; intros; subst; simpl; auto.
Qed.
Lemma c_setup : forall w, score_setup c_eq c_anc ops curve_exp (c_nodes w) c_heap 2 c_plates [0; 1] (fun _ => None)
  (fun a s => pg_logp c_prog a s (along c_prog w s)).
Proof.
  intros w. constructor.
  - exact c_plates_ok.
  - exact (c_over_c w).
  - reflexivity.
  - intros p Hp. left. simpl in Hp. destruct Hp as [<-|[<-|[]]]; simpl; intuition (subst; simpl; auto).
  - repeat constructor; simpl; intuition discriminate.
  - intros a. split.
    + intros [<-|[<-|[]]].
      * split; [|exact (Sc_path (c_nodes w) 2 0 2 (c_lp c_lx) (score_method c_eq c_anc ops curve_exp None) false eq_refl eq_refl)].
        apply (Relation_Operators.rt1n_trans _ _ 2 0); [|constructor]. exists false. split; [left; reflexivity|discriminate].
      * split; [|exact (Sc_path (c_nodes w) 2 1 3 (c_lp (c_ly w)) (score_method c_eq c_anc ops curve_exp None) false eq_refl eq_refl)].
        apply (Relation_Operators.rt1n_trans _ _ 2 1); [|constructor]. exists false. split; [right; left; reflexivity|discriminate].
    + intros [Hr Hs]. apply c_reach in Hr. destruct Hr as [-> | [-> | ->]]; simpl; auto. inversion Hs; discriminate.
  - intros a Hr. apply c_reach in Hr. destruct Hr as [-> | [-> | ->]].
    + exists true. exact (Sc_path (c_nodes w) 2 0 2 (c_lp c_lx) (score_method c_eq c_anc ops curve_exp None) false eq_refl eq_refl).
    + exists true. exact (Sc_path (c_nodes w) 2 1 3 (c_lp (c_ly w)) (score_method c_eq c_anc ops curve_exp None) false eq_refl eq_refl).
    + exists false. now apply Sc_det.
  - intros a [<-|[<-|[]]]; [exact (c_over_x w)|exact (c_over_y w)].
  - intros a [<-|[<-|[]]].
    + exists 2, (c_lp c_lx), (score_method c_eq c_anc ops curve_exp None), [], (fun s e => bern (den (c_tx w) s e) (den c_lx s e)).
      split; [reflexivity|]. split; [reflexivity|]. split.
      * apply (elementwise_log_prob c_eq c_anc c_plates (c_tx w) c_lx bern c_sound (c_over_x w) c_over_lx); [intros q []|reflexivity].
      * intros s _. apply functional_extensionality. intros t. cbn. unfold along, den, bern. cbn. ring.
    + exists 3, (c_lp (c_ly w)), (score_method c_eq c_anc ops curve_exp None), [], (fun s e => bern (den (c_ty w) s e) (den (c_ly w) s e)).
      split; [reflexivity|]. split; [reflexivity|]. split.
      * apply (elementwise_log_prob c_eq c_anc c_plates (c_ty w) (c_ly w) bern c_sound (c_over_y w) (c_over_ly w)); [|reflexivity].
        intros q [<-|[]]. simpl. auto.
      * intros s _. apply functional_extensionality. intros t. cbn. unfold along, den, bern. cbn. ring.
  - intros p Hp. left. exact Hp.
Qed.
Lemma c_den : forall w s, den (nd_t (c_nodes w 2)) s [] = c_cost 2 (along c_prog w s).
Proof. intros w s. reflexivity. Qed.

Lemma bern_sums : forall u : C, osum ops (map (fun b => curve_exp (bern (fun _ => num b) u)) [true; false]) = o_one ops.
Proof.
  intros u. apply functional_extensionality. intros t. cbn. unfold curve_exp, bern. cbn. destruct (sig_pos (u t)) as [H1 H2].
  replace (1 * ln (sig (u t)) + (1 - 1) * ln (1 - sig (u t)))%R with (ln (sig (u t))) by ring.
  replace (0 * ln (sig (u t)) + (1 - 0) * ln (1 - sig (u t)))%R with (ln (1 - sig (u t))) by ring.
  rewrite !exp_ln by lra. ring.
Qed.
Lemma c_program_ok : program_ok ops curve_exp c_prog.
Proof.
  constructor.
  - repeat constructor; simpl; intuition discriminate.
  - intros l a r E. destruct l as [|x [|y l]]; [..|destruct l; discriminate]; injection E; intros; subst; intros b Hb; simpl in *; tauto.
  - intros a [<-|[<-|[]]]; repeat constructor; simpl; intuition discriminate.
  - intros a b [<-|[<-|[]]] Hb; simpl in Hb; [contradiction|]. destruct Hb as [<-|[]]. intros x [<-|[]]. simpl. auto.
  - intros a s s' r r' [<-|[<-|[]]] Hs Hd; (split; [reflexivity|]); intros E; cbn; rewrite E; auto. rewrite (Hd 0 (or_introl eq_refl)). reflexivity.
  - intros a s r [<-|[<-|[]]].
    + rewrite <- (bern_sums (fun t => t)). reflexivity.
    + rewrite <- (bern_sums (fun t => (t * (1 + num (r 0%nat)))%R)). reflexivity.
Qed.
Lemma c_depends : depends_on ops curve_exp c_prog c_plates [0; 1] [0; 1] (fun _ => c_cost 2).
Proof.
  constructor.
  - apply incl_refl.
  - intros a [<-|[<-|[]]] b Hb; simpl in *; tauto.
  - intros a p [<-|[<-|[]]] Hp; simpl in *; tauto.
  - apply incl_refl.
  - intros s r r' H. unfold c_cost. rewrite (H 0), (H 1) by (simpl; auto). reflexivity.
  - intros a s r Ha Hn. contradiction.
Qed.
Lemma c_normalised : forall p, In p c_plates -> normalised ops false c_plates p.
Proof.
  intros p [<-|[<-|[]]] s _; apply functional_extensionality; intros t; cbn; field.
Qed.
End Witness.
