(** The program of ProgramWitness.v with fair coins as proposals: the weights of the plates are ratios. *)
From Coq Require Import String List Arith Bool ZArith Lia Permutation Reals Lra FunctionalExtensionality.
From Verif Require Import Base Torch Plates Wrap OrderPlates Scalar Reduce Graph Surrogate SpecTensor SpecWrap SpecOrder SpecReduce SpecGraph
  SpecSurrogate SpecProgram SpecImportanceMethod Curves OrderProofs ReduceProofs2 SurrogateProofs SurrogateProofs2 SurrogateProofs3 ProgramWitness.
Import ListNotations.
Open Scope string_scope.
Open Scope nat_scope.
Open Scope list_scope.

Definition curve_div (f g : C) : C := fun t => (f t / g t)%R.
Definition curve_num (n : nat) : C := fun _ => INR n.
Definition curve_recip (n : nat) : C := fun _ => (/ INR n)%R.
Lemma curve_divides : forall t0, divides (curve_ops t0) curve_exp curve_div curve_num curve_recip.
Proof.
  intros t0. constructor.
  - intros n x y Hn. apply functional_extensionality. intros t. cbn. unfold curve_exp, curve_div, curve_num, curve_recip. cbn.
    assert (INR n <> 0%R) by (apply not_0_INR; lia). pose proof (exp_pos (y t)). field. split; auto. lra.
  - intros n. reflexivity.
  - intros n Hn. apply functional_extensionality. intros t.
    assert (G : forall j, osum (curve_ops t0) (repeat (curve_recip n) j) t = (INR j * / INR n)%R).
    { induction j as [|j IH]; [cbn; ring|]. cbn [repeat]. change (osum (curve_ops t0) (?x :: ?l)) with (o_add (curve_ops t0) x (osum (curve_ops t0) l)).
      rewrite S_INR. cbn [o_add curve_ops]. rewrite IH. unfold curve_recip. ring. }
    rewrite G. cbn. apply Rinv_r. apply not_0_INR. lia.
Qed.

Lemma put_here : forall (r : nat -> bool) a x, put r a x a = x.
Proof. intros r a x. unfold put. now rewrite Nat.eqb_refl. Qed.

Section Witness.
Variable t0 : R.
Let ops : sops C := curve_ops t0.
Notation world := (@world bool).

(** The log-probability of a fair coin. *)
Definition v_logq (a : nat) (s : assignment) (r : nat -> bool) : C := bern (fun _ => num (r a)) (fun _ => 0%R).
Definition v_count (a : nat) : nat := match a with 0 => 2 | _ => 3 end.
Definition v_own (a : nat) : string := match a with 0 => "x" | _ => "y" end.
Definition v_ratio (a : nat) (r : nat -> bool) : C := ratio ops curve_exp curve_div curve_num (v_count a) (c_logp a (fun _ => 0) r) (v_logq a (fun _ => 0) r).
Definition v_x (w : world) : plate C := mkPlate PlainPlate "x" 2 (WStorch 20 (mkten [2] (fun i => v_ratio 0 (fun _ => w 0 i))) ["x"]) [].
Definition v_y (w : world) : plate C :=
  mkPlate PlainPlate "y" 3 (WStorch 21 (mkten [3; 2] (fun i => v_ratio 1 (fun a => match a with 0 => w 0 [ix 1 i] | _ => w 1 i end))) ["y"; "x"]) [v_x w].
Definition v_plates (w : world) : list (plate C) := [v_x w; v_y w].
Definition v_tx (w : world) : stensor C := mkS 0 (mkten [2] (fun i _ => num (w 0 i))) [v_x w] 1 [] [] true.
Definition v_ty (w : world) : stensor C := mkS 1 (mkten [3; 2] (fun i _ => num (w 1 i))) [v_y w; v_x w] 2 [] [0] true.
Definition v_lx : stensor C := c_lx.
Definition v_ly (w : world) : stensor C := mkS 11 (mkten [2] (fun i t => (t * (1 + num (w 0%nat i)))%R)) [v_x w] 1 [] [] false.
Definition v_tc (w : world) : stensor C :=
  mkS 2 (mkten [2; 3] (fun i t => ((1 + num (w 0%nat [ix 0 i]) + 3 * num (w 1%nat [ix 1 i; ix 0 i])) * t)%R)) [v_x w; v_y w] 2 [] [0; 1] false.
Definition v_nodes (w : world) (i : nat) : @snode C unit :=
  match i with
  | 0 => mkNode (v_tx w) "x" (Some (2, c_lp v_lx, true, Some (score_method c_eq c_anc ops curve_exp None)))
  | 1 => mkNode (v_ty w) "y" (Some (3, c_lp (v_ly w), true, Some (score_method c_eq c_anc ops curve_exp None)))
  | _ => mkNode (v_tc w) "cost" None
  end.

Lemma v_sound : forall w, sound c_eq (v_plates w).
Proof. intros w.
  assert (A : forall p, ancestry (v_plates w) p -> In p (v_plates w)).
  { intros p Hp. apply ancestry_ups in Hp. simpl in Hp. simpl. intuition. }
  assert (Ex : peq c_eq (v_x w) (v_x w) = true).
  { unfold peq, v_x. cbn. try rewrite c_eq_refl. reflexivity. }
  assert (Ey : peq c_eq (v_y w) (v_y w) = true).
  { unfold peq, v_y, v_x. cbn. try rewrite c_eq_refl. reflexivity. }
  constructor.
  - split; [|split].
    + repeat constructor; simpl; intuition discriminate.
    + intros p Hp. simpl in Hp. destruct Hp as [<-|[<-|[]]]; repeat constructor; simpl; intuition discriminate.
    + intros p q Hp Hq E. apply A in Hp. apply A in Hq. simpl in Hp, Hq.
      destruct Hp as [<-|[<-|[]]], Hq as [<-|[<-|[]]]; try discriminate; assumption.
  - intros p q Hp Hq E. apply A in Hp. apply A in Hq. simpl in Hp, Hq. intuition (subst; simpl in *; try discriminate; reflexivity).
  - intros p Hp. apply A in Hp. simpl in Hp. intuition (subst; reflexivity).
  - intros p Hp. apply A in Hp. simpl in Hp. intuition (subst; simpl; lia).
Qed.
Lemma v_acyclic : forall w, ~ cyclic (v_plates w).
Proof. intros w.
  intros [c [Hne [Hi Hp]]]. assert (Hx : ~ In (v_x w) c). { intros A. destruct (Hp _ A) as [p [_ H]]. destruct H. }
  destruct c as [|q c]; [congruence|]. destruct (Hp q (or_introl eq_refl)) as [p [Hpc H]].
  assert (Hp' := Hi p Hpc). assert (Hq' := Hi q (or_introl eq_refl)). simpl in Hp', Hq'. unfold parent_of in H.
  destruct Hp' as [<-|[<-|[]]]; try contradiction; destruct Hq' as [<-|[<-|[]]]; simpl in H; intuition discriminate.
Qed.
Lemma v_plates_ok : forall w, plates_ok c_eq (v_plates w).
Proof. intros w. constructor; [exact (v_sound w)|exact (v_acyclic w)|]. intros p [<-|[<-|[]]]; cbn; repeat split; try lia; try (repeat constructor; simpl; intuition discriminate); simpl; intuition (subst; simpl; auto). Qed.
Ltac wf_conc := constructor; try reflexivity; simpl; [repeat constructor; simpl; intuition discriminate|intros p H; intuition (subst; simpl; lia)].
Ltac closed_conc := intros p q Hp Hq; simpl in Hp; intuition (subst; simpl in *; intuition (subst; simpl; auto)).
Lemma v_over_x : forall w, over (v_plates w) (v_tx w).
Proof. intros w. constructor; [wf_conc|intros p H; simpl in *; intuition|closed_conc]. Qed.
Lemma v_over_y : forall w, over (v_plates w) (v_ty w).
Proof. intros w. constructor; [wf_conc|intros p H; simpl in *; intuition|closed_conc]. Qed.
Lemma v_over_c : forall w, over (v_plates w) (v_tc w).
Proof. intros w. constructor; [wf_conc|intros p H; simpl in *; intuition|closed_conc]. Qed.
Lemma v_over_lx : forall w, over (v_plates w) v_lx.
Proof. intros w. constructor; [wf_conc|intros p H; simpl in *; intuition|closed_conc]. Qed.
Lemma v_over_ly : forall w, over (v_plates w) (v_ly w).
Proof. intros w. constructor; [wf_conc|intros p H; simpl in *; intuition|closed_conc]. Qed.
Lemma v_setup : forall w, score_setup c_eq c_anc ops curve_exp (v_nodes w) c_heap 2 (v_plates w) [0; 1] (fun _ => None)
  (fun a s => pg_logp c_prog a s (along c_prog w s)).
Proof.
  intros w. constructor.
  - exact (v_plates_ok w).
  - exact (v_over_c w).
  - reflexivity.
  - intros p Hp. left. simpl in Hp. destruct Hp as [<-|[<-|[]]]; simpl; intuition (subst; simpl; auto).
  - repeat constructor; simpl; intuition discriminate.
  - intros a. split.
    + intros [<-|[<-|[]]].
      * split; [|exact (Sc_path (v_nodes w) 2 0 2 (c_lp v_lx) (score_method c_eq c_anc ops curve_exp None) false eq_refl eq_refl)].
        apply (Relation_Operators.rt1n_trans _ _ 2 0); [|constructor]. exists false. split; [left; reflexivity|discriminate].
      * split; [|exact (Sc_path (v_nodes w) 2 1 3 (c_lp (v_ly w)) (score_method c_eq c_anc ops curve_exp None) false eq_refl eq_refl)].
        apply (Relation_Operators.rt1n_trans _ _ 2 1); [|constructor]. exists false. split; [right; left; reflexivity|discriminate].
    + intros [Hr Hs]. apply c_reach in Hr. destruct Hr as [-> | [-> | ->]]; simpl; auto. inversion Hs; discriminate.
  - intros a Hr. apply c_reach in Hr. destruct Hr as [-> | [-> | ->]].
    + exists true. exact (Sc_path (v_nodes w) 2 0 2 (c_lp v_lx) (score_method c_eq c_anc ops curve_exp None) false eq_refl eq_refl).
    + exists true. exact (Sc_path (v_nodes w) 2 1 3 (c_lp (v_ly w)) (score_method c_eq c_anc ops curve_exp None) false eq_refl eq_refl).
    + exists false. now apply Sc_det.
  - intros a [<-|[<-|[]]]; [exact (v_over_x w)|exact (v_over_y w)].
  - intros a [<-|[<-|[]]].
    + exists 2, (c_lp v_lx), (score_method c_eq c_anc ops curve_exp None), [], (fun s e => bern (den (v_tx w) s e) (den v_lx s e)).
      split; [reflexivity|]. split; [reflexivity|]. split.
      * apply (elementwise_log_prob c_eq c_anc (v_plates w) (v_tx w) v_lx bern (v_sound w) (v_over_x w) (v_over_lx w)); [intros q []|reflexivity].
      * intros s _. apply functional_extensionality. intros t. cbn. unfold along, den, bern. cbn. ring.
    + exists 3, (c_lp (v_ly w)), (score_method c_eq c_anc ops curve_exp None), [], (fun s e => bern (den (v_ty w) s e) (den (v_ly w) s e)).
      split; [reflexivity|]. split; [reflexivity|]. split.
      * apply (elementwise_log_prob c_eq c_anc (v_plates w) (v_ty w) (v_ly w) bern (v_sound w) (v_over_y w) (v_over_ly w)); [|reflexivity].
        intros q [<-|[]]. simpl. auto.
      * intros s _. apply functional_extensionality. intros t. cbn. unfold along, den, bern. cbn. ring.
  - intros p Hp. left. exact Hp.
Qed.
Lemma v_den : forall w s, den (nd_t (v_nodes w 2)) s [] = c_cost 2 (along c_prog w s).
Proof. intros w s. reflexivity. Qed.
Lemma v_weights : forall w, ratio_weights (fun a s => ratio ops curve_exp curve_div curve_num (v_count a) (pg_logp c_prog a s (along c_prog w s)) (v_logq a s (along c_prog w s)))
  c_plates (v_plates w) [0; 1] v_own v_count.
Proof.
  intros w. constructor.
  - reflexivity.
  - split; [repeat constructor; simpl; intuition discriminate|]. split; [repeat constructor; simpl; intuition discriminate|].
    intros nm k. cbn. split.
    + intros [H|[H|[]]]; injection H; intros; subst; [exists 0|exists 1]; auto.
    + intros [a [[<-|[<-|[]]] [<- <-]]]; auto.
  - intros a b [<-|[<-|[]]] [<-|[<-|[]]]; cbn; intros H; try discriminate; reflexivity.
  - intros a p s [<-|[<-|[]]] [<-|[<-|[]]]; cbn; intros H; try discriminate; reflexivity.
Qed.
Lemma v_proposed_ok : program_ok ops curve_exp (proposed c_prog v_logq).
Proof.
  destruct (c_program_ok t0) as [P1 P2 P3 P4 P5 P6]. constructor; auto.
  - intros a s s' r r' Ha Hs Hd. split; [reflexivity|]. intros E. cbn. unfold v_logq. now rewrite E.
  - intros a s r Ha. etransitivity; [|exact (bern_sums t0 (fun _ => 0%R))]. cbn. unfold SpecProgram.prob. cbn. unfold v_logq. rewrite !put_here. reflexivity.
Qed.
End Witness.
