(** A concrete program for the examples about the surrogate loss: x has 2 samples of two numbers, y has 3 samples for each
    of them, and the cost uses both. Numbers are dual numbers over the integers; the exponential of (v, d) is (1, d). *)
From Coq Require Import String List Arith Bool ZArith Lia Permutation.
From Verif Require Import Base Torch Plates Wrap OrderPlates Scalar Reduce Graph Surrogate SpecTensor SpecWrap SpecOrder SpecReduce SpecGraph
  SpecSurrogate Dual OrderProofs ReduceProofs2 SurrogateProofs SurrogateProofs2 SurrogateProofs3.
Import ListNotations.
Open Scope string_scope.
Open Scope nat_scope.
Open Scope list_scope.

Definition w_int : sops Z := mkOps 0%Z 1%Z Z.add Z.mul Z.sub Z.opp (fun x => x).
Definition D : Type := (Z * Z)%type.
Definition w_ops : sops D := dual_ops w_int.
Definition w_exp : D -> D := dual_exp w_int (fun _ => 1%Z).
Definition w_eq (x y : D) : bool := (fst x =? fst y)%Z && (snd x =? snd y)%Z.
Definition w_anc (p : plate D) (a : stensor D) : res (stensor D) := Ok a.
Lemma w_ring : is_ring w_ops.
Proof. apply dual_ring. exact InitialRing.Zth. Qed.
Lemma w_evaluates : evaluates w_ops w_exp.
Proof. constructor; intros; unfold w_ops, w_exp, dual_ops, dual_exp, w_int; cbn [o_zero o_one o_add o_mul o_sub o_det fst snd]; auto; try (f_equal; cbn [fst snd]; ring). Qed.
Lemma w_exp_add : forall x y, w_exp (o_add w_ops x y) = o_mul w_ops (w_exp x) (w_exp y).
Proof. intros. unfold w_ops, w_exp, dual_ops, dual_exp, w_int. cbn [o_add o_mul fst snd]. f_equal; cbn [fst snd]; ring. Qed.

Definition nn (k : nat) : Z := Z.of_nat k.
Definition ix (k : nat) (i : list nat) : nat := nth k i 0.
Definition w_x : plate D := mkPlate PlainPlate "x" 2 (WTorch (tscalar (3, 0)%Z)) [].
Definition w_y : plate D := mkPlate PlainPlate "y" 3 (WTorch (mkten [3] (fun i => (5 + nn (ix 0 i), 0)%Z))) [w_x].
Definition t_x : stensor D := mkS 0 (mkten [2; 2] (fun i => (nn (ix 0 i + 2 * ix 1 i), 0)%Z)) [w_x] 1 [2] [] true.
Definition t_y : stensor D := mkS 1 (mkten [3; 2] (fun i => (nn (ix 0 i * 2 + ix 1 i), 0)%Z)) [w_y; w_x] 2 [] [0] true.
Definition t_c : stensor D := mkS 2 (mkten [2; 3] (fun i => (nn (1 + ix 0 i + 10 * ix 1 i), nn (ix 0 i))%Z)) [w_x; w_y] 2 [] [0; 1] false.
(** The log-probability of one element: sample times parameter, which has derivative one. *)
Definition w_prm : stensor D := mkS 10 (mkten [2] (fun _ => (4, 1)%Z)) [] 0 [2] [] false.
Definition w_prm' : stensor D := mkS 11 (tscalar (7, 1)%Z) [] 0 [] [] false.
Definition w_lp (prm : stensor D) (x : stensor D) (base : nat) : res (pyval D) := torch_op2 w_eq w_anc top_ctx (o_mul w_ops) (PT x) (PT prm) base.
Definition w_base : @baseline D unit := fun _ _ _ sg _ => Ok (PRaw (tscalar (9, 2)%Z), sg).
Definition w_nodes (b : option (@baseline D unit)) (i : nat) : @snode D unit :=
  match i with
  | 0 => mkNode t_x "x" (Some (2, w_lp w_prm, true, Some (score_method w_eq w_anc w_ops w_exp None)))
  | 1 => mkNode t_y "y" (Some (3, w_lp w_prm', true, Some (score_method w_eq w_anc w_ops w_exp b)))
  | _ => mkNode t_c "cost" None
  end.
Definition w_heap : heap := fold_left (fun h ps => construct ps h) [[]; [0]; [0; 1]] empty_heap.
Definition w_plates : list (plate D) := [w_x; w_y].

Lemma w_sound : sound w_eq w_plates.
Proof.
  assert (A : forall p, ancestry w_plates p -> In p w_plates).
  { intros p Hp. apply ancestry_ups in Hp. simpl in Hp. simpl. intuition. }
  constructor.
  - split; [|split].
    + repeat constructor; simpl; intuition discriminate.
    + intros p Hp. simpl in Hp. destruct Hp as [<-|[<-|[]]]; repeat constructor; simpl; intuition discriminate.
    + intros p q Hp Hq E. apply A in Hp. apply A in Hq. simpl in Hp, Hq. intuition (subst; simpl in *; try discriminate; reflexivity).
  - intros p q Hp Hq E. apply A in Hp. apply A in Hq. simpl in Hp, Hq. intuition (subst; simpl in *; try discriminate; reflexivity).
  - intros p Hp. apply A in Hp. simpl in Hp. intuition (subst; reflexivity).
  - intros p Hp. apply A in Hp. simpl in Hp. intuition (subst; simpl; lia).
Qed.
Lemma w_acyclic : ~ cyclic w_plates.
Proof.
  intros [c [Hne [Hi Hp]]]. assert (Hx : ~ In w_x c). { intros C. destruct (Hp _ C) as [p [_ H]]. destruct H. }
  destruct c as [|q c]; [congruence|]. destruct (Hp q (or_introl eq_refl)) as [p [Hpc H]].
  assert (Hp' := Hi p Hpc). assert (Hq' := Hi q (or_introl eq_refl)). simpl in Hp', Hq'. unfold parent_of in H.
  destruct Hp' as [<-|[<-|[]]]; try contradiction; destruct Hq' as [<-|[<-|[]]]; simpl in H; intuition discriminate.
Qed.
Lemma w_plates_ok : plates_ok w_eq w_plates.
Proof.
  constructor; [exact w_sound|exact w_acyclic|]. intros p [<-|[<-|[]]]; [left; reflexivity|right; split; [repeat constructor|reflexivity]].
Qed.
Ltac wf_conc := constructor; try reflexivity; simpl; [repeat constructor; simpl; intuition discriminate|intros p H; intuition (subst; simpl; lia)].
Ltac closed_conc := intros p q Hp Hq; simpl in Hp; intuition (subst; simpl in *; intuition (subst; simpl; auto)).
Lemma w_over_x : over w_plates t_x.
Proof. constructor; [wf_conc|intros p H; simpl in *; intuition|closed_conc]. Qed.
Lemma w_over_y : over w_plates t_y.
Proof. constructor; [wf_conc|intros p H; simpl in *; intuition|closed_conc]. Qed.
Lemma w_over_c : over w_plates t_c.
Proof. constructor; [wf_conc|intros p H; simpl in *; intuition|closed_conc]. Qed.
Lemma w_over_p : over w_plates w_prm.
Proof. constructor; [wf_conc|intros p H; simpl in *; intuition|closed_conc]. Qed.
Lemma w_over_p' : over w_plates w_prm'.
Proof. constructor; [wf_conc|intros p H; simpl in *; intuition|closed_conc]. Qed.

(** The log-probability of each sample: the sum of its elements times the parameter. *)
Definition w_score (a : nat) (s : assignment) : D :=
  match a with
  | 0 => osum w_ops (map (fun e => o_mul w_ops (den t_x s e) (den w_prm s e)) (indices [2]))
  | _ => osum w_ops (map (fun e => o_mul w_ops (den t_y s e) (den w_prm' s e)) (indices []))
  end.

Lemma w_reach : forall a, reachable (h_parents w_heap) false 2 a -> a = 0 \/ a = 1 \/ a = 2.
Proof.
  assert (G : forall x y, reachable (h_parents w_heap) false x y -> x <= 2 -> y <= 2).
  { intros x y H. induction H as [x|x y z Hxy Hyz IH]; auto. intros Hx. apply IH. clear IH Hyz.
    destruct Hxy as [b [Hin _]]. destruct x as [|[|[|x]]]; [..|lia]; cbv in Hin; repeat (destruct Hin as [Hin|Hin]); try contradiction; injection Hin; intros; lia. }
  intros a H. apply G in H; lia.
Qed.
Lemma w_setup : forall b, score_setup w_eq w_anc w_ops w_exp (w_nodes b) w_heap 2 w_plates [0; 1] (fun a => match a with 1 => b | _ => None end) w_score.
Proof.
  intros b. constructor.
  - exact w_plates_ok.
  - exact w_over_c.
  - reflexivity.
  - intros p Hp. left. simpl in Hp. destruct Hp as [<-|[<-|[]]]; simpl; intuition (subst; simpl; auto).
  - repeat constructor; simpl; intuition discriminate.
  - intros a. split.
    + intros [<-|[<-|[]]].
      * split; [|exact (Sc_path (w_nodes b) 2 0 2 (w_lp w_prm) (score_method w_eq w_anc w_ops w_exp None) false eq_refl eq_refl)].
        apply (Relation_Operators.rt1n_trans _ _ 2 0); [|constructor]. exists false. split; [left; reflexivity|discriminate].
      * split; [|exact (Sc_path (w_nodes b) 2 1 3 (w_lp w_prm') (score_method w_eq w_anc w_ops w_exp b) false eq_refl eq_refl)].
        apply (Relation_Operators.rt1n_trans _ _ 2 1); [|constructor]. exists false. split; [right; left; reflexivity|discriminate].
    + intros [Hr Hs]. apply w_reach in Hr. destruct Hr as [-> | [-> | ->]]; simpl; auto. inversion Hs; discriminate.
  - intros a Hr. apply w_reach in Hr. destruct Hr as [-> | [-> | ->]].
    + exists true. exact (Sc_path (w_nodes b) 2 0 2 (w_lp w_prm) (score_method w_eq w_anc w_ops w_exp None) false eq_refl eq_refl).
    + exists true. exact (Sc_path (w_nodes b) 2 1 3 (w_lp w_prm') (score_method w_eq w_anc w_ops w_exp b) false eq_refl eq_refl).
    + exists false. now apply Sc_det.
  - intros a [<-|[<-|[]]]; [exact w_over_x|exact w_over_y].
  - intros a [<-|[<-|[]]].
    + exists 2, (w_lp w_prm), (score_method w_eq w_anc w_ops w_exp None), [2], (fun s e => o_mul w_ops (den t_x s e) (den w_prm s e)).
      split; [reflexivity|]. split; [reflexivity|]. split; [|intros s _; reflexivity].
      apply (elementwise_log_prob w_eq w_anc w_plates t_x w_prm (o_mul w_ops) w_sound w_over_x w_over_p); [intros q []|reflexivity].
    + exists 3, (w_lp w_prm'), (score_method w_eq w_anc w_ops w_exp b), [], (fun s e => o_mul w_ops (den t_y s e) (den w_prm' s e)).
      split; [reflexivity|]. split; [reflexivity|]. split; [|intros s _; reflexivity].
      apply (elementwise_log_prob w_eq w_anc w_plates t_y w_prm' (o_mul w_ops) w_sound w_over_y w_over_p'); [intros q []|reflexivity].
  - intros p Hp. left. exact Hp.
Qed.
Lemma w_closed : closed_under (h_parents w_heap) [0; 1; 2] /\ closed w_plates.
Proof.
  split; [|closed_conc]. intros v u d Hv Hw. simpl in Hv. destruct Hv as [<-|[<-|[<-|[]]]]; cbv in Hw; repeat (destruct Hw as [Hw|Hw]); try contradiction; injection Hw; intros; subst; simpl; auto.
Qed.
Lemma w_baseline : baseline_gives w_ops w_plates (w_nodes (Some w_base)) 2 1 w_base (fun _ _ _ _ => True).
Proof.
  intros np rc nm n lp sg base _ _ _ r m _. exists (PRaw (tscalar (9, 2)%Z)), [], (fun _ => (9, 2)%Z), sg.
  split; [reflexivity|]. split; [split; [reflexivity|split; reflexivity]|]. split; [intros p []|]. split; [intros p q []|]. split; [constructor|exact I].
Qed.
