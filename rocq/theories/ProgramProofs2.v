(** The expected surrogate loss of the score function (C23). *)
From Coq Require Import String List Arith Bool ZArith Lia Permutation Ring.
From Verif Require Import Base Torch Plates Wrap OrderPlates Scalar Reduce Graph Surrogate SpecTensor SpecWrap SpecOrder SpecReduce SpecGraph
  SpecSurrogate SpecProgram ListLemmas OrderProofs ReduceProofs ReduceProofs2 VarianceProofs SurrogateProofs SurrogateProofs2 ProgramProofs.
Import ListNotations.

Section Unbiased.
Context {V S X : Type}.
Variable veq : V -> V -> bool.
Variable anc_unwrap : plate V -> stensor V -> res (stensor V).
Variable o : sops V.
Hypothesis Hring : is_ring o.
Variable o_exp : V -> V.
Hypothesis Hev : evaluates o o_exp.
Hypothesis Hexp : forall x y, o_exp (o_add o x y) = o_mul o (o_exp x) (o_exp y).
Notation plate := (plate V).
Notation world := (@world X).
Notation N l := (map (@pname V) l).
Let Hring' : ring_theory (o_zero o) (o_one o) (o_add o) (o_mul o) (o_sub o) (o_opp o) (@eq V) := Hring.
Add Ring o_ring : Hring'.

Lemma in_range_FP : forall FP s, (forall p, In p FP -> s (pname p) < pn p) -> in_range s (FP : list plate).
Proof. intros FP s H p Hp. now apply H. Qed.

Theorem score_unbiased : forall (pg : program V X) (nodes : world -> nat -> @snode V S) h univ costs FP T anc cost sg base,
  program_ok o o_exp pg -> costs <> [] ->
  (forall w, closed_under (h_parents (h w)) (univ w) /\ incl costs (univ w)) ->
  (forall w c, In c costs -> score_setup veq anc_unwrap o o_exp (nodes w) (h w) c (FP c) (anc c) (fun _ => None) (fun a s => pg_logp pg a s (along pg w s)) /\
     forall s, in_range s (FP c) -> den (nd_t (nodes w c)) s [] = cost c s (along pg w s)) ->
  (forall c, In c costs -> depends_on o o_exp pg (FP c) (T c) (anc c) (cost c)) ->
  exists loss : world -> V,
    (forall w, exists enough, forall fuel, enough <= fuel ->
       exists t, backward_value veq anc_unwrap o o_exp fuel (h w) (nodes w) costs sg base = Ok t /\ shape t = [] /\ el t [] = loss w) /\
    forall w r, sampled o o_exp pg w loss =
      osum o (map (fun c => weighted_sum o false (FP c) (FP c) (fun s => mean o o_exp pg s r (cost c s)) (fun _ => 0)) costs).
Proof.
  intros pg nodes h univ costs FP T anc cost sg base Hpg Hne Hu Hss Hdep.
  exists (fun w => osum o (map (fun c => weighted_sum o false (FP c) (FP c) (fun s =>
      o_mul o (box o o_exp (osum o (map (fun a => pg_logp pg a s (along pg w s)) (anc c)))) (den (nd_t (nodes w c)) s [])) (fun _ => 0)) costs)).
  split.
  - intros w. destruct (Hu w) as [Hu1 Hu2].
    destruct (score_loss veq anc_unwrap o Hring o_exp (nodes w) (h w) (univ w) costs FP anc (fun a s => pg_logp pg a s (along pg w s)) sg base Hu1 Hu2 Hne) as [enough H];
      [intros c Hc; apply (Hss w c Hc)|].
    exists enough. intros fuel Hf. destruct (H fuel Hf) as [r [R1 [R2 [R3 R4]]]]. exists (st r). unfold backward_value. rewrite R1. cbn [bind as_tensor].
    split; [reflexivity|]. split; [exact R3|exact R4].
  - intros w r. unfold sampled. rewrite (sampled_sum o Hring). apply osum_ext. intros c Hc.
    set (L := sites pg). set (F := fun (s : assignment) w => o_mul o (box o o_exp (osum o (map (fun a => pg_logp pg a s (along pg w s)) (anc c)))) (cost c s (along pg w s))).
    assert (HS : sound veq (FP c)) by (apply (po_sound _ _ (ss_plates _ _ _ _ _ _ _ _ _ _ _ (proj1 (Hss w c Hc))))).
    transitivity (sampled_from o o_exp pg L w (fun w => weighted_sum o false (FP c) (FP c) (fun s => F s w) (fun _ => 0))).
    + apply sampled_ext. intros w'. apply (weighted_sum_ext anc_unwrap); [exact (HND veq (FP c) HS)|]. intros s Hs1 Hs2. unfold F. f_equal.
      apply (proj2 (Hss w' c Hc)). exact (in_range_FP _ _ Hs2).
    + rewrite (sampled_weighted o Hring o_exp pg (FP c) (FP c) L w (fun _ => 0) F). apply (weighted_sum_ext anc_unwrap); [exact (HND veq (FP c) HS)|].
      intros s Hs1 Hs2. unfold F.
      exact (boxed_mean o Hring o_exp Hev Hexp pg Hpg (FP c) (T c) (anc c) (cost c) s w r (Hdep c Hc) (ss_nodup _ _ _ _ _ _ _ _ _ _ _ (proj1 (Hss w c Hc))) (in_range_FP _ _ Hs2)).
Qed.

Lemma all_normalised : forall FP c, plates_ok veq FP -> closed FP -> (forall p, In p FP -> normalised o false FP p) ->
  weighted_sum o false FP FP (fun _ => c) (fun _ => 0) = c.
Proof.
  intros FP c Hok Hcl Hn. pose proof (po_sound _ _ Hok) as HS.
  destruct (order_plates_spec veq FP (so_orderable _ _ HS) (closed_no_gaps FP Hcl)) as [_ Ho].
  destruct (Ho (po_acyclic _ _ Hok)) as [l [O1 [O2 [O3 O4]]]].
  assert (Nl : NoDup (N l)) by (eapply Permutation_NoDup; [apply Permutation_map, Permutation_sym, O3|apply (HND veq FP HS)]).
  assert (HP : Permutation FP (rev l)) by (eapply Permutation_trans; [apply Permutation_sym, O3|apply Permutation_rev]).
  transitivity (weighted_sum o false FP ([] ++ rev l) (fun _ => c) (fun _ => 0)).
  - unfold weighted_sum. rewrite (sum_over_perm o Hring _ _ _ _ HP (HND veq FP HS)).
    + apply sum_over_pt. intros s. f_equal. exact (wprod_perm o Hring false FP _ _ s HP).
    + intros s s' H. f_equal. exact (wprod_ext o false FP _ s s' H).
  - rewrite (drop_normalised veq anc_unwrap o Hring FP (rev l) [] (fun _ => c)); auto.
    + cbn. unfold weighted_sum. simpl. ring.
    + intros s s' _. reflexivity.
    + simpl. rewrite map_rev. now apply NoDup_rev.
    + intros x Hx. apply (Permutation_in _ (Permutation_sym HP)). exact Hx.
    + intros p q [].
    + exact (parents_first_children l Nl O4).
    + intros p Hp. apply Hn, (Permutation_in _ (Permutation_sym HP)). exact Hp.
Qed.

(** Samples that are exchangeable: neither the distributions nor the costs depend on which sample it is. *)
Lemma mean_from_choice : forall (pg : program V X) s s' vs r (f : path -> V),
  (forall a r, In a vs -> pg_support pg a s r = pg_support pg a s' r /\ pg_logp pg a s r = pg_logp pg a s' r) ->
  mean_from o o_exp pg vs s r f = mean_from o o_exp pg vs s' r f.
Proof.
  intros pg s s' vs. induction vs as [|a vs IH]; intros r f H; simpl; [reflexivity|].
  rewrite (proj1 (H a r (or_introl eq_refl))). apply osum_ext. intros x _. unfold prob. rewrite (proj2 (H a _ (or_introl eq_refl))). f_equal.
  apply IH. intros b r' Hb. apply H. now right.
Qed.

Theorem score_unbiased_mc : forall (pg : program V X) (nodes : world -> nat -> @snode V S) h univ costs FP T anc cost sg base,
  program_ok o o_exp pg -> costs <> [] ->
  (forall w, closed_under (h_parents (h w)) (univ w) /\ incl costs (univ w)) ->
  (forall w c, In c costs -> score_setup veq anc_unwrap o o_exp (nodes w) (h w) c (FP c) (anc c) (fun _ => None) (fun a s => pg_logp pg a s (along pg w s)) /\
     forall s, in_range s (FP c) -> den (nd_t (nodes w c)) s [] = cost c (along pg w s)) ->
  (forall c, In c costs -> depends_on o o_exp pg (FP c) (T c) (anc c) (fun _ => cost c)) ->
  (forall c, In c costs -> closed (FP c) /\ forall p, In p (FP c) -> normalised o false (FP c) p) ->
  (forall a s s' r, In a (pg_vars pg) -> pg_support pg a s r = pg_support pg a s' r /\ pg_logp pg a s r = pg_logp pg a s' r) ->
  exists loss : world -> V,
    (forall w, exists enough, forall fuel, enough <= fuel ->
       exists t, backward_value veq anc_unwrap o o_exp fuel (h w) (nodes w) costs sg base = Ok t /\ shape t = [] /\ el t [] = loss w) /\
    forall w r s, sampled o o_exp pg w loss = osum o (map (fun c => mean o o_exp pg s r (cost c)) costs).
Proof.
  intros pg nodes h univ costs FP T anc cost sg base Hpg Hne Hu Hss Hdep Hn Hx.
  destruct (score_unbiased pg nodes h univ costs FP T anc (fun c _ => cost c) sg base Hpg Hne Hu Hss Hdep) as [loss [H1 H2]].
  exists loss. split; [exact H1|]. intros w r s. rewrite (H2 w r). apply osum_ext. intros c Hc. destruct (Hn c Hc) as [N1 N2].
  rewrite <- (all_normalised (FP c) (mean o o_exp pg s r (cost c)) (ss_plates _ _ _ _ _ _ _ _ _ _ _ (proj1 (Hss w c Hc))) N1 N2).
  unfold weighted_sum. apply sum_over_pt. intros s'. f_equal. unfold mean. apply mean_from_choice. intros a r' Ha. now apply Hx.
Qed.
End Unbiased.
