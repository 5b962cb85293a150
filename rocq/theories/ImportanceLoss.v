(** The loss of a program of one variable drawn from a proposal, and its expectation. *)
From Coq Require Import String List Arith Bool ZArith Lia Permutation Ring Relations.Relation_Operators.
From Verif Require Import Base Torch Plates Wrap OrderPlates Scalar Reduce Graph Inference Sampling Surrogate Relax Reparam ImportanceMethod ListLemmas IndexLemmas SpecTensor SpecWrap
  SpecOrder SpecReduce SpecGraph SpecSampling SpecSurrogate SpecProgram SpecImportanceMethod WrapProofs AlignProofs CallProofs CallProofs2 OpProofs OrderProofs ReduceProofs ReduceProofs2
  VarianceProofs PlateEqProofs GraphProofs SurrogateProofs SurrogateProofs2 SurrogateProofs3 CallN CallV GetitemProofs SamplingProofs SpecExact ExactProofs ProgramProofs
  ImportanceMethodProofs ImportanceProgram.
Import ListNotations.
Open Scope string_scope.
Open Scope nat_scope.
Open Scope list_scope.

Lemma path_closed : closed_under (h_parents pathwise_graph) [0; 1].
Proof. intros v u d Hv Hw. simpl in Hv. destruct Hv as [<-|[<-|[]]]; cbv in Hw; repeat (destruct Hw as [Hw|Hw]); try contradiction; injection Hw; intros; subst; simpl; auto. Qed.
Lemma path_reach : forall a, reachable (h_parents pathwise_graph) false 1 a -> a = 0 \/ a = 1.
Proof.
  assert (G : forall x y, reachable (h_parents pathwise_graph) false x y -> x <= 1 -> y <= 1).
  { intros x y H. induction H as [x|x y z Hxy Hyz IH]; auto. intros Hx. apply IH. clear IH Hyz.
    destruct Hxy as [b [Hin _]]. destruct x as [|[|x]]; [..|lia]; cbv in Hin; repeat (destruct Hin as [Hin|Hin]); try contradiction; injection Hin; intros; lia. }
  intros a H. apply G in H; lia.
Qed.

Section ImportanceLoss.
Context {V : Type}.
Variable veq : V -> V -> bool.
Variable anc_unwrap : plate V -> stensor V -> res (stensor V).
Variable o : sops V.
Hypothesis Hring : is_ring o.
Variable o_exp : V -> V.
Variable o_div : V -> V -> V.
Variables o_num recip : nat -> V.
Notation plate := (plate V).
Notation stensor := (stensor V).
Notation N l := (map (@pname V) l).
Let Hring' : ring_theory (o_zero o) (o_one o) (o_add o) (o_mul o) (o_sub o) (o_opp o) (@eq V) := Hring.
Add Ring o_ring : Hring'.

Lemma components_spec : forall (L : list nat -> V -> V) (x : stensor), wf x -> plain (splates x) ->
  has_log_prob x (components_log_prob veq anc_unwrap L) (s_event_shape x) (fun s e => L e (den x s e)).
Proof.
  intros L x Wx Px b base [Wb Pb Eb Db]. unfold components_log_prob.
  assert (HC : callable veq [b]) by (apply one_callable; auto; intros q Hq; apply Px, (Permutation_in _ (Permutation_sym Pb)), Hq).
  destruct (prepare_single veq anc_unwrap b default_opts HC eq_refl eq_refl eq_refl eq_refl eq_refl) as [t [T1 [T2 T3]]].
  set (g := fun t : ten V => Ok (mkten (shape t) (fun i => L (skipn (s_plate_dims b) i) (el t i)))).
  destruct (call_done veq anc_unwrap (torch_fn1 g) [PT b] [] [PRaw t] [] [b] default_opts base) as [_ [C _]]; [discriminate|exact HC|reflexivity|exact T1|].
  destruct (C (mkten (shape t) (fun i => L (skipn (s_plate_dims b) i) (el t i))) (s_event_shape x)) as [r [R1 [R2 [R3 [R4 [R5 _]]]]]].
  - reflexivity.
  - cbn [shape]. rewrite all_plates_single, <- T2, (wf_shape b Wb), Eb. reflexivity.
  - exists r. rewrite all_plates_single in R2. split; [exact R1|]. split; [exact R5|]. split; [rewrite R2; now apply Permutation_sym|]. split; [exact R4|].
    intros s e Hs He. assert (Hsb : in_range s (splates b)) by (eapply in_range_perm; eauto).
    rewrite <- Db by auto. unfold den. rewrite R2. rewrite R3. cbn [el].
    assert (Lb : length (map (fun p : plate => s (pname p)) (wide (splates b))) = s_plate_dims b) by (rewrite map_length; symmetry; apply (wf_dims b Wb)).
    rewrite <- Lb, skipn_app, skipn_all, Nat.sub_diag. cbn [app skipn]. f_equal. symmetry. apply T3. rewrite (wf_shape b Wb), Eb.
    apply valid_app; [|exact He]. clear - Hsb. unfold wide. induction (splates b) as [|p l IH]; cbn [filter map]; [constructor|]. destruct (1 <? pn p); [cbn [map]; constructor|].
    + apply Hsb. now left.
    + apply IH. intros q Hq. apply Hsb. now right.
    + apply IH. intros q Hq. apply Hsb. now right.
Qed.

Variables (name : string) (n : nat) (L M : list nat -> V -> V) (F : (list nat -> V) -> V) (val : nat -> V) (mc : nat -> res (ten V)).
Hypothesis Hn : 2 <= n.
Hypothesis Hmc : exists t, mc n = Ok t /\ shape t = [n] /\ forall i, i < n -> el t [i] = val i.
Hypothesis HF : forall b b', b [] = b' [] -> F b = F b'.
Notation ratio := (ratio o o_exp o_div o_num).

Theorem importance_loss : forall base, exists enough, forall fuel, enough <= fuel ->
  exists t, importance_program veq anc_unwrap o o_exp o_div o_num recip fuel name n mc (components_log_prob veq anc_unwrap L) (components_log_prob veq anc_unwrap M) F [ParT true] [ParT false] base = Ok t /\
    shape t = [] /\
    el t [] = osum o (map (fun i => o_mul o (ratio n (L [] (val i)) (M [] (val i))) (o_mul o (box o o_exp (L [] (val i))) (F (fun _ => val i)))) (seq 0 n)).
Proof.
  intros base. destruct Hmc as [t [T1 [T2 T3]]].
  destruct (importance_sample_spec veq anc_unwrap o o_exp o_div o_num recip name n mc (components_log_prob veq anc_unwrap L) (components_log_prob veq anc_unwrap M) [ParT true] [ParT false] 0 base t
    (fun s _ => L [] (val (s name))) (fun s _ => M [] (val (s name)))) as [x [p [X1 [X2 X3]]]]; auto.
  { split; [constructor|]. split; [intros ? ? []|intros ? []]. } { intros u []. }
  { intros x p [D1 [D2 [D3 [D4 [D5 [D6 [D7 D8]]]]]]]. cbn in D2, D6, D8.
    assert (Pl : plain (splates x)) by (rewrite D2; intros q [<-|[]]; exact D5).
    assert (G : forall K, has_log_prob x (components_log_prob veq anc_unwrap K) [] (fun s _ => K [] (val (s name)))).
    { intros K b bs Hb. destruct (components_spec K x D1 Pl b bs Hb) as [r [R1 [R2 [R3 [R4 R5]]]]]. exists r. split; [exact R1|]. split; [exact R2|]. split; [exact R3|]. split; [congruence|].
      intros s e Hs He. inversion He; subst e. rewrite R5 by (auto; rewrite D7; constructor). f_equal. rewrite D8 by auto. apply T3.
      rewrite D2 in Hs. specialize (Hs p (or_introl eq_refl)). rewrite D3, D4 in Hs. exact Hs. }
    split; apply G. }
  destruct X2 as [D1 [D2 [D3 [D4 [D5 [D6 [D7 D8]]]]]]]. cbn in D2, D6, D8.
  set (c := sample_cost 1 F x). set (nodes := pathwise_tensors name n (score_method veq anc_unwrap o o_exp None) (components_log_prob veq anc_unwrap L) F x).
  assert (Wd : wide [p] = [p]) by (unfold wide; cbn [filter]; rewrite D4; replace (1 <? n) with true by (symmetry; apply Nat.ltb_lt; lia); reflexivity).
  assert (Dx : forall s, s name < n -> den x s [] = val (s name)).
  { intros s Hs. rewrite D8; [now apply T3|]. rewrite D2. intros q [<-|[]]. now rewrite D3, D4. }
  assert (Ed : s_plate_dims x = 1) by (rewrite (wf_dims x D1), D2, Wd; reflexivity).
  assert (Sx : shape (st x) = [n]) by (rewrite (wf_shape x D1), D2, Wd, D7; cbn; now rewrite D4).
  assert (Sz : size_in [p] (pname p) = pn p) by (unfold size_in; cbn; rewrite String.eqb_refl; reflexivity).
  destruct (X3 [p]) as [Wf Wt].
  { intros q [<-|Hq]; [exact Sz|]. rewrite D6 in Hq. destruct Hq. } { rewrite D6. intros q []. }
  assert (An : forall q, ancestry [p] q -> q = p).
  { intros q [[<-|[]]|[r [[<-|[]] Hr]]]; [reflexivity|]. exfalso. inversion Hr as [a b Hb|a b c' Hb]; subst; rewrite D6 in Hb; destruct Hb. }
  assert (Hok : plates_ok veq [p]).
  { split.
    - split.
      + split; [cbn; constructor; [intros []|constructor]|]. split; [intros q [<-|[]]; rewrite D6; constructor|]. intros a b Ha Hb _. rewrite (An a Ha), (An b Hb). apply (peq_refl veq).
      + intros a b Ha Hb _. now rewrite (An a Ha), (An b Hb).
      + intros a Ha. rewrite (An a Ha). exact D5.
      + intros a Ha. rewrite (An a Ha), D4. lia.
    - intros [[|q l] [H1 [H2 H3]]]; [now apply H1|]. destruct (H3 q (or_introl eq_refl)) as [r [_ Hr]]. unfold parent_of in Hr. destruct (H2 q (or_introl eq_refl)) as [<-|[]]. rewrite D6 in Hr. destruct Hr.
    - intros q [<-|[]]. exact Wf. }
  assert (Cl : closed [p]) by (intros a b [<-|[]] Hb; rewrite D6 in Hb; destruct Hb).
  assert (Ov : forall y : stensor, wf y -> splates y = [p] -> over [p] y).
  { intros y Wy Py. split; [exact Wy|rewrite Py; apply incl_refl|rewrite Py; exact Cl]. }
  assert (Wc : wf c).
  { constructor; unfold c, sample_cost; cbn [splates st shape s_event_shape s_plate_dims]; [apply (wf_names x D1)|apply (wf_pos x D1)| |].
    - rewrite D2, Wd, Ed, Sx. cbn. now rewrite D4.
    - rewrite Ed, D2, Wd. reflexivity. }
  assert (Dc : forall s, s name < n -> den c s [] = F (fun _ => val (s name))).
  { intros s Hs. unfold den, c, sample_cost. cbn [splates st el]. rewrite D2, Wd, Ed. cbn [map app firstn]. apply HF. cbn beta. rewrite <- (Dx s Hs). unfold den. rewrite D2, Wd. reflexivity. }
  assert (Sc : scored nodes 1 0 true) by exact (Sc_path nodes 1 0 n (components_log_prob veq anc_unwrap L) (score_method veq anc_unwrap o o_exp None) false eq_refl eq_refl).
  assert (Setup : score_setup veq anc_unwrap o o_exp nodes pathwise_graph 1 [p] [0] (fun _ => None) (fun _ s => L [] (val (s name)))).
  { constructor.
    - exact Hok.
    - apply Ov; [exact Wc|exact D2].
    - reflexivity.
    - change (splates (nd_t (nodes 1))) with (splates x). rewrite D2, Wd. now apply closed_no_gaps.
    - constructor; [intros []|constructor].
    - intros a. split.
      + intros [<-|[]]. split; [|exact Sc]. apply (Relation_Operators.rt1n_trans _ _ 1 0); [|constructor]. exists false. split; [left; reflexivity|discriminate].
      + intros [Hr Hs]. apply path_reach in Hr. destruct Hr as [-> | ->]; simpl; auto. inversion Hs; discriminate.
    - intros a Hr. apply path_reach in Hr. destruct Hr as [-> | ->]; [exists true; exact Sc|exists false; now apply Sc_det].
    - intros a [<-|[]]. apply Ov; [exact D1|exact D2].
    - intros a [<-|[]]. exists n, (components_log_prob veq anc_unwrap L), (score_method veq anc_unwrap o o_exp None), [], (fun s e => L e (den x s e)).
      split; [reflexivity|]. split; [reflexivity|]. split.
      + rewrite <- D7. apply components_spec; [exact D1|]. rewrite D2. intros q [<-|[]]. exact D5.
      + intros s Hs. cbn [indices map osum fold_right]. change (nd_t (nodes 0)) with x in Hs. rewrite D2 in Hs. specialize (Hs p (or_introl eq_refl)). rewrite D3, D4 in Hs. rewrite Dx by exact Hs. ring.
    - intros q [<-|[]]. left. change (splates (nd_t (nodes 1))) with (splates x). rewrite D2. now left. }
  destruct (score_loss veq anc_unwrap o Hring o_exp nodes pathwise_graph [0; 1] [1] (fun _ => [p]) (fun _ => [0]) (fun _ s => L [] (val (s name))) tt (base + 20)) as [enough H].
  - exact path_closed.
  - intros q [<-|[]]. simpl. auto.
  - discriminate.
  - intros q [<-|[]]. exact Setup.
  - exists enough. intros fuel Hf. destruct (H fuel Hf) as [r [R1 [R2 [R3 R4]]]]. exists (st r). unfold importance_program. rewrite X1. cbn [bind]. fold nodes. unfold backward_value. rewrite R1. cbn [bind as_tensor].
    split; [reflexivity|]. split; [exact R3|]. rewrite R4. cbn [map]. unfold weighted_sum. cbn [sum_over map oprod fold_right osum]. rewrite D3, D4.
    match goal with |- o_add o ?a _ = _ => transitivity a; [ring|] end.
    apply osum_ext. intros i Hi. apply in_seq in Hi. set (s := set_to (fun _ => 0) name i). assert (Es : s name = i) by (unfold s, set_to; now rewrite String.eqb_refl).
    rewrite (Wt s) by (intros q [<-|Hq]; [rewrite D3, D4, Es; lia|rewrite D6 in Hq; destruct Hq]).
    change (nd_t (nodes 1)) with c. rewrite Dc by (rewrite Es; lia). rewrite Es. unfold SpecImportanceMethod.ratio.
    replace (o_add o (L [] (val i)) (o_zero o)) with (L [] (val i)) by ring. ring.
Qed.
End ImportanceLoss.

Section ImportanceMean.
Context {V : Type}.
Variable o : sops V.
Hypothesis Hring : is_ring o.
Variable o_exp : V -> V.
Hypothesis Hev : evaluates o o_exp.
Hypothesis Hexp : forall x y, o_exp (o_add o x y) = o_mul o (o_exp x) (o_exp y).
Variable o_div : V -> V -> V.
Variables o_num recip : nat -> V.
Hypothesis Hdv : divides o o_exp o_div o_num recip.
Let Hring' : ring_theory (o_zero o) (o_one o) (o_add o) (o_mul o) (o_sub o) (o_opp o) (@eq V) := Hring.
Add Ring o_ring2 : Hring'.
Variables (m : nat) (q : nat -> V).
Hypothesis Hq : osum o (map q (seq 0 m)) = o_one o.

Lemma draws_ext : forall n (f g : list nat -> V), (forall l, length l = n -> f l = g l) -> mean_draws o m q n f = mean_draws o m q n g.
Proof.
  induction n as [|n IH]; intros f g H; cbn [mean_draws]; [now apply H|]. apply osum_ext. intros k _. f_equal. apply IH. intros l Hl. apply H. cbn. now rewrite Hl.
Qed.
Lemma draws_const : forall n c, mean_draws o m q n (fun _ => c) = c.
Proof.
  induction n as [|n IH]; intros c; cbn [mean_draws]; [reflexivity|].
  transitivity (osum o (map (fun k => o_mul o (q k) c) (seq 0 m))); [apply osum_ext; intros k _; now rewrite IH|]. rewrite <- (osum_mul_r o Hring), Hq. ring.
Qed.
Lemma draws_shift : forall n c (f : list nat -> V), mean_draws o m q n (fun l => o_add o c (f l)) = o_add o c (mean_draws o m q n f).
Proof.
  induction n as [|n IH]; intros c f; cbn [mean_draws]; [reflexivity|].
  transitivity (osum o (map (fun k => o_add o (o_mul o (q k) c) (o_mul o (q k) (mean_draws o m q n (fun l => f (k :: l))))) (seq 0 m))).
  - apply osum_ext. intros k _. rewrite IH. ring.
  - rewrite (osum_add o Hring), <- (osum_mul_r o Hring), Hq. ring.
Qed.
Lemma draws_sum : forall n (g : nat -> V),
  mean_draws o m q n (fun l => osum o (map (fun i => g (nth i l 0)) (seq 0 n))) = osum o (repeat (osum o (map (fun k => o_mul o (q k) (g k)) (seq 0 m))) n).
Proof.
  intros n g. rewrite (draws_ext n _ (fun l => osum o (map g l))).
  - induction n as [|n IH]; [reflexivity|]. cbn [mean_draws repeat]. change (osum o (?x :: ?l)) with (o_add o x (osum o l)).
    transitivity (osum o (map (fun k => o_add o (o_mul o (q k) (g k)) (o_mul o (q k) (osum o (repeat (osum o (map (fun k => o_mul o (q k) (g k)) (seq 0 m))) n)))) (seq 0 m))).
    + apply osum_ext. intros k _. rewrite <- IH. transitivity (o_mul o (q k) (o_add o (g k) (mean_draws o m q n (fun l => osum o (map g l))))); [|ring]. f_equal.
      exact (draws_shift n (g k) (fun l => osum o (map g l))).
    + rewrite (osum_add o Hring), <- (osum_mul_r o Hring), Hq. change (osum o (?x :: ?l)) with (o_add o x (osum o l)). ring.
  - intros l Hl. f_equal. rewrite <- (map_map (fun i => nth i l 0) g). f_equal. clear - Hl. revert n Hl. induction l as [|a l IH]; intros n Hl; subst n; [reflexivity|].
    cbn [length seq map nth]. f_equal. rewrite <- seq_shift, map_map. apply IH. reflexivity.
Qed.
End ImportanceMean.

Section ImportanceExpect.
Context {V : Type}.
Variable veq : V -> V -> bool.
Variable anc_unwrap : plate V -> stensor V -> res (stensor V).
Variable o : sops V.
Hypothesis Hring : is_ring o.
Variable o_exp : V -> V.
Hypothesis Hev : evaluates o o_exp.
Hypothesis Hexp : forall x y, o_exp (o_add o x y) = o_mul o (o_exp x) (o_exp y).
Variable o_div : V -> V -> V.
Variables o_num recip : nat -> V.
Hypothesis Hdv : divides o o_exp o_div o_num recip.
Let Hring' : ring_theory (o_zero o) (o_one o) (o_add o) (o_mul o) (o_sub o) (o_opp o) (@eq V) := Hring.
Add Ring o_ring3 : Hring'.

(** The loss of the program of one variable, averaged over the draws of the proposal. *)
Theorem importance_expected : forall name n m (L M : list nat -> V -> V) (F : (list nat -> V) -> V) (value : nat -> V) base, 2 <= n ->
  (forall b b', b [] = b' [] -> F b = F b') ->
  osum o (map (fun k => o_det o (o_exp (M [] (value k)))) (seq 0 m)) = o_one o ->
  exists loss : list nat -> V,
    (forall ks mc, length ks = n -> (exists t, mc n = Ok t /\ shape t = [n] /\ forall i, i < n -> el t [i] = value (nth i ks 0)) -> exists enough, forall fuel, enough <= fuel ->
      exists t, importance_program veq anc_unwrap o o_exp o_div o_num recip fuel name n mc (components_log_prob veq anc_unwrap L) (components_log_prob veq anc_unwrap M) F [ParT true] [ParT false] base = Ok t /\
        shape t = [] /\ el t [] = loss ks) /\
    mean_draws o m (fun k => o_det o (o_exp (M [] (value k)))) n loss = osum o (map (fun k => o_mul o (o_exp (L [] (value k))) (F (fun _ => value k))) (seq 0 m)).
Proof.
  intros name n m L M F value base Hn HF Hq.
  set (g := fun k => o_mul o (ratio o o_exp o_div o_num n (L [] (value k)) (M [] (value k))) (o_mul o (box o o_exp (L [] (value k))) (F (fun _ => value k)))).
  exists (fun ks => osum o (map (fun i => g (nth i ks 0)) (seq 0 n))). split.
  - intros ks mc Hks Hmc. exact (importance_loss veq anc_unwrap o Hring o_exp o_div o_num recip name n L M F (fun i => value (nth i ks 0)) mc Hn Hmc HF base).
  - rewrite (draws_sum o Hring m _ Hq). set (E := osum o (map (fun k => o_mul o (o_exp (L [] (value k))) (F (fun _ => value k))) (seq 0 m))).
    transitivity (osum o (repeat (o_mul o (recip n) E) n)).
    + f_equal. f_equal. unfold E. rewrite (osum_mul_l o Hring). apply osum_ext. intros k _. unfold g.
      transitivity (o_mul o (o_mul o (o_det o (o_exp (M [] (value k)))) (ratio o o_exp o_div o_num n (L [] (value k)) (M [] (value k)))) (o_mul o (box o o_exp (L [] (value k))) (F (fun _ => value k)))); [ring|].
      rewrite (ratio_prob o o_exp Hev o_div o_num recip Hdv) by lia.
      transitivity (o_mul o (recip n) (o_mul o (o_mul o (o_det o (o_exp (L [] (value k)))) (box o o_exp (L [] (value k)))) (F (fun _ => value k)))); [ring|].
      now rewrite (det_box o Hring o_exp Hev Hexp).
    + transitivity (o_mul o (osum o (repeat (recip n) n)) E); [|rewrite (dv_sum _ _ _ _ _ Hdv) by lia; ring].
      generalize n at 2 4. intros j. induction j as [|j IH]; cbn [repeat]; [cbn; ring|].
      change (osum o (?x :: ?l)) with (o_add o x (osum o l)). rewrite IH. change (osum o (recip n :: repeat (recip n) j)) with (o_add o (recip n) (osum o (repeat (recip n) j))). ring.
Qed.

(** One sample. *)
Theorem importance_once : forall m (L M : list nat -> V -> V) (F : (list nat -> V) -> V) (value : nat -> V),
  (forall b b', b [] = b' [] -> F b = F b') ->
  exists loss : nat -> V,
    (forall k fuel, exists t, importance_program veq anc_unwrap o o_exp o_div o_num recip (20 + fuel) "x" 1 (fun _ => Ok (mkten [1] (fun _ => value k)))
        (components_log_prob veq anc_unwrap L) (components_log_prob veq anc_unwrap M) F [ParT true] [ParT false] 50 = Ok t /\ shape t = [] /\ el t [] = loss k) /\
    osum o (map (fun k => o_mul o (o_det o (o_exp (M [] (value k)))) (loss k)) (seq 0 m)) = osum o (map (fun k => o_mul o (o_exp (L [] (value k))) (F (fun _ => value k))) (seq 0 m)).
Proof.
  intros m L M F value HF.
  exists (fun k => o_mul o (ratio o o_exp o_div o_num 1 (L [] (value k)) (M [] (value k))) (o_mul o (box o o_exp (L [] (value k))) (F (fun _ => value k)))). split.
  - intros k fuel. eexists. split; [vm_compute; reflexivity|]. split; [reflexivity|]. cbn [el]. unfold ratio, box.
    match goal with |- _ = ?r => match goal with |- ?l = _ => change (o_add o (o_add o (o_zero o) (o_mul o (o_mul o
      (o_exp (o_sub o (o_add o (o_zero o) (L [] (value k))) (o_det o (o_add o (o_zero o) (L [] (value k)))))) (F (fun _ => value k)))
      (o_det o (o_div (o_exp (L [] (value k))) (o_mul o (o_num 1) (o_exp (M [] (value k)))))))) (o_zero o) = r) end end.
    replace (o_add o (o_zero o) (L [] (value k))) with (L [] (value k)) by ring. ring.
  - apply osum_ext. intros k _.
    transitivity (o_mul o (o_mul o (o_det o (o_exp (M [] (value k)))) (ratio o o_exp o_div o_num 1 (L [] (value k)) (M [] (value k)))) (o_mul o (box o o_exp (L [] (value k))) (F (fun _ => value k)))); [ring|].
    rewrite (ratio_prob o o_exp Hev o_div o_num recip Hdv) by lia.
    transitivity (o_mul o (recip 1) (o_mul o (o_mul o (o_det o (o_exp (L [] (value k)))) (box o o_exp (L [] (value k)))) (F (fun _ => value k)))); [ring|].
    rewrite (det_box o Hring o_exp Hev Hexp). pose proof (dv_sum _ _ _ _ _ Hdv 1 (le_n 1)) as E. cbn in E. replace (recip 1) with (o_one o) by (rewrite <- E; ring). ring.
Qed.
End ImportanceExpect.
