(** The expectation of the loss of RaoBlackwellSF with other plates. *)
From Coq Require Import String List Arith Bool ZArith Lia Permutation Ring.
From Verif Require Import Base Torch Plates Wrap OrderPlates Scalar Reduce Graph Surrogate Estimators RaoBlackwell ListLemmas IndexLemmas SpecTensor SpecWrap
  SpecOrder SpecReduce SpecGraph SpecSurrogate SpecRaoBlackwell WrapProofs AlignProofs CallProofs CallProofs2 OpProofs OrderProofs ReduceProofs ReduceProofs2
  VarianceProofs PlateEqProofs GraphProofs SurrogateProofs SurrogateProofs2 SurrogateProofs3 BroadcastProofs RaoBlackwellProofs RaoBatchProofs.
Import ListNotations.
Open Scope nat_scope.

Section RBB2.
Context {V S : Type}.
Variable veq : V -> V -> bool.
Variable anc_unwrap : plate V -> stensor V -> res (stensor V).
Variable o : sops V.
Hypothesis Hring : is_ring o.
Variable o_exp : V -> V.
Hypothesis Hev : evaluates o o_exp.
Hypothesis Hadd : forall x y, o_exp (o_add o x y) = o_mul o (o_exp x) (o_exp y).
Notation plate := (plate V).
Notation N l := (map (@pname V) l).
Let Hring' : ring_theory (o_zero o) (o_one o) (o_add o) (o_mul o) (o_sub o) (o_opp o) (@eq V) := Hring.
Add Ring o_ring : Hring'.

(** ** Expectations *)
Section Expect.
Variable opts : list nat -> list nat.
Variable law : list nat -> nat -> V.
Hypothesis Hlaw : forall r, osum o (map (law r) (opts r)) = o_one o.
Notation E := (expect_rows o opts law).

Lemma E_ext : forall rows F G g, (forall g, F g = G g) -> E rows F g = E rows G g.
Proof. induction rows as [|r rs IH]; intros F G g H; simpl; auto. apply (osum_ext o). intros v _. f_equal. now apply IH. Qed.
Lemma E_add : forall rows F G g, E rows (fun h => o_add o (F h) (G h)) g = o_add o (E rows F g) (E rows G g).
Proof.
  induction rows as [|r rs IH]; intros F G g; simpl; auto. rewrite <- (osum_add o Hring). apply (osum_ext o). intros v _. rewrite IH. ring.
Qed.
Lemma E_zero : forall rows g, E rows (fun _ => o_zero o) g = o_zero o.
Proof.
  induction rows as [|r rs IH]; intros g; simpl; auto. generalize (opts r). intros l. induction l as [|v l IHl]; [reflexivity|]. cbn [map]. rewrite osum_cons, IHl, IH. ring.
Qed.
Lemma E_osum : forall rows {A} (F : A -> (list nat -> nat) -> V) l g, E rows (fun h => osum o (map (fun a => F a h) l)) g = osum o (map (fun a => E rows (F a) g) l).
Proof.
  intros rows A F l g. induction l as [|a l IH]; [apply E_zero|]. cbn [map]. rewrite osum_cons, <- IH, <- E_add. apply E_ext. intros h. apply osum_cons.
Qed.
Lemma E_sum_over : forall (ps : list plate) rows (F : assignment -> (list nat -> nat) -> V) s g,
  E rows (fun h => sum_over o ps (fun s => F s h) s) g = sum_over o ps (fun s => E rows (F s) g) s.
Proof.
  induction ps as [|p ps IH]; intros rows F s g; simpl; auto. rewrite E_osum. apply (osum_ext o). intros i _. apply IH.
Qed.
Lemma E_scale : forall rows c F g, E rows (fun h => o_mul o c (F h)) g = o_mul o c (E rows F g).
Proof.
  induction rows as [|r rs IH]; intros c F g; simpl; auto. rewrite (osum_mul_l o Hring). apply (osum_ext o). intros v _. rewrite IH. ring.
Qed.
Lemma E_absent : forall rows r (f : nat -> V) g, ~ In r rows -> E rows (fun h => f (h r)) g = f (g r).
Proof.
  induction rows as [|q rs IH]; intros r f g Hr; simpl; auto.
  transitivity (osum o (map (fun v => o_mul o (law q v) (f (g r))) (opts q))).
  - apply (osum_ext o). intros v _. rewrite IH by (intros C; apply Hr; now right). destruct (list_eq_dec Nat.eq_dec r q) as [->|]; [exfalso; apply Hr; now left|]. reflexivity.
  - rewrite <- (osum_mul_r o Hring), Hlaw. ring.
Qed.
Lemma E_one : forall rows r (f : nat -> V) g, NoDup rows -> In r rows -> E rows (fun h => f (h r)) g = osum o (map (fun v => o_mul o (law r v) (f v)) (opts r)).
Proof.
  induction rows as [|q rs IH]; intros r f g ND Hr; [destruct Hr|]. inversion ND as [|? ? N1 N2]; subst. simpl. destruct (list_eq_dec Nat.eq_dec q r) as [->|Hne].
  - apply (osum_ext o). intros v _. rewrite E_absent by exact N1. destruct (list_eq_dec Nat.eq_dec r r) as [_|C]; [reflexivity|congruence].
  - destruct Hr as [->|Hr]; [congruence|].
    transitivity (osum o (map (fun v => o_mul o (law q v) (osum o (map (fun v => o_mul o (law r v) (f v)) (opts r)))) (opts q))).
    + apply (osum_ext o). intros v _. f_equal. now apply IH.
    + rewrite <- (osum_mul_r o Hring), Hlaw. ring.
Qed.
End Expect.

(** ** One row *)
Lemma row_sum : forall (sel : list nat) v (lp cost : nat -> V) cast, sel <> [] ->
  osum o (map (fun i => o_mul o (nth i (rb_weighting o o_exp (length sel + 1) (map lp (sel ++ [v]))) (o_zero o)) (o_mul o
    (box o o_exp (if (length sel + 1 =? length sel + 1) && (i =? length sel + 1 - 1) then cast (lp v) else o_zero o)) (nth i (map cost (sel ++ [v])) (o_zero o))))
    (seq 0 (length sel + 1))) =
  o_add o (osum o (map (fun v => o_mul o (o_exp (lp v)) (cost v)) sel))
      (o_mul o (o_sub o (o_one o) (osum o (map (fun v => o_det o (o_exp (lp v))) sel))) (o_mul o (box o o_exp (cast (lp v))) (cost v))).
Proof.
  intros sel v lp cost cast H2. rewrite Nat.eqb_refl. cbn [andb].
  rewrite seq_app, map_app, osum_app by exact Hring. f_equal.
  - apply osum_nth2. intros i Hi. destruct (nth_error sel i) as [u|] eqn:Ev; [|apply nth_error_None in Ev; lia]. exists u. split; [reflexivity|].
    unfold rb_weighting. rewrite !map_length, app_length. simpl length. rewrite Nat.eqb_refl.
    replace (i =? length sel + 1 - 1) with false by (symmetry; apply Nat.eqb_neq; lia). cbv iota.
    rewrite map_app. simpl map. rewrite removelast_last, map_map.
    rewrite app_nth1 by (rewrite map_length; lia). rewrite (nth_map_some _ _ _ _ _ Ev).
    rewrite map_app. rewrite app_nth1 by (rewrite map_length; lia). rewrite (nth_map_some _ _ _ _ _ Ev), (box_zero o Hring o_exp Hev). ring.
  - simpl seq. cbn [map]. rewrite osum_cons. cbn [osum fold_right].
    unfold rb_weighting. rewrite !map_length, app_length. simpl length. rewrite Nat.eqb_refl. simpl Nat.add.
    replace (length sel =? length sel + 1 - 1) with true by (symmetry; apply Nat.eqb_eq; lia). cbv iota.
    rewrite !map_app. simpl map. rewrite removelast_last, map_map.
    rewrite app_nth2 by (rewrite map_length; lia). rewrite map_length, Nat.sub_diag. simpl nth.
    rewrite app_nth2 by (rewrite map_length; lia). rewrite map_length, Nat.sub_diag. simpl nth.
    rewrite (det_osum o o_exp Hev), map_map. ring.
Qed.
Lemma row_expect : forall d (lp cost : nat -> V) (sel : list nat) (law : nat -> V), NoDup sel -> (forall v, In v sel -> v < d) ->
  osum o (map law (rest d sel)) = o_one o ->
  (forall v, In v (rest d sel) -> o_mul o (law v) (o_sub o (o_one o) (osum o (map (fun v => o_det o (o_exp (lp v))) sel))) = o_det o (o_exp (lp v))) ->
  osum o (map (fun v => o_mul o (law v) (o_add o (osum o (map (fun v => o_mul o (o_exp (lp v)) (cost v)) sel))
      (o_mul o (o_sub o (o_one o) (osum o (map (fun v => o_det o (o_exp (lp v))) sel))) (o_mul o (box o o_exp (lp v)) (cost v))))) (rest d sel))
  = osum o (map (fun v => o_mul o (o_exp (lp v)) (cost v)) (seq 0 d)).
Proof.
  intros d lp cost sel law Hnd Hlt H1 Hlaw.
  set (Q := osum o (map (fun v => o_det o (o_exp (lp v))) sel)) in *. set (A := osum o (map (fun v => o_mul o (o_exp (lp v)) (cost v)) sel)).
  transitivity (osum o (map (fun v => o_add o (o_mul o (law v) A) (o_mul o (o_exp (lp v)) (cost v))) (rest d sel))).
  { apply (osum_ext o). intros v Hv. rewrite <- (box_split o Hring o_exp Hev Hadd (lp v)), <- (Hlaw v Hv). ring. }
  rewrite (osum_add o Hring), <- (osum_mul_r o Hring), H1, (split_options o Hring d sel) by auto. fold A. ring.
Qed.

(** ** The plates *)
Section PlatesOk.
Variables (name : string) (obj k L : nat) (ys : list plate) (lp : ten V).
Notation P := (rb_batch_plate o o_exp name obj k ys lp).
Notation FP := (ys ++ [P]).
Hypothesis HL : 2 <= L.
Hypothesis Hys : forall y, In y ys -> 2 <= pn y.
Hypothesis Hlp : shape lp = map pn ys ++ [L].
Hypothesis Hok : plates_ok veq ys.
Hypothesis Hcl : closed ys.
Hypothesis Hname : forall p, ancestry ys p -> pname p <> name.

Lemma anc_FP : forall p, ancestry FP p -> ancestry ys p \/ p = P.
Proof.
  intros p [H|[q [Hq H]]].
  - apply in_app_or in H. destruct H as [H|[<-|[]]]; [left; now left|now right].
  - left. apply in_app_or in Hq. destruct Hq as [Hq|[<-|[]]]; [right; eauto|]. inversion H as [a p' Ha|a q' p' Ha Hb]; subst; simpl in Ha; [now left|right; eauto].
Qed.
Lemma P_size : pn P = L. Proof. simpl. now rewrite Hlp, last_last. Qed.
Lemma batch_ok : plates_ok veq FP.
Proof.
  destruct Hok as [[[O1 [O2 O3]] S2 S3 S4] Ac Wf].
  assert (Nn : ~ In name (N ys)) by (intros C; apply in_map_iff in C; destruct C as [q [C1 C2]]; apply (Hname q); [now left|exact C1]).
  assert (ND : NoDup (N FP)).
  { rewrite map_app. apply NoDup_app_intro; auto; [repeat constructor; intros []|]. intros y Hy [<-|[]]. now apply Nn. }
  assert (PP : peq veq P P = true).
  { unfold peq, plate_eq_base. cbn [pcls rb_batch_plate pname pn pweight]. rewrite String.eqb_refl, !Nat.eqb_refl. reflexivity. }
  constructor.
  - constructor.
    + split; [exact ND|]. split.
      * intros p Hp. apply in_app_or in Hp. destruct Hp as [Hp|[<-|[]]]; [auto|]. exact O1.
      * intros p q Hp Hq E. apply anc_FP in Hp. apply anc_FP in Hq. destruct Hp as [Hp| ->], Hq as [Hq| ->]; auto; exfalso; eapply Hname; eauto.
    + intros p q Hp Hq E. apply anc_FP in Hp. apply anc_FP in Hq. destruct Hp as [Hp| ->], Hq as [Hq| ->]; auto; exfalso; eapply Hname; eauto.
    + intros p Hp. apply anc_FP in Hp. destruct Hp as [Hp| ->]; auto.
    + intros p Hp. apply anc_FP in Hp. destruct Hp as [Hp| ->]; auto. rewrite P_size. lia.
  - intros [c [C1 [C2 C3]]].
    assert (NP : forall q, In q c -> ~ parent_of P q).
    { intros q Hq C. unfold parent_of in C. apply C2 in Hq. apply in_app_or in Hq. destruct Hq as [Hq|[<-|[]]]; [|exact (Nn C)].
      apply in_map_iff in C. destruct C as [r [R1 R2]]. apply (Hname r); [right; exists q; split; auto; now constructor|exact R1]. }
    assert (D : forall q, In q c -> exists p, In p c /\ In p ys /\ parent_of p q).
    { intros q Hq. destruct (C3 q Hq) as [p [P1 P2]]. exists p. split; [exact P1|]. split; [|exact P2].
      pose proof (C2 p P1) as Hp. apply in_app_or in Hp. destruct Hp as [Hp|[<-|[]]]; [exact Hp|]. exfalso. exact (NP q Hq P2). }
    apply Ac. exists (filter (fun q => negb (String.eqb (pname q) name)) c). assert (F : forall p, In p c -> In p ys -> In p (filter (fun q => negb (String.eqb (pname q) name)) c)).
    { intros p H1 H2. apply filter_In. split; [exact H1|]. destruct (String.eqb_spec (pname p) name) as [E|]; [|reflexivity]. exfalso. apply (Hname p); [now left|exact E]. }
    split; [|split].
    + destruct c as [|q c]; [congruence|]. destruct (D q (or_introl eq_refl)) as [p [D1 [D2 _]]]. specialize (F p D1 D2). intros E. rewrite E in F. destruct F.
    + intros q Hq. apply filter_In in Hq. destruct Hq as [Q1 Q2]. pose proof (C2 q Q1) as Hq. apply in_app_or in Hq. destruct Hq as [Hq|[<-|[]]]; [exact Hq|].
      exfalso. simpl in Q2. rewrite String.eqb_refl in Q2. discriminate.
    + intros q Hq. apply filter_In in Hq. destruct Hq as [Hq _]. destruct (D q Hq) as [p [D1 [D2 D3]]]. exists p. auto.
  - assert (SI : forall y, In y (N ys) -> size_in FP y = size_in ys y).
    { intros y Hy. unfold size_in. generalize P. clear -Hy. intros R. induction ys as [|q l IH]; [destruct Hy|]. simpl. destruct (String.eqb_spec (pname q) y) as [E|E]; auto.
      apply IH. destruct Hy as [Hy|Hy]; [congruence|exact Hy]. }
    assert (SP : size_in FP name = L).
    { unfold size_in. rewrite <- P_size. assert (G : forall Q, pname Q = name -> match find (fun p : plate => String.eqb (pname p) name) (ys ++ [Q]) with Some p => pn p | None => 0 end = pn Q);
        [|now apply (G P)]. intros Q HQ. clear -Nn HQ. induction ys as [|q l IH]; simpl; [rewrite HQ, String.eqb_refl; reflexivity|].
      destruct (String.eqb_spec (pname q) name) as [E|E]; [exfalso; apply Nn; now left|]. apply IH. intros C. apply Nn. now right. }
    assert (SY : map (size_in FP) (N ys) = map pn ys).
    { rewrite (map_ext_in _ (size_in ys)) by auto. clear -O1. induction ys as [|q l IH]; [reflexivity|]. cbn [map] in *. inversion O1 as [|? ? A1 A2]; subst.
      f_equal; [unfold size_in; simpl; now rewrite String.eqb_refl|]. rewrite <- (IH A2). apply map_ext_in. intros y Hy. unfold size_in. simpl.
      destruct (String.eqb_spec (pname q) y) as [E|E]; [congruence|reflexivity]. }
    intros p Hp. apply in_app_or in Hp. destruct Hp as [Hp|[<-|[]]].
    + specialize (Wf p Hp). unfold weight_fits in *. destruct (pweight p) as [w|ob w names]; [exact Wf|]. destruct Wf as [W1 [W2 [W3 [W4 [W5 W6]]]]].
      refine (conj W1 (conj W2 (conj W3 (conj W4 (conj _ _))))).
      * intros q Hq. rewrite map_app. apply in_or_app. left. auto.
      * assert (I : incl names (N ys)) by (intros y Hy; destruct (W4 y Hy) as [->|C]; [now apply in_map|apply in_map_iff in C; destruct C as [q [<- C]]; auto]).
        rewrite W6. assert (X : wide_names FP names = wide_names ys names) by (apply filter_ext_in; intros y Hy; now rewrite SI by auto).
        rewrite X. apply map_ext_in. intros y Hy. symmetry. apply SI. apply filter_In in Hy. apply I. tauto.
    + unfold weight_fits. cbn [pweight rb_batch_plate pn pname pparents]. rewrite Hlp, last_last. split; [lia|].
      split; [rewrite map_app in ND; exact ND|]. split; [apply in_or_app; right; now left|].
      split; [intros y Hy; apply in_app_or in Hy; destruct Hy as [Hy|[<-|[]]]; auto|].
      split; [intros q Hq; rewrite map_app; apply in_or_app; left; now apply in_map|].
      unfold rb_weight_tensor. cbn [shape]. rewrite Hlp.
      assert (X : wide_names FP (N ys ++ [name]) = N ys ++ [name]).
      { unfold wide_names. rewrite filter_app. f_equal.
        - clear -SY Hys. rename ys into l. assert (G : forall y, In y (N l) -> 1 < size_in (l ++ [rb_batch_plate o o_exp name obj k l lp]) y).
          { intros y Hy. assert (In (size_in (l ++ [rb_batch_plate o o_exp name obj k l lp]) y) (map pn l)) by (rewrite <- SY; now apply in_map).
            apply in_map_iff in H. destruct H as [q [<- Hq]]. specialize (Hys q Hq). lia. }
          revert G. generalize (size_in (l ++ [rb_batch_plate o o_exp name obj k l lp])). intros f. generalize (N l). intros m G. induction m as [|y m IH]; [reflexivity|].
          simpl. rewrite (proj2 (Nat.ltb_lt _ _) (G y (or_introl eq_refl))). f_equal. apply IH. intros z Hz. apply G. now right.
        - cbn [filter]. rewrite SP. rewrite (proj2 (Nat.ltb_lt 1 L)) by lia. reflexivity. }
      rewrite X, map_app. f_equal; [now symmetry|]. cbn [map]. now rewrite SP.
Qed.
End PlatesOk.

(** ** The expectation *)
Theorem rb_batch_unbiased : forall name obj k d (ys : list plate) (lp cost : list nat -> nat -> V) (sel : list nat -> list nat) (law : list nat -> nat -> V) cast
  (x : (list nat -> nat) -> ten V) (sg : S) base g0,
  (forall v, cast v = v) -> 2 <= k -> (forall r, length (sel r) + 1 = k /\ NoDup (sel r) /\ forall v, In v (sel r) -> v < d) ->
  (forall g, exists ev, shape (x g) = map pn ys ++ k :: ev) ->
  plates_ok veq ys -> closed ys -> (forall y, In y ys -> 2 <= pn y) -> (forall p, ancestry ys p -> pname p <> name) ->
  (forall r, osum o (map (law r) (rest d (sel r))) = o_one o) ->
  (forall r v, In v (rest d (sel r)) ->
     o_mul o (law r v) (o_sub o (o_one o) (osum o (map (fun v => o_det o (o_exp (lp r v))) (sel r)))) = o_det o (o_exp (lp r v))) ->
  exists loss : (list nat -> nat) -> V, (forall g, exists t, backward_value veq anc_unwrap o o_exp 20 rb_heap
      (rb_batch_nodes (S := S) veq anc_unwrap o o_exp name obj k ys (ys ++ [rb_batch_plate o o_exp name obj k ys (at_rows (map pn ys) k sel g lp)])
         (at_rows (map pn ys) k sel g lp) cast (x g) (at_rows (map pn ys) k sel g cost)) [1] sg base = Ok t /\ shape t = [] /\ el t [] = loss g) /\
    expect_rows o (fun r => rest d (sel r)) law (indices (map pn ys)) loss g0
    = weighted_sum o false ys ys (fun s => osum o (map (fun v => o_mul o (o_exp (lp (map s (N ys)) v)) (cost (map s (N ys)) v)) (seq 0 d))) (fun _ => 0).
Proof.
  intros name obj k d ys lp cost sel law cast x sg base g0 Hc Hk Hsel Hx Hok Hcl Hys Hname H1 Hlaw.
  assert (NDy : NoDup (N ys)) by (destruct Hok as [[[O1 _] _ _ _] _ _]; exact O1).
  set (one := fun r v => o_add o (osum o (map (fun v => o_mul o (o_exp (lp r v)) (cost r v)) (sel r)))
      (o_mul o (o_sub o (o_one o) (osum o (map (fun v => o_det o (o_exp (lp r v))) (sel r)))) (o_mul o (box o o_exp (lp r v)) (cost r v)))).
  exists (fun g => weighted_sum o false ys ys (fun s => one (map s (N ys)) (g (map s (N ys)))) (fun _ => 0)).
  assert (EL : forall g (f : list nat -> nat -> V) r, map (fun j => el (at_rows (map pn ys) k sel g f) (r ++ [j])) (seq 0 k) = map (f r) (sel r ++ [g r])).
  { intros g f r. destruct (Hsel r) as [Hl _]. transitivity (map (fun j => f r (nth j (sel r ++ [g r]) 0)) (seq 0 (length (sel r ++ [g r])))).
    - rewrite app_length. cbn [length]. rewrite Hl. apply map_ext. intros j. unfold at_rows. cbn [el]. now rewrite removelast_last, last_last.
    - rewrite <- (map_map (fun j => nth j (sel r ++ [g r]) 0) (f r)). f_equal. generalize (sel r ++ [g r]). clear. intros l. induction l as [|y l IH]; [reflexivity|].
      cbn [length seq map nth]. f_equal. rewrite <- seq_shift, map_map. exact IH. }
  split.
  - intros g. destruct (Hx g) as [ev Ev].
    destruct (brb_loss (S := S) veq anc_unwrap o Hring o_exp name obj k k ys (at_rows (map pn ys) k sel g lp) (x g) (at_rows (map pn ys) k sel g cost) ev cast Hk Hys eq_refl Ev eq_refl) with (sg := sg) (base := base)
      as [t [T1 [T2 T3]]]; [now apply (batch_ok name obj k k)|exact Hcl|].
    exists t. split; [exact T1|]. split; [exact T2|]. rewrite T3. unfold weighted_sum. apply (sum_over_ext anc_unwrap o); [exact NDy|]. intros s _ _. f_equal. generalize (map s (N ys)). intros r.
    unfold row_loss, row_lp. rewrite EL. destruct (Hsel r) as [Hl [Hs1 Hs2]]. unfold one. rewrite <- (Hc (lp r (g r))). rewrite <- (row_sum (sel r) (g r) (lp r) (cost r) cast) by (intros C; rewrite C in Hl; simpl in Hl; lia).
    rewrite Hl. apply (osum_ext o). intros i Hi. apply in_seq in Hi. f_equal. f_equal.
    + f_equal. destruct ((k =? k) && (i =? k - 1)); [|reflexivity]. f_equal. unfold at_rows. cbn [el]. rewrite removelast_last, last_last.
      f_equal. rewrite app_nth2 by lia. replace (k - 1 - length (sel r)) with 0 by lia. reflexivity.
    + unfold at_rows. cbn [el]. rewrite removelast_last, last_last. rewrite (nth_indep _ (o_zero o) (cost r 0)) by (rewrite map_length, app_length; simpl; lia).
      now rewrite map_nth.
  - unfold weighted_sum. rewrite E_sum_over. apply (sum_over_ext anc_unwrap o); [exact NDy|]. intros s _ Hs.
    rewrite E_scale. f_equal. rewrite (E_one (fun r => rest d (sel r)) law H1); [|apply NoDup_indices|].
    + destruct (Hsel (map s (N ys))) as [Hl [Hs1 Hs2]]. apply row_expect; auto.
    + apply in_indices. rewrite map_map. now apply in_range_valid.
Qed.

(** All options of every row enumerated: no sampling. *)
Theorem rb_batch_few : forall name obj k L (ys : list plate) (lp cost x : ten V) cast (sg : S) base,
  2 <= L -> L <> k -> shape lp = map pn ys ++ [L] -> shape cost = map pn ys ++ [L] -> (exists ev, shape x = map pn ys ++ L :: ev) ->
  plates_ok veq ys -> closed ys -> (forall y, In y ys -> 2 <= pn y) -> (forall p, ancestry ys p -> pname p <> name) ->
  exists t, backward_value veq anc_unwrap o o_exp 20 rb_heap
      (rb_batch_nodes (S := S) veq anc_unwrap o o_exp name obj k ys (ys ++ [rb_batch_plate o o_exp name obj k ys lp]) lp cast x cost) [1] sg base = Ok t /\ shape t = [] /\ el t [] = weighted_sum o false ys ys
      (fun s => osum o (map (fun i => o_mul o (o_exp (el lp (map s (N ys) ++ [i]))) (el cost (map s (N ys) ++ [i]))) (seq 0 L))) (fun _ => 0).
Proof.
  intros name obj k L ys lp cost x cast sg base HL Hk Hl Hc [ev Hx] Hok Hcl Hys Hname.
  assert (NDy : NoDup (N ys)) by (destruct Hok as [[[O1 _] _ _ _] _ _]; exact O1).
  destruct (brb_loss (S := S) veq anc_unwrap o Hring o_exp name obj k L ys lp x cost ev cast HL Hys Hl Hx Hc) with (sg := sg) (base := base)
    as [t [T1 [T2 T3]]]; [now apply (batch_ok name obj k L)|exact Hcl|].
  exists t. split; [exact T1|]. split; [exact T2|]. rewrite T3. unfold weighted_sum. apply (sum_over_ext anc_unwrap o); [exact NDy|]. intros s _ _. f_equal. generalize (map s (N ys)). intros r.
  unfold row_loss. apply (osum_ext o). intros i Hi. apply in_seq in Hi. replace (L =? k) with false by (symmetry; now apply Nat.eqb_neq). cbn [andb].
  rewrite (box_zero o Hring o_exp Hev). unfold rb_weighting, row_lp. rewrite map_length, seq_length. replace (L =? k) with false by (symmetry; now apply Nat.eqb_neq).
  rewrite map_map. rewrite (nth_indep _ (o_zero o) (o_exp (el lp (r ++ [0])))) by (rewrite map_length, seq_length; lia).
  rewrite (map_nth (fun j => o_exp (el lp (r ++ [j]))) (seq 0 L) 0 i), seq_nth by lia. cbn [Nat.add]. ring.
Qed.

(** ** A cost whose dimensions are in another order *)
Lemma rb_swapped : forall (h : V) (lp cost x : ten V) cast (sg : S) base, shape x = [2; 2] -> shape lp = [2; 2] -> shape cost = [2; 2] ->
  let y := mkPlate PlainPlate "y"%string 2 (WStorch 8 (mkten [2] (fun _ => h)) ["y"%string]) [] in
  exists t, backward_value veq anc_unwrap o o_exp 20 rb_heap
      (rb_batch_nodes (S := S) veq anc_unwrap o o_exp "z"%string 7 2 [y] [rb_batch_plate o o_exp "z"%string 7 2 [y] lp; y] lp cast x cost) [1] sg base = Ok t /\
    shape t = [] /\
    el t [] = osum o (map (fun r => o_mul o h (o_add o (o_mul o (o_exp (el lp [r; 0])) (el cost [0; r]))
      (o_mul o (o_sub o (o_one o) (o_det o (o_exp (el lp [r; 0])))) (o_mul o (box o o_exp (cast (el lp [1; r]))) (el cost [1; r]))))) [0; 1]).
Proof.
  intros h [shl ell] [shc elc] [shx elx] cast sg base Hx Hl Hc y. simpl in *. subst.
  eexists. split; [lazy -[o_zero o_one o_add o_mul o_sub o_opp o_det]; reflexivity|]. split; [reflexivity|]. cbn [el osum fold_right map].
  assert (Z1 : forall v, o_add o (o_zero o) v = v) by (intros v; ring). assert (Z2 : forall v, o_add o v (o_zero o) = v) by (intros v; ring).
  pose proof (box_zero o Hring o_exp Hev) as B. unfold box in *. rewrite !Z1, !Z2, !B. ring.
Qed.
Lemma rb_swapped_raises : forall (h : V) (lp cost x : ten V) cast (sg : S) base, shape x = [2; 3] -> shape lp = [2; 3] -> shape cost = [3; 2] ->
  let y := mkPlate PlainPlate "y"%string 2 (WStorch 8 (mkten [2] (fun _ => h)) ["y"%string]) [] in
  backward_value veq anc_unwrap o o_exp 20 rb_heap
    (rb_batch_nodes (S := S) veq anc_unwrap o o_exp "z"%string 7 3 [y] [rb_batch_plate o o_exp "z"%string 7 3 [y] lp; y] lp cast x cost) [1] sg base = Err IndexError.
Proof.
  intros h [shl ell] [shc elc] [shx elx] cast sg base Hx Hl Hc y. simpl in *. subst. lazy -[o_zero o_one o_add o_mul o_sub o_opp o_det]. reflexivity.
Qed.
End RBB2.
