(** The gradients RELAX.update_parameters leaves in the control parameters. *)
From Coq Require Import String List Arith Bool ZArith Lia Permutation Ring.
From Verif Require Import Base Torch Plates Wrap OrderPlates Scalar Reduce Graph Surrogate Estimators RelaxTraining ListLemmas IndexLemmas SpecTensor SpecWrap
  SpecOrder SpecReduce SpecGraph SpecSurrogate SpecRelaxTraining WrapProofs AlignProofs CallProofs CallProofs2 OpProofs OrderProofs ReduceProofs ReduceProofs2
  VarianceProofs PlateEqProofs GraphProofs SurrogateProofs SurrogateProofs2 SurrogateProofs3 EstimatorProofs HooksProofs AncestralProofs4.
Import ListNotations.
Open Scope string_scope.
Open Scope nat_scope.
Open Scope list_scope.

Section Train.
Context {V : Type}.
Variable veq : V -> V -> bool.
Variable anc_unwrap : plate V -> stensor V -> res (stensor V).
Variable o : sops V.
Hypothesis Hring : is_ring o.
Notation plate := (plate V).
Notation stensor := (stensor V).
Notation epair := (@epair V).
Notation cgrad := (@cgrad V).
Let Hring' : ring_theory (o_zero o) (o_one o) (o_add o) (o_mul o) (o_sub o) (o_opp o) (@eq V) := Hring.
Add Ring o_ring : Hring'.

Lemma prod_ones : forall k, fold_right Nat.mul 1 (repeat 1 k) = 1.
Proof. induction k; simpl; lia. Qed.

Lemma var_loss_spec : forall d base, trainable veq d ->
  exists l k, var_loss veq anc_unwrap o d base = Ok l /\ shape (st l) = repeat 1 k /\ el (st l) (repeat 0 k) = gradient_variance o d.
Proof.
  intros d base [Wd Sd Gd Ad Fd Ed]. unfold var_loss.
  assert (HC : callable veq [d]).
  { apply (sound_callable veq (splates d)); auto. intros t p [<-|[]] Hp. now left. }
  destruct (op1_spec veq anc_unwrap (fun x => o_mul o x x) d base HC) as [q [Q1 [Q2 [Q3 [Q4 [_ [_ [_ Q5]]]]]]]]. rewrite Q1. cbn [bind].
  assert (HC' : callable veq [q]).
  { apply (sound_callable veq (splates d)); auto. intros t p [<-|[]] Hp. rewrite Q2 in Hp. now left. }
  assert (Wq : ndim (st q) - s_plate_dims q = length (s_event_shape q)).
  { unfold ndim. rewrite (wf_shape q Q4), app_length, map_length, (wf_dims q Q4). lia. }
  unfold sum_event. cbn [as_tensor bind]. cbv zeta. rewrite Wq.
  destruct (sum_dims_spec veq anc_unwrap o q (s_event_shape q) 0 (base + 10) HC') as [v [R1 [R2 [R3 [R4 R5]]]]].
  { now rewrite app_nil_r. } { now rewrite Q3. }
  assert (Em : match seq (s_plate_dims q) (length (s_event_shape q)) with [] => seq 0 (ndim (st q)) | _ => seq (s_plate_dims q) (length (s_event_shape q)) end
               = seq (s_plate_dims q) (length (s_event_shape q))).
  { rewrite Q3. destruct (s_event_shape d); [congruence|reflexivity]. }
  rewrite Em, R1. cbn [bind]. rewrite Q2 in R2.
  destruct (reduce_plates_top veq anc_unwrap o Hring (PT v) [] v (splates v) true (base + 20)) as [l [k [L1 [L2 [L3 [L4 [L5 L6]]]]]]].
  { apply Q_all. } { exact R4. } { now rewrite R2. } { rewrite R2. apply (wf_names d Wd). } { now rewrite R2. } { now rewrite R2. } { now rewrite R2. }
  assert (El : splates l = []).
  { rewrite L2, R2. clear. assert (H : forall m : list plate, incl m (splates d) -> filter (fun q => negb (has (splates d) (pname q))) m = []).
    { induction m as [|p m IH]; intros Hm; simpl; auto. assert (E : has (splates d) (pname p) = true).
      { unfold has. apply existsb_exists. exists p. split; [apply Hm; simpl; auto|apply String.eqb_refl]. }
      rewrite E. simpl. apply IH. intros x Hx. apply Hm. simpl. auto. }
    apply H, incl_refl. }
  exists l, k. split; [exact L1|]. split.
  { rewrite (wf_shape l L4), El, L3, R3. reflexivity. }
  specialize (L6 (fun _ => 0) []). rewrite R3 in L6. unfold den at 1 in L6. rewrite El in L6. simpl in L6. rewrite L6.
  2:{ intros p []. } 2:{ constructor. }
  unfold gradient_variance, weighted_sum. rewrite R2. apply (sum_over_ext anc_unwrap); [apply (wf_names d Wd)|].
  intros s' _ Hs'. f_equal. specialize (R5 s'). simpl in R5. rewrite R5 by (rewrite Q2; exact Hs').
  unfold squared_norm. rewrite Q3. apply osum_ext. intros e He. rewrite app_nil_r. apply Q5; [exact Hs'|]. now apply in_indices.
Qed.

Variable control : list (list nat).
Variable agrad : V -> nat -> option (ten V).
Notation n := (length control).
Notation leaf := (leaf_backward o control).

Lemma leaf_add : forall i g (cg : cgrad), i < n -> shape g = nth i control [] ->
  (forall old, cg i = Some old -> shape old = nth i control []) ->
  exists g', leaf i (Some g) cg = Ok (set_at cg i (Some g')) /\ shape g' = nth i control [] /\
    forall e, valid e (nth i control []) -> el g' e = match cg i with Some old => o_add o (el old e) (el g e) | None => el g e end.
Proof.
  intros i g cg Hi Hg Hold. unfold leaf_backward. cbn [bind]. destruct (cg i) as [old|] eqn:E.
  - unfold elementwise2. rewrite (Hold _ eq_refl), Hg, bshape_same. cbn [bind]. eexists. split; [reflexivity|]. split; [reflexivity|].
    intros e He. cbn [el]. now rewrite !bidx_valid by auto.
  - cbn [bind]. exists g. auto.
Qed.

Lemma leaves : forall (G : nat -> ten V) loss l (cg : cgrad), NoDup l -> (forall i, In i l -> i < n) ->
  (forall i, In i l -> agrad loss i = Some (G i) /\ shape (G i) = nth i control []) ->
  (forall i old, In i l -> cg i = Some old -> shape old = nth i control []) ->
  exists cg', foldM (fun cg i => leaf i (agrad loss i) cg) l cg = Ok cg' /\ (forall i, ~ In i l -> cg' i = cg i) /\
    forall i, In i l -> exists g, cg' i = Some g /\ shape g = nth i control [] /\
      forall e, valid e (nth i control []) -> el g e = match cg i with Some old => o_add o (el old e) (el (G i) e) | None => el (G i) e end.
Proof.
  intros G loss. induction l as [|i l IH]; intros cg ND Hn HG Hold.
  - exists cg. split; [reflexivity|]. split; [auto|intros i []].
  - inversion ND as [|? ? Hi ND']; subst. destruct (HG i (or_introl eq_refl)) as [E Es]. cbn [foldM]. rewrite E.
    destruct (leaf_add i (G i) cg) as [g [A1 [A2 A3]]]; [apply Hn; simpl; auto|exact Es|intros old; apply Hold; simpl; auto|].
    rewrite A1. cbn [bind].
    assert (Hne : forall j, j <> i -> set_at cg i (Some g) j = cg j).
    { intros j Hj. unfold set_at. destruct (Nat.eqb_spec j i); congruence. }
    assert (Hii : set_at cg i (Some g) i = Some g) by (unfold set_at; now rewrite Nat.eqb_refl).
    destruct (IH (set_at cg i (Some g))) as [cg' [B1 [B2 B3]]]; auto.
    + intros j Hj. apply Hn. simpl. auto.
    + intros j Hj. apply HG. simpl. auto.
    + intros j old Hj. rewrite Hne by congruence. apply Hold. simpl. auto.
    + exists cg'. split; [exact B1|]. split.
      * intros j Hj. rewrite B2 by (simpl in Hj; tauto). apply Hne. simpl in Hj. intuition congruence.
      * intros j [<-|Hj].
        -- exists g. rewrite B2 by auto. rewrite Hii. auto.
        -- destruct (B3 j Hj) as [g' [C1 [C2 C3]]]. exists g'. rewrite Hne in C3 by congruence. auto.
Qed.

(** The gradients after training on [l], starting without gradients. *)
Definition trained (cg : cgrad) (l : list epair) (G : epair -> nat -> ten V) : Prop :=
  forall i, i < n -> match l with
                     | [] => cg i = None
                     | _ => exists g, cg i = Some g /\ shape g = nth i control [] /\
                              forall e, valid e (nth i control []) -> el g e = osum o (map (fun x => el (G x i) e) l)
                     end.

Lemma train_on_spec : forall base cg l x G, trained cg l G -> objective_gradient veq o control agrad (ep_grads x) (G x) ->
  exists cg', train_on veq anc_unwrap o control agrad base cg x = Ok cg' /\ trained cg' (l ++ [x]) G.
Proof.
  intros base cg l x G T [d [D1 [D2 D3]]]. unfold train_on. rewrite D1.
  destruct (var_loss_spec d base D2) as [r [k [R1 [R2 R3]]]]. rewrite R1. cbn [bind]. rewrite R2, prod_ones, Nat.eqb_refl.
  replace (ndim (st r)) with k by (unfold ndim; now rewrite R2, repeat_length). rewrite R3.
  destruct (leaves (G x) (gradient_variance o d) (seq 0 n) cg) as [cg' [A1 [_ A2]]].
  - apply seq_NoDup.
  - intros i Hi. apply in_seq in Hi. lia.
  - intros i Hi. apply in_seq in Hi. apply D3. lia.
  - intros i old Hi E. apply in_seq in Hi. specialize (T i). destruct l as [|y l]; [rewrite T in E by lia; discriminate|].
    destruct T as [g [C1 [C2 _]]]; [lia|]. congruence.
  - exists cg'. split; [exact A1|]. intros i Hi. specialize (T i Hi). destruct (A2 i) as [g [B1 [B2 B3]]]; [apply in_seq; lia|].
    destruct l as [|y l]; cbn [app].
    + exists g. rewrite T in B3. split; [auto|]. split; [auto|]. intros e He. rewrite B3 by auto. cbn [map]. rewrite (osum_cons o). unfold osum. cbn. ring.
    + exists g. split; [auto|]. split; [auto|]. intros e He. rewrite B3 by auto. destruct T as [h [C1 [C2 C3]]]. rewrite C1, C3 by auto.
      change (y :: l ++ [x]) with ((y :: l) ++ [x]). rewrite map_app. change (map (fun x0 => el (G x0 i) e) [x]) with [el (G x i) e]. rewrite (osum_snoc o Hring). reflexivity.
Qed.

Lemma train_all : forall base xs G l cg, trained cg l G -> (forall x, In x xs -> objective_gradient veq o control agrad (ep_grads x) (G x)) ->
  exists cg', foldM (train_on veq anc_unwrap o control agrad base) xs cg = Ok cg' /\ trained cg' (l ++ xs) G.
Proof.
  intros base xs G. induction xs as [|x xs IH]; intros l cg T H.
  - exists cg. rewrite app_nil_r. auto.
  - destruct (train_on_spec base cg l x G T) as [c1 [A1 A2]]; [apply H; simpl; auto|].
    destruct (IH (l ++ [x]) c1 A2) as [c2 [B1 B2]]; [intros y Hy; apply H; simpl; auto|].
    exists c2. cbn [foldM]. rewrite A1. cbn [bind]. rewrite <- app_assoc in B2. auto.
Qed.

Lemma mem_spec : forall a l, Graph.mem a l = true <-> In a l.
Proof.
  intros a l. unfold Graph.mem. rewrite existsb_exists. split; [intros [x [H E]]; apply Nat.eqb_eq in E; congruence|intros H; exists a; split; [auto|apply Nat.eqb_refl]].
Qed.
Lemma distinct_same : forall (l : list epair) seen, NoDup (map (@ep_obj V) l) -> (forall x, In x l -> ~ In (ep_obj x) seen) -> distinct seen l = l.
Proof.
  induction l as [|x l IH]; intros seen ND H; simpl; auto. inversion ND as [|? ? Hx ND']; subst.
  destruct (Graph.mem (ep_obj x) seen) eqn:E; [exfalso; apply mem_spec in E; apply (H x); simpl; auto|]. f_equal. apply IH; auto.
  intros y Hy [E'|C]; [apply Hx; rewrite E'; now apply in_map|apply (H y); simpl; auto].
Qed.

Variable set_order : list epair -> list epair.
Hypothesis order_perm : forall l, Permutation l (set_order l).

Notation update_params := (relax_update_parameters veq anc_unwrap o control agrad set_order).
Notation update := (relax_update veq anc_unwrap o control agrad set_order).

(** One call with tensors that are different objects. *)
Theorem update_sum : forall pairs cg base G, pairs <> [] -> NoDup (map (@ep_obj V) pairs) ->
  (forall x, In x pairs -> objective_gradient veq o control agrad (ep_grads x) (G x)) ->
  exists cg', update_params pairs cg base = Ok cg' /\ holds_sum o control cg' pairs G.
Proof.
  intros pairs cg base G Hne ND HG. unfold relax_update_parameters. rewrite distinct_same by auto.
  assert (HP := order_perm pairs).
  destruct (train_all base (set_order pairs) G [] (fun i => if i <? n then None else cg i)) as [cg' [A1 A2]].
  - intros i Hi. destruct (Nat.ltb_spec i n); [reflexivity|lia].
  - intros x Hx. apply HG. eapply Permutation_in; [apply Permutation_sym, HP|exact Hx].
  - exists cg'. split; [exact A1|]. intros i Hi. specialize (A2 i Hi). simpl in A2. destruct (set_order pairs) as [|y l] eqn:E.
    + apply Permutation_sym, Permutation_nil in HP. congruence.
    + destruct A2 as [g [B1 [B2 B3]]]. exists g. split; [auto|]. split; [auto|]. intros e He. rewrite B3 by auto.
      apply (osum_perm o Hring). apply Permutation_map. now apply Permutation_sym.
Qed.

(** A call without pairs only clears. *)
Lemma update_nothing : forall cg base, exists cg', update_params [] cg base = Ok cg' /\ no_gradient control cg'.
Proof.
  intros cg base. unfold relax_update_parameters. cbn [distinct]. replace (set_order []) with (@nil epair) by (symmetry; apply Permutation_nil, order_perm).
  eexists. split; [reflexivity|]. intros i Hi. destruct (Nat.ltb_spec i n); [reflexivity|lia].
Qed.

Lemma updates_again : forall (A : Type) (l : list A) base s, r_pairs s = [] -> l <> [] ->
  exists s', foldM (fun s (_ : A) => update base s) l s = Ok s' /\ no_gradient control (r_cgrad s') /\ r_pairs s' = [] /\
    r_iterations s' = length l + r_iterations s.
Proof.
  intros A l. induction l as [|a l IH]; intros base s Hp Hne; [congruence|]. cbn [foldM]. unfold relax_update at 1. rewrite Hp.
  destruct (update_nothing (r_cgrad s) base) as [cg' [A1 A2]]. rewrite A1. cbn [bind]. destruct l as [|b l].
  - eexists. split; [reflexivity|]. auto.
  - destruct (IH base (mkR (Datatypes.S (r_iterations s)) [] cg')) as [s' [B1 [B2 [B3 B4]]]]; [reflexivity|discriminate|].
    exists s'. split; [exact B1|]. split; [auto|]. split; [auto|]. rewrite B4. cbn [r_iterations length]. lia.
Qed.

Notation run := (relax_backward veq anc_unwrap o control agrad set_order).

Lemma collected : forall (dict : nat -> gradients) uses fresh, NoDup (map (@ep_obj V) (collect_pairs dict uses fresh)) /\
  (forall x, In x (collect_pairs dict uses fresh) -> fresh <= ep_obj x) /\
  map (@ep_grads V) (collect_pairs dict uses fresh) = map dict (concat uses).
Proof.
  intros dict uses fresh. unfold collect_pairs. set (l := concat uses). clearbody l.
  assert (H : forall (l : list nat) fresh, map (@ep_obj V) (map (fun x => mkPair (fst x) (dict (snd x))) (combine (seq fresh (length l)) l)) = seq fresh (length l) /\
     map (@ep_grads V) (map (fun x => mkPair (fst x) (dict (snd x))) (combine (seq fresh (length l)) l)) = map dict l).
  { clear. induction l as [|a l IH]; intros fresh; [auto|]. cbn [length seq combine map]. destruct (IH (Datatypes.S fresh)) as [-> ->]. auto. }
  destruct (H l fresh) as [H1 H2]. rewrite H1. split; [apply seq_NoDup|]. split; [|exact H2].
  intros x Hx. apply (in_map (@ep_obj V)) in Hx. rewrite H1 in Hx. apply in_seq in Hx. lia.
Qed.

(** One sample of the method below the costs. *)
Theorem backward_once : forall dict uses nodes mine fresh base s G, length (filter mine nodes) = 1 -> concat uses <> [] -> r_pairs s = [] ->
  (forall a, In a (concat uses) -> objective_gradient veq o control agrad (dict a) (G a)) ->
  exists s', run dict uses nodes mine fresh base s = Ok s' /\ r_pairs s' = [] /\ r_iterations s' = Datatypes.S (r_iterations s) /\
    holds_sum o control (r_cgrad s') (concat uses) G.
Proof.
  intros dict uses nodes mine fresh base s G H1 Hne Hp HG. unfold relax_backward. rewrite Hp. cbn [app].
  destruct (filter mine nodes) as [|a [|b l]]; try discriminate H1. cbn [foldM]. unfold relax_update. cbn [r_pairs r_cgrad r_iterations].
  set (P := collect_pairs dict uses fresh). destruct (collected dict uses fresh) as [ND [_ Hg]]. fold P in ND, Hg.
  set (idx := fun x : epair => nth (ep_obj x - fresh) (concat uses) 0).
  assert (Hidx : map idx P = concat uses /\ forall x, In x P -> ep_grads x = dict (idx x) /\ In (idx x) (concat uses)).
  { unfold P, collect_pairs, idx. set (l := concat uses). clearbody l. clear.
    assert (H : forall l pre, map (fun x : epair => nth (ep_obj x - fresh) (pre ++ l) 0)
                 (map (fun x => mkPair (fst x) (dict (snd x))) (combine (seq (fresh + length pre) (length l)) l)) = l /\
               forall x, In x (map (fun x => mkPair (fst x) (dict (snd x))) (combine (seq (fresh + length pre) (length l)) l)) ->
                 ep_grads x = dict (nth (ep_obj x - fresh) (pre ++ l) 0) /\ In (nth (ep_obj x - fresh) (pre ++ l) 0) l).
    { clear. induction l as [|a l IH]; intros pre; [split; [reflexivity|intros x []]|]. cbn [length seq combine map fst snd].
      destruct (IH (pre ++ [a])) as [I1 I2]. rewrite app_length in I1, I2. cbn [length] in I1, I2.
      replace (fresh + (length pre + 1)) with (Datatypes.S (fresh + length pre)) in I1, I2 by lia. rewrite <- app_assoc in I1, I2. cbn [app] in I1, I2.
      cbn [ep_obj]. replace (fresh + length pre - fresh) with (length pre) by lia.
      assert (E : nth (length pre) (pre ++ a :: l) 0 = a) by (rewrite app_nth2, Nat.sub_diag by lia; reflexivity).
      split; [rewrite E, I1; reflexivity|]. intros x [<-|Hx].
      - cbn [ep_obj ep_grads]. replace (fresh + length pre - fresh) with (length pre) by lia. rewrite E. simpl. auto.
      - destruct (I2 x Hx) as [J1 J2]. simpl. auto. }
    destruct (H l []) as [A B]. cbn [app length] in A, B. rewrite Nat.add_0_r in A, B. auto. }
  destruct Hidx as [I1 I2].
  destruct (update_sum P (r_cgrad s) base (fun x => G (idx x))) as [cg' [A1 A2]].
  - intros E. apply Hne. rewrite <- I1, E. reflexivity.
  - exact ND.
  - intros x Hx. destruct (I2 x Hx) as [-> J]. now apply HG.
  - rewrite A1. cbn [bind]. eexists. split; [reflexivity|]. split; [reflexivity|]. split; [reflexivity|]. cbn [r_cgrad].
    intros i Hi. destruct (A2 i Hi) as [g [B1 [B2 B3]]]. exists g. split; [auto|]. split; [auto|]. intros e He. rewrite B3 by auto.
    rewrite <- I1, map_map. reflexivity.
Qed.

(** Several samples of the method below the costs: whatever happens first, nothing is left. *)
Theorem backward_twice : forall dict uses nodes mine fresh base s s', 2 <= length (filter mine nodes) ->
  run dict uses nodes mine fresh base s = Ok s' -> no_gradient control (r_cgrad s').
Proof.
  intros dict uses nodes mine fresh base s s' H E. unfold relax_backward in E. destruct (filter mine nodes) as [|a l]; [simpl in H; lia|].
  cbn [foldM] in E. destruct (update base _) as [s1|] eqn:E1; [|discriminate]. cbn [bind] in E.
  assert (Hp : r_pairs s1 = []).
  { unfold relax_update in E1. destruct (update_params _ _ _); [|discriminate]. cbn [bind] in E1. injection E1 as <-. reflexivity. }
  destruct (updates_again _ l base s1 Hp) as [s2 [B1 [B2 _]]]; [destruct l; [simpl in H; lia|discriminate]|].
  rewrite B1 in E. injection E as <-. exact B2.
Qed.

(** Samples without a gradient for "probs". *)
Theorem backward_keyerror : forall dict uses nodes mine fresh base s, filter mine nodes <> [] -> concat uses <> [] -> r_pairs s = [] ->
  (forall a, In a (concat uses) -> dict a "probs" = None) -> run dict uses nodes mine fresh base s = Err KeyError.
Proof.
  intros dict uses nodes mine fresh base s Hm Hu Hp H. unfold relax_backward. rewrite Hp. cbn [app].
  destruct (filter mine nodes) as [|a l]; [congruence|]. cbn [foldM]. unfold relax_update at 1. cbn [r_pairs r_cgrad]. unfold relax_update_parameters.
  destruct (collected dict uses fresh) as [ND [_ Hg]]. set (P := collect_pairs dict uses fresh) in *. rewrite distinct_same by auto.
  assert (HP := order_perm P). destruct (set_order P) as [|x r] eqn:E.
  { apply Permutation_sym, Permutation_nil in HP. rewrite HP in Hg. destruct (concat uses); [congruence|discriminate]. }
  assert (Hx : In x P) by (eapply Permutation_in; [apply Permutation_sym, HP|simpl; auto]).
  assert (Ex : ep_grads x "probs" = None).
  { apply (in_map (@ep_grads V)) in Hx. rewrite Hg in Hx. apply in_map_iff in Hx. destruct Hx as [b [<- Hb]]. now apply H. }
  cbn [foldM]. unfold train_on at 1. rewrite Ex. reflexivity.
Qed.

(** Gradients without a graph. *)
Lemma foldM_same : forall (A S : Type) (f : S -> A -> res S) l s, (forall x, In x l -> f s x = Ok s) -> foldM f l s = Ok s.
Proof. intros A S f. induction l as [|x l IH]; intros s H; simpl; [reflexivity|]. rewrite H by (simpl; auto). simpl. apply IH. intros y Hy. apply H. simpl. auto. Qed.
Theorem backward_no_graph : forall dict uses nodes mine fresh base s, filter mine nodes <> [] -> r_pairs s = [] ->
  (forall a, In a (concat uses) -> exists d, dict a "probs" = Some (d, false)) ->
  exists s', run dict uses nodes mine fresh base s = Ok s' /\ r_pairs s' = [] /\ r_iterations s' = length (filter mine nodes) + r_iterations s /\
    no_gradient control (r_cgrad s').
Proof.
  intros dict uses nodes mine fresh base s Hm Hp H. unfold relax_backward. rewrite Hp. cbn [app].
  destruct (filter mine nodes) as [|a l]; [congruence|]. cbn [foldM]. unfold relax_update at 1. cbn [r_pairs r_cgrad r_iterations]. unfold relax_update_parameters.
  destruct (collected dict uses fresh) as [ND [_ Hg]]. set (P := collect_pairs dict uses fresh) in *. rewrite distinct_same by auto.
  assert (HP := order_perm P).
  rewrite foldM_same.
  2:{ intros x Hx. assert (Hx' : In x P) by (eapply Permutation_in; [apply Permutation_sym, HP|exact Hx]).
      apply (in_map (@ep_grads V)) in Hx'. rewrite Hg in Hx'. apply in_map_iff in Hx'. destruct Hx' as [b [Eb Hb]].
      destruct (H b Hb) as [d Hd]. unfold train_on. rewrite <- Eb, Hd. reflexivity. }
  cbn [bind]. set (c0 := fun i => if i <? length control then None else r_cgrad s i).
  assert (N0 : no_gradient control c0) by (intros i Hi; unfold c0; apply Nat.ltb_lt in Hi; now rewrite Hi).
  destruct l as [|b l].
  - cbn [foldM]. eexists. split; [reflexivity|]. split; [reflexivity|]. split; [reflexivity|exact N0].
  - destruct (updates_again _ (b :: l) base (mkR (Datatypes.S (r_iterations s)) [] c0) eq_refl ltac:(discriminate)) as [s' [A1 [A2 [A3 A4]]]].
    exists s'. split; [exact A1|]. split; [exact A3|]. split; [|exact A2]. rewrite A4. simpl. lia.
Qed.

(** A parameter the objective does not depend on. *)
Theorem unused_param : forall d base i pre (cg : cgrad) x, trainable veq d -> ep_grads x "probs" = Some (d, true) ->
  i < n -> agrad (gradient_variance o d) i = None -> nth i control [] = pre -> cg i = None ->
  (forall j, j < n -> j <> i -> exists g, agrad (gradient_variance o d) j = Some g) ->
  (forall j, cg j = None) ->
  (fold_right Nat.mul 1 pre <> 1 -> train_on veq anc_unwrap o control agrad base cg x = Err RuntimeError) /\
  (fold_right Nat.mul 1 pre = 1 -> exists cg' g, train_on veq anc_unwrap o control agrad base cg x = Ok cg' /\ cg' i = Some g /\
     forall e, el g e = o_one o).
Proof.
  intros d base i pre cg x Hd Ed Hi Hu Hs Hc Hother Hall. unfold train_on. rewrite Ed.
  destruct (var_loss_spec d base Hd) as [r [k [R1 [R2 R3]]]]. rewrite R1. cbn [bind]. rewrite R2, prod_ones, Nat.eqb_refl.
  replace (ndim (st r)) with k by (unfold ndim; now rewrite R2, repeat_length). rewrite R3. clear R1 R2 R3 r k.
  set (v := gradient_variance o d) in *. clearbody v.
  assert (F : forall l (c : cgrad), NoDup l -> (forall j, In j l -> j < n /\ c j = None) ->
     (fold_right Nat.mul 1 pre <> 1 -> In i l -> foldM (fun cg j => leaf j (agrad v j) cg) l c = Err RuntimeError) /\
     (fold_right Nat.mul 1 pre = 1 -> exists c', foldM (fun cg j => leaf j (agrad v j) cg) l c = Ok c' /\
        (forall j, ~ In j l -> c' j = c j) /\ (In i l -> exists g, c' i = Some g /\ forall e, el g e = o_one o))).
  { induction l as [|j l IH]; intros c ND Hl; [split; [intros _ []|intros _; exists c; split; [reflexivity|split; [auto|intros []]]]|].
    inversion ND as [|? ? Hj ND']; subst. destruct (Hl j (or_introl eq_refl)) as [Lj Cj]. cbn [foldM].
    assert (Hne : forall g m, m <> j -> set_at c j (Some g) m = c m) by (intros g m Hm; unfold set_at; destruct (Nat.eqb_spec m j); congruence).
    assert (Hl' : forall g m, In m l -> m < n /\ set_at c j (Some g) m = None).
    { intros g m Hm. rewrite Hne by congruence. apply Hl. simpl. auto. }
    destruct (Nat.eq_dec j i) as [->|Nj].
    - unfold leaf_backward at 1 3. rewrite Hu, Cj. split.
      + intros Hbig _. destruct (Nat.eqb_spec (fold_right Nat.mul 1 (nth i control [])) 1) as [E|_]; [congruence|]. reflexivity.
      + intros Hone. rewrite Hone, Nat.eqb_refl. cbn [bind].
        destruct (IH (set_at c i (Some (mkten (nth i control []) (fun _ => o_one o)))) ND' (Hl' _)) as [_ I2]. destruct (I2 Hone) as [c' [J1 [J2 J3]]].
        exists c'. split; [exact J1|]. split.
        * intros m Hm. simpl in Hm. rewrite J2 by tauto. apply Hne. intuition congruence.
        * intros _. eexists. rewrite J2 by auto. unfold set_at. rewrite Nat.eqb_refl. split; [reflexivity|]. reflexivity.
    - destruct (Hother j Lj Nj) as [g Hg]. unfold leaf_backward at 1 3. rewrite Hg, Cj. cbn [bind].
      destruct (IH (set_at c j (Some g)) ND' (Hl' _)) as [I1 I2]. split.
      + intros Hbig [E|Hin]; [congruence|]. apply I1; auto.
      + intros Hone. destruct (I2 Hone) as [c' [J1 [J2 J3]]]. exists c'. split; [exact J1|]. split.
        * intros m Hm. simpl in Hm. rewrite J2 by tauto. apply Hne. intuition congruence.
        * intros [E|Hin]; [congruence|]. apply J3. auto. }
  destruct (F (seq 0 n) cg (seq_NoDup _ _)) as [F1 F2]; [intros j Hj; apply in_seq in Hj; split; [lia|auto]|].
  assert (Hin : In i (seq 0 n)) by (apply in_seq; lia). split.
  - intros Hb. apply F1; auto.
  - intros Hb. destruct (F2 Hb) as [c' [J1 [_ J3]]]. destruct (J3 Hin) as [g [K1 K2]]. exists c', g. auto.
Qed.
End Train.
