(** The surrogate loss of the score function, and its value. *)
From Coq Require Import String List Arith Bool ZArith Lia Permutation Ring.
From Verif Require Import Base Torch Plates Wrap OrderPlates Scalar Reduce Graph Surrogate ListLemmas IndexLemmas SpecTensor SpecWrap
  SpecOrder SpecReduce SpecGraph SpecSurrogate WrapProofs AlignProofs CallProofs CallProofs2 OpProofs OrderProofs ReduceProofs ReduceProofs2
  VarianceProofs PlateEqProofs GraphProofs SurrogateProofs.
Import ListNotations.

Section Surrogate2.
Context {V S : Type}.
Variable veq : V -> V -> bool.
Variable anc_unwrap : plate V -> stensor V -> res (stensor V).
Variable o : sops V.
Hypothesis Hring : is_ring o.
Variable o_exp : V -> V.
Notation plate := (plate V).
Notation stensor := (stensor V).
Notation N l := (map (@pname V) l).
Notation op1 := (torch_op1 veq anc_unwrap top_ctx).
Notation op2 := (torch_op2 veq anc_unwrap top_ctx).
Let Hring' : ring_theory (o_zero o) (o_one o) (o_add o) (o_mul o) (o_sub o) (o_opp o) (@eq V) := Hring.
Add Ring o_ring : Hring'.

(** ** The estimator of the score function *)
Lemma summed_log_prob : forall FP a np lp ev f base, sound veq FP -> over FP a -> relabelled a np -> has_log_prob a lp ev f ->
  exists l t, lp np base = Ok l /\
    (let pd := s_plate_dims np in
     if pd <? val_ndim l then sum_dims veq anc_unwrap o top_ctx (seq pd (val_ndim l - pd)) l (base + 1) else Ok l) = Ok (PT t) /\
    stands (PT t) (splates a) (fun s => osum o (map (f s) (indices ev))).
Proof.
  intros FP a np lp ev f base HS [Wa Ia Ca] Hr Hl.
  destruct (Hl np base Hr) as [t [E1 [Wt [Pt [Et Dt]]]]]. destruct Hr as [Wn Pn En Dn].
  exists (PT t).
  assert (It : incl (splates t) FP) by (intros x Hx; apply Ia; eapply Permutation_in; eauto).
  assert (HC : callable veq [t]) by (apply (over_callable veq FP HS); [fwf|intros x [<-|[]]; auto]).
  assert (Epd : s_plate_dims np = s_plate_dims t).
  { rewrite (wf_dims np Wn), (wf_dims t Wt). unfold wide. apply Permutation_length.
    assert (Pm : Permutation (splates np) (splates t)) by (eapply Permutation_trans; [apply Permutation_sym; exact Pn|apply Permutation_sym; exact Pt]).
    clear -Pm. induction Pm; simpl; auto; try (destruct (1 <? pn x)); try (destruct (1 <? pn y)); auto; try constructor; eauto using Permutation_trans. }
  assert (En' : val_ndim (PT t) = s_plate_dims t + length ev).
  { simpl. unfold ndim. rewrite (wf_shape t Wt), app_length, map_length, (wf_dims t Wt), Et. reflexivity. }
  rewrite En', Epd. cbv zeta. destruct ev as [|n ev].
  - simpl length. rewrite Nat.add_0_r, Nat.ltb_irrefl. exists t. split; [exact E1|]. split; [reflexivity|].
    split; [exact Wt|]. split; [exact Pt|]. exists 0. split; [exact Et|]. intros s Hs. simpl. rewrite Dt by (auto; constructor). unfold osum. simpl. ring.
  - replace (s_plate_dims t <? s_plate_dims t + length (n :: ev)) with true by (symmetry; apply Nat.ltb_lt; simpl; lia).
    replace (s_plate_dims t + length (n :: ev) - s_plate_dims t) with (length (n :: ev)) by lia.
    destruct (sum_dims_spec veq anc_unwrap o t (n :: ev) 0 (base + 1) HC) as [r [R1 [R2 [R3 [R4 R5]]]]].
    { now rewrite app_nil_r. } { discriminate. }
    exists r. split; [exact E1|]. split; [exact R1|]. split; [exact R4|]. split; [now rewrite R2|].
    exists 0. split; [exact R3|]. intros s Hs. rewrite (R5 s).
    + f_equal. apply map_ext_in. intros e He. simpl. rewrite app_nil_r. apply Dt; auto. now apply in_indices.
    + apply (in_range_perm s (splates a)); auto. now apply Permutation_sym.
Qed.

Lemma score_estimates : forall FP (nodes : nat -> @snode V S) c a n lp m ev f, sound veq FP -> over FP (nd_t (nodes a)) ->
  nd_sto (nodes a) = Some (n, lp, true, Some m) -> me_estimator m = score_estimator veq anc_unwrap o o_exp None ->
  has_log_prob (nd_t (nodes a)) lp ev f ->
  forall score : assignment -> V, (forall s, in_range s (splates (nd_t (nodes a))) -> score s = osum o (map (f s) (indices ev))) ->
  estimates o FP nodes c a (fun sg tm sg' => sg' = sg /\ tm = mkTerm (Some (splates (nd_t (nodes a)), score)) None).
Proof.
  intros FP nodes c a n lp m ev f HS Ho En Em Hl score Hscore. unfold estimates. rewrite En. intros np rc nm sg base Hr Hav Hnm _. rewrite Em.
  destruct (summed_log_prob FP (nd_t (nodes a)) np lp ev f base HS Ho Hr Hl) as [l [t [E1 [E2 E3]]]].
  unfold score_estimator. cbn [sm_log_prob sm_t]. rewrite E1. cbn [bind]. cbv zeta in E2 |- *. rewrite E2. cbn [bind].
  apply (stands_ext _ _ _ score) in E3; [|intros s Hs; symmetry; auto].
  exists (Some (PT t)), None, sg, (mkTerm (Some (splates (nd_t (nodes a)), score)) None).
  split; [reflexivity|]. split; [left; eauto|]. destruct Ho as [Wa Ia Ca]. simpl. repeat split; auto; try apply (wf_names _ Wa); apply E3.
Qed.

Lemma closed_union : forall l m : list plate, closed l -> closed m -> closed (union l m).
Proof.
  intros l m Hl Hm p q Hp Hq. apply (u_names anc_unwrap). unfold union in Hp. apply in_app_or in Hp. destruct Hp as [Hp|Hp].
  - left. eapply Hl; eauto.
  - right. apply filter_In in Hp. eapply Hm; [apply Hp|exact Hq].
Qed.

Lemma baseline_estimates : forall FP (nodes : nat -> @snode V S) c a n lp m ev f bl B, sound veq FP -> over FP (nd_t (nodes a)) ->
  nd_sto (nodes a) = Some (n, lp, true, Some m) -> me_estimator m = score_estimator veq anc_unwrap o o_exp (Some bl) ->
  has_log_prob (nd_t (nodes a)) lp ev f -> baseline_gives o FP nodes c a bl B ->
  forall lpf : assignment -> V, (forall s, in_range s (splates (nd_t (nodes a))) -> lpf s = osum o (map (f s) (indices ev))) ->
  estimates o FP nodes c a (fun sg tm sg' => exists bp bf, B sg bp bf sg' /\
    tm = mkTerm (Some (splates (nd_t (nodes a)), lpf))
                (Some (union (splates (nd_t (nodes a))) bp, fun s => o_mul o (o_sub o (o_one o) (box o o_exp (lpf s))) (bf s)))).
Proof.
  intros FP nodes c a n lp m ev f bl B HS Ho En Em Hl HB lpf Hlpf. unfold estimates. rewrite En. intros np rc nm sg base Hr Hav Hnm _. rewrite Em.
  destruct (summed_log_prob FP (nd_t (nodes a)) np lp ev f base HS Ho Hr Hl) as [l [t [E1 [E2 E3]]]].
  unfold score_estimator. cbn [sm_log_prob sm_t sm_name]. rewrite E1. cbn [bind]. cbv zeta in E2 |- *. rewrite E2. cbn [bind].
  destruct (HB np rc nm n lp sg base Hr Hav Hnm true (Some m) En) as [b [bp [bf [sg' [B1 [B2 [B3 [B4 [B5 B6]]]]]]]]].
  rewrite B1. cbn [bind].
  apply (stands_ext _ _ _ lpf) in E3; [|intros s Hs; symmetry; auto].
  destruct Ho as [Wa Ia Ca].
  destruct (magic_box_spec veq anc_unwrap o o_exp FP HS (PT t) (splates (nd_t (nodes a))) lpf (base + 2) E3 Ia) as [mb [M1 [M2 M3]]].
  rewrite M1. cbn [bind].
  destruct (stands_op2 veq anc_unwrap FP HS (o_sub o) (PRaw (tscalar (o_one o))) mb [] (splates (nd_t (nodes a))) (fun _ => o_one o) (fun s => box o o_exp (lpf s)) (base + 8)) as [d [D1 [D2 D3]]].
  { split; [reflexivity|]. split; reflexivity. } { exact M2. } { intros x []. } { exact Ia. }
  rewrite D1. cbn [bind]. rewrite union_nil_l in D2.
  destruct (stands_op2 veq anc_unwrap FP HS (o_mul o) d b (splates (nd_t (nodes a))) bp _ bf (base + 9) D2 B2 Ia B3) as [cv [C1 [C2 C3]]].
  rewrite C1. cbn [bind].
  exists (Some (PT t)), (Some cv), sg', (mkTerm (Some (splates (nd_t (nodes a)), lpf))
     (Some (union (splates (nd_t (nodes a))) bp, fun s => o_mul o (o_sub o (o_one o) (box o o_exp (lpf s))) (bf s)))).
  split; [reflexivity|]. split; [left; eauto|]. split; [|split].
  - simpl. repeat split; auto; try apply (wf_names _ Wa); apply E3.
  - simpl. split; [exact C2|]. split; [now apply (u_incl anc_unwrap)|]. split; [now apply closed_union|].
    apply u_NoDup; auto. apply (wf_names _ Wa).
  - exists bp, bf. split; auto.
Qed.

(** ** The loss of the score function *)
Definition scb (nodes : nat -> @snode V S) (c p : nat) : bool :=
  match nd_sto (nodes p) with
  | Some (_, _, true, Some m) => match me_pathwise m p c with Ok b => negb b | Err _ => false end
  | _ => false
  end.
Lemma scored_scb : forall (nodes : nat -> @snode V S) c p b, scored nodes c p b -> scb nodes c p = b.
Proof.
  intros nodes c p b H. unfold scb. destruct H as [E|n lp r m E H|n lp m b E H]; rewrite E; auto.
  - destruct H as [->| ->]; auto. now destruct r.
  - now rewrite H.
Qed.

Lemma osum_perm : forall l m, Permutation l m -> osum o l = osum o m.
Proof.
  intros l m H. induction H as [|x l m H IH|x y l|l m k H1 IH1 H2 IH2]; [reflexivity| | |congruence].
  - unfold osum in *. simpl. now rewrite IH.
  - unfold osum. simpl. ring.
Qed.

Lemma walk_order : forall h univ c, closed_under (h_parents h) univ -> In c univ ->
  exists l, (exists enough, forall fuel, enough <= fuel -> surrogate_order fuel h c = Some l) /\ NoDup l /\
    forall x, In x l <-> reachable (h_parents h) false c x.
Proof.
  intros h univ c Hu Hc. destruct (walk_spec (h_parents h) univ false true false c Hu Hc) as [l [H1 [H2 [H3 _]]]].
  exists l. split; [exact H3|]. auto.
Qed.

Lemma among_all : forall FP l : list plate, (forall p, In p FP -> In (pname p) (N l)) -> among FP l = FP.
Proof.
  intros FP l H. unfold among.
  assert (G : forall m : list plate, incl m FP -> filter (fun p => has l (pname p)) m = m).
  { induction m as [|p m IH]; intros Hm; auto. simpl.
    replace (has l (pname p)) with true; [f_equal; apply IH; intros x Hx; apply Hm; now right|].
    symmetry. apply has_names. apply H, Hm. now left. }
  apply G. intros x Hx. exact Hx.
Qed.

(** The terms when the estimators have no baseline. *)
Lemma plain_trace : forall (pl : nat -> list plate) (g : nat -> assignment -> V) ps sg ts sg',
  trace (fun p (sg : S) tm sg' => sg' = sg /\ tm = mkTerm (Some (pl p, g p)) None) ps sg ts sg' ->
  sg' = sg /\ ts = map (fun p => mkTerm (Some (pl p, g p)) None) ps.
Proof. intros pl g ps sg ts sg' H. induction H as [|p ps sg t sg1 ts sg2 [-> ->] Ht [-> ->]]; auto. Qed.
Lemma plain_controls : forall FP (pl : nat -> list plate) (g : nat -> assignment -> V) ps met,
  controls o o_exp FP met (map (fun p => mkTerm (Some (pl p, g p)) None) ps) = o_zero o.
Proof. intros FP pl g ps. induction ps as [|p ps IH]; intros met; simpl; auto. rewrite IH. ring. Qed.


Lemma enough_for_all : forall (l : list nat) (P : nat -> nat -> Prop), (forall c, In c l -> exists enough, forall fuel, enough <= fuel -> P c fuel) ->
  exists enough, forall fuel, enough <= fuel -> forall c, In c l -> P c fuel.
Proof.
  induction l as [|c l IH]; intros P H; [exists 0; intros fuel _ c []|].
  destruct (H c) as [e1 H1]; [now left|]. destruct (IH P) as [e2 H2]; [intros; apply H; now right|].
  exists (Nat.max e1 e2). intros fuel Hf x [<-|Hx]; [apply H1; lia|apply H2; auto; lia].
Qed.

Lemma combine_map_both : forall {A B C} (f : A -> B) (g : A -> C) l, combine (map f l) (map g l) = map (fun x => (f x, g x)) l.
Proof. intros A B C f g. induction l as [|x l IH]; simpl; congruence. Qed.

Theorem score_loss : forall (nodes : nat -> @snode V S) h univ costs FP anc score sg base,
  closed_under (h_parents h) univ -> incl costs univ -> costs <> [] ->
  (forall c, In c costs -> score_setup veq anc_unwrap o o_exp nodes h c (FP c) (anc c) (fun _ => None) score) ->
  exists enough, forall fuel, enough <= fuel ->
  exists r, surrogate_loss veq anc_unwrap o o_exp fuel h nodes costs sg base = Ok (PT r, sg) /\ splates r = [] /\ shape (st r) = [] /\
    el (st r) [] = osum o (map (fun c => weighted_sum o false (FP c) (FP c) (fun s =>
      o_mul o (box o o_exp (osum o (map (fun a => score a s) (anc c)))) (den (nd_t (nodes c)) s [])) (fun _ => 0)) costs).
Proof.
  intros nodes h univ costs FP anc score sg base Hu Hi Hne Hs.
  set (est := fun (p : nat) (sg : S) tm sg' => sg' = sg /\ tm = mkTerm (Some (splates (nd_t (nodes p)), score p)) None).
  destruct (enough_for_all costs (fun c fuel => exists l, surrogate_order fuel h c = Some l /\ NoDup l /\
     forall x, In x l <-> reachable (h_parents h) false c x)) as [enough He].
  { intros c Hc. destruct (walk_order h univ c Hu (Hi c Hc)) as [l [[e H1] H2]]. exists e. intros fuel Hf. exists l. auto. }
  exists enough. intros fuel Hf. specialize (He fuel Hf).
  set (ord := fun c => match surrogate_order fuel h c with Some l => l | None => [] end).
  set (ks := map (fun c => mkCosting c (FP c) (ord c) (scb nodes c) est) costs).
  assert (Hord : forall c, In c costs -> surrogate_order fuel h c = Some (ord c) /\ NoDup (ord c) /\ forall x, In x (ord c) <-> reachable (h_parents h) false c x).
  { intros c Hc. destruct (He c Hc) as [l [E H]]. unfold ord. rewrite E. auto. }
  assert (Hks : Forall (costing_ok veq o nodes fuel h) ks).
  { apply Forall_forall. intros k Hk. apply in_map_iff in Hk. destruct Hk as [c [<- Hc]]. destruct (Hord c Hc) as [O1 [O2 O3]].
    split; [exact O1|]. simpl. destruct (Hs c Hc) as [S1 S2 S3 S4 S5 S6 S7 S8 S9 S10].
    assert (Hanc : forall p, In p (ord c) -> scb nodes c p = true -> In p (anc c)).
    { intros p Hp E. apply O3 in Hp. apply S6. split; auto. destruct (S7 p Hp) as [b Hb]. pose proof (scored_scb _ _ _ _ Hb). congruence. }
    split; auto.
    - intros p Hp. apply O3 in Hp. destruct (S7 p Hp) as [b Hb]. now rewrite (scored_scb _ _ _ _ Hb).
    - intros p Hp E. destruct (S9 p (Hanc p Hp E)) as [n [lp [m [ev [f [X1 [X2 [X3 X4]]]]]]]].
      exact (score_estimates (FP c) nodes c p n lp m ev f (po_sound _ _ S1) (S8 p (Hanc p Hp E)) X1 X2 X3 (score p) X4). }
  destruct (surrogate_spec veq anc_unwrap o Hring o_exp fuel h nodes base ks sg) as [r [sg' [tss [R1 [R2 [R3 [R4 R5]]]]]]].
  { unfold ks. destruct costs; [congruence|discriminate]. } { exact Hks. }
  replace (map cg_id ks) with costs in R1 by (unfold ks; rewrite map_map; simpl; now rewrite map_id).
  assert (HT : sg' = sg /\ tss = map (fun c => map (fun p => mkTerm (Some (splates (nd_t (nodes p)), score p)) None) (filter (scb nodes c) (ord c))) costs).
  { clear -R2. unfold ks in R2. revert sg sg' tss R2. induction costs as [|c costs IH]; intros sg sg' tss H; [inversion H; auto|].
      cbn [map] in H. inversion H as [|k ks' sgx ts sg1 tss' sg2 Ht Hts]; subst. cbn [cg_est cg_scored cg_order] in Ht.
      apply plain_trace in Ht. destruct Ht as [-> ->]. apply IH in Hts. destruct Hts as [-> ->]. auto. }
  destruct HT as [-> ->]. exists r. refine (conj R1 (conj R3 (conj R4 _))). rewrite R5. f_equal.
  unfold ks. clear R5 R1 R2 Hks. clear ks. rewrite combine_map_both, map_map. apply map_ext_in. intros c Hc. cbn [fst snd cg_plates cg_id].
  destruct (Hord c Hc) as [O1 [O2 O3]]. destruct (Hs c Hc) as [S1 S2 S3 S4 S5 S6 S7 S8 S9 S10].
  assert (Hperm : Permutation (filter (scb nodes c) (ord c)) (anc c)).
  { apply NoDup_Permutation; auto. now apply NoDup_filter. intros x. rewrite filter_In, O3, S6. split.
    - intros [Hx E]. split; auto. destruct (S7 x Hx) as [b Hb]. pose proof (scored_scb _ _ _ _ Hb). congruence.
    - intros [Hx E]. split; auto. now apply scored_scb. }
  unfold cost_loss. rewrite plain_controls. unfold total. rewrite among_all.
  - transitivity (weighted_sum o false (FP c) (FP c) (fun s => o_mul o (box o o_exp (gsum o (map (fun p => mkTerm (Some (splates (nd_t (nodes p)), score p)) None) (filter (scb nodes c) (ord c))) s)) (den (nd_t (nodes c)) s [])) (fun _ => 0)); [ring|].
    apply (weighted_sum_ext anc_unwrap); [exact (HND veq (FP c) (po_sound _ _ S1))|]. intros s Hs1 Hs2. f_equal. f_equal. unfold gsum. rewrite map_map. simpl.
    apply osum_perm. now apply Permutation_map.
  - intros p Hp. rewrite map_app. apply in_or_app. destruct (S10 p Hp) as [H|[a [Ha H]]]; [right; now apply in_map|].
    left. apply in_map. unfold gplates. apply in_flat_map. exists (mkTerm (Some (splates (nd_t (nodes a)), score a)) None). split; auto.
    apply in_map_iff. exists a. split; auto. eapply Permutation_in; [apply Permutation_sym, Hperm|auto].
Qed.

(** ** The value of the loss *)
Lemma wprod_perm : forall detach (L l m : list plate) s, Permutation l m -> wprod o detach L l s = wprod o detach L m s.
Proof. intros detach L l m s H. unfold wprod. apply (oprod_perm o Hring). now apply Permutation_map. Qed.
Lemma wprod_snoc : forall detach (L l : list plate) p s, wprod o detach L (l ++ [p]) s =
  o_mul o (wprod o detach L l s) (let w := weight_at L p s in if detach then o_det o w else w).
Proof.
  intros detach L l p s. unfold wprod. rewrite map_app. simpl. unfold oprod.
  induction (map (fun p0 => let w := weight_at L p0 s in if detach then o_det o w else w) l) as [|x l' IH]; simpl; [ring|]. rewrite IH. ring.
Qed.

Lemma drop_normalised : forall FP E C (f : assignment -> V), plates_ok veq FP -> ext f ->
  NoDup (N (C ++ E)) -> incl (C ++ E) FP -> closed C -> children_first E ->
  (forall p, In p E -> normalised o false FP p) -> (forall p s i, In p E -> f (set_to s (pname p) i) = f s) ->
  weighted_sum o false FP (C ++ E) f (fun _ => 0) = weighted_sum o false FP C f (fun _ => 0).
Proof.
  intros FP E C f [HS HA HW] Hf. induction E as [|p E IH]; intros ND Hi HC Hcf Hn Hfi; [now rewrite app_nil_r|].
  destruct Hcf as [Hp Hcf].
  assert (HP : Permutation (C ++ p :: E) ((C ++ E) ++ [p])).
  { rewrite <- app_assoc. apply Permutation_app_head. apply Permutation_cons_append. }
  assert (ND2 : NoDup (N ((C ++ E) ++ [p]))) by (eapply Permutation_NoDup; [apply Permutation_map, HP|exact ND]).
  assert (ND3 : NoDup (N (C ++ E)) /\ ~ In (pname p) (N (C ++ E))).
  { rewrite map_app in ND2. simpl in ND2. apply NoDup_remove in ND2. rewrite app_nil_r in ND2. exact ND2. }
  destruct ND3 as [ND3 Np].
  rewrite <- IH; auto.
  2: { intros x Hx. apply Hi. apply in_app_or in Hx. apply in_or_app. simpl. tauto. }
  2: { intros q Hq. apply Hn. now right. } 2: { intros q s i Hq. apply Hfi. now right. }
  unfold weighted_sum at 1.
  rewrite (sum_over_perm o Hring _ ((C ++ E) ++ [p])); auto.
  2: { intros s s' H. f_equal; [|now apply Hf]. exact (wprod_ext o false FP _ s s' H). }
  rewrite sum_over_last. unfold weighted_sum. apply (sum_over_ext anc_unwrap); auto. intros s H1 H2.
  change (osum o (map (fun i => o_mul o (wprod o false FP (C ++ p :: E) (set_to s (pname p) i)) (f (set_to s (pname p) i))) (seq 0 (pn p)))
    = o_mul o (wprod o false FP (C ++ E) s) (f s)).
  assert (Hw : forall i, wprod o false FP (C ++ E) (set_to s (pname p) i) = wprod o false FP (C ++ E) s).
  { intros i. unfold wprod. f_equal. apply map_ext_in. intros q Hq. cbv zeta. apply (weight_at_other FP).
    - apply HW. apply Hi. apply in_app_or in Hq. apply in_or_app. simpl. tauto.
    - intros E'. apply Np. rewrite E'. now apply in_map.
    - intros Hpar. apply in_app_or in Hq. destruct Hq as [Hq|Hq].
      + apply in_map_iff in Hpar. destruct Hpar as [x [Ex Hx]]. apply Np. rewrite map_app. apply in_or_app. left. rewrite <- Ex.
        exact (HC q x Hq Hx).
      + exact (Hp q Hq Hpar). }
  transitivity (osum o (map (fun i => o_mul o (o_mul o (wprod o false FP (C ++ E) s) (f s)) (weight_at FP p (set_to s (pname p) i))) (seq 0 (pn p)))).
  - apply osum_ext. intros i _. rewrite (wprod_perm _ _ _ _ _ HP), wprod_snoc, Hw, Hfi by (now left). cbv zeta. ring.
  - rewrite <- (osum_mul_l o Hring).
    assert (Hin : In p FP) by (apply Hi; apply in_or_app; right; now left).
    assert (Hr : in_range s FP).
    { intros q Hq. destruct (in_dec string_dec (pname q) (N (C ++ E))) as [Hc|Hc].
      - apply in_map_iff in Hc. destruct Hc as [q' [E' Hq']]. specialize (H2 q' Hq').
        rewrite <- E'. rewrite <- (so_size _ _ HS q' q); auto; [left; apply Hi; apply in_app_or in Hq'; apply in_or_app; simpl; tauto|now left].
      - rewrite (H1 _ Hc). pose proof (so_pos _ _ HS q (or_introl Hq)). lia. }
    pose proof (Hn p (or_introl eq_refl) s Hr) as Hone. rewrite (weighted_sum_one o Hring) in Hone.
    replace (osum o (map (fun i => weight_at FP p (set_to s (pname p) i)) (seq 0 (pn p)))) with (o_one o); [ring|].
    rewrite <- Hone. apply osum_ext. intros i _. unfold wval. ring.
Qed.

Hypothesis Hev : evaluates o o_exp.
Lemma box_one : forall x, o_det o (box o o_exp x) = o_one o.
Proof.
  intros x. unfold box. rewrite (ev_exp _ _ Hev), (ev_sub _ _ Hev), (ev_det _ _ Hev), <- (ev_exp0 _ _ Hev). f_equal. ring.
Qed.
Lemma det_osum : forall l, o_det o (osum o l) = osum o (map (o_det o) l).
Proof. unfold osum. induction l as [|x l IH]; simpl; [apply (ev_zero _ _ Hev)|]. now rewrite (ev_add _ _ Hev), IH. Qed.
Lemma det_sum_over : forall ps f s, o_det o (sum_over o ps f s) = sum_over o ps (fun s => o_det o (f s)) s.
Proof. induction ps as [|p ps IH]; intros f s; simpl; auto. rewrite det_osum, map_map. apply osum_ext. auto. Qed.
Lemma det_weighted_sum : forall detach L ps f g s, NoDup (N ps) ->
  (forall s', (forall x, ~ In x (N ps) -> s' x = s x) -> (forall p, In p ps -> s' (pname p) < pn p) -> o_det o (f s') = o_det o (g s')) ->
  o_det o (weighted_sum o detach L ps f s) = o_det o (weighted_sum o detach L ps g s).
Proof.
  intros detach L ps f g s ND H. unfold weighted_sum. rewrite !det_sum_over. apply (sum_over_ext anc_unwrap); auto.
  intros s' H1 H2. rewrite !(ev_mul _ _ Hev). f_equal. auto.
Qed.

Lemma zero_range : forall FP l s, sound veq FP -> (forall x, ~ In x (N (among FP l)) -> s x = 0) ->
  (forall p, In p (among FP l) -> s (pname p) < pn p) -> in_range s FP.
Proof.
  intros FP l s HS H1 H2 p Hp. destruct (has l (pname p)) eqn:E.
  - apply H2. apply filter_In. auto.
  - rewrite H1; [pose proof (so_pos _ _ HS p (or_introl Hp)); lia|].
    intros C. apply in_map_iff in C. destruct C as [q [E' Hq]]. apply filter_In in Hq. destruct Hq as [_ Hq]. congruence.
Qed.

Lemma weighted_sum_zero : forall L ps s, weighted_sum o false L ps (fun _ => o_zero o) s = o_zero o.
Proof.
  intros L ps s. unfold weighted_sum.
  assert (G : forall ps (g : assignment -> V) s, sum_over o ps (fun s' => o_mul o (g s') (o_zero o)) s = o_zero o).
  { clear ps s. induction ps as [|p ps IH]; intros g s; simpl; [ring|]. transitivity (osum o (map (fun _ : nat => o_zero o) (seq 0 (pn p)))); [apply osum_ext; intros; apply IH|apply (osum_zero o Hring)]. }
  apply G.
Qed.

Lemma controls_zero : forall FP ts met, sound veq FP -> Forall (inert o FP) ts -> o_det o (controls o o_exp FP met ts) = o_zero o.
Proof.
  intros FP ts. induction ts as [|t ts IH]; intros met HS H; simpl; [apply (ev_zero _ _ Hev)|].
  inversion H as [|? ? H1 H2]; subst. rewrite (ev_add _ _ Hev), (IH _ HS H2).
  unfold inert in H1. destruct (t_cv t) as [[pl g]|].
  - unfold total. rewrite (det_weighted_sum _ _ _ _ (fun _ => o_zero o)).
    + rewrite weighted_sum_zero, (ev_zero _ _ Hev). ring.
    + apply (among_NoDup veq FP HS).
    + intros s A B. rewrite (ev_mul _ _ Hev), H1 by (eapply zero_range; eauto). rewrite (ev_zero _ _ Hev). ring.
  - rewrite (ev_zero _ _ Hev). ring.
Qed.

(** What a loss evaluates to: the weighted sum over the plates of its cost. *)
Lemma cost_loss_value : forall FP c ts, plates_ok veq FP -> closed FP -> over FP c -> Forall (inert o FP) ts ->
  (forall p, In p FP -> In p (splates c) \/ normalised o false FP p) ->
  o_det o (cost_loss o o_exp FP c ts) =
  o_det o (weighted_sum o false (splates c) (splates c) (fun s => den c s []) (fun _ => 0)).
Proof.
  intros FP c ts Hok Hcl [Wc Ic Cc] Hts Hn. pose proof (po_sound _ _ Hok) as HS.
  unfold cost_loss. rewrite (ev_add _ _ Hev), controls_zero by auto. unfold total.
  set (M := among FP (gplates ts ++ splates c)).
  assert (NM : NoDup (N M)) by apply (among_NoDup veq FP HS).
  assert (IM : incl M FP) by (intros x Hx; apply filter_In in Hx; tauto).
  rewrite (det_weighted_sum _ _ _ _ (fun s : assignment => den c s [])); auto.
  2: { intros s A B. rewrite (ev_mul _ _ Hev), box_one. ring. }
  transitivity (o_det o (weighted_sum o false FP M (fun s => den c s []) (fun _ => 0))); [ring|]. f_equal.
  (* the extra plates, children first *)
  destruct (order_plates_spec veq FP (so_orderable _ _ HS) (closed_no_gaps FP Hcl)) as [_ Ho].
  destruct (Ho (po_acyclic _ _ Hok)) as [l [O1 [O2 [O3 O4]]]].
  assert (Nl : NoDup (N l)) by (eapply Permutation_NoDup; [apply Permutation_map, Permutation_sym, O3|apply (HND veq FP HS)]).
  set (extra := fun q : plate => has (gplates ts ++ splates c) (pname q) && negb (has (splates c) (pname q))).
  set (E := filter extra (rev l)).
  assert (HcM : forall x, In x (splates c) -> In x M).
  { intros x Hx. apply filter_In. split; auto. apply has_names. rewrite map_app. apply in_or_app. right. now apply in_map. }
  assert (HE : forall x, In x E <-> In x FP /\ extra x = true).
  { intros x. unfold E. rewrite filter_In, <- in_rev. split; intros [H1 H2]; (split; [|exact H2]); [exact (Permutation_in _ O3 H1)|exact (Permutation_in _ (Permutation_sym O3) H1)]. }
  assert (NE : NoDup (N (splates c ++ E))).
  { rewrite map_app. apply NoDup_app_intro.
    - apply (wf_names c Wc).
    - apply NoDup_map_filter. rewrite map_rev. now apply NoDup_rev.
    - intros x H1 H2. apply in_map_iff in H2. destruct H2 as [q [<- Hq]]. apply HE in Hq. destruct Hq as [_ Hq]. unfold extra in Hq.
      apply andb_true_iff in Hq. destruct Hq as [_ Hq]. apply negb_true_iff in Hq. apply has_names in H1. congruence. }
  assert (IE : incl (splates c ++ E) FP).
  { intros x Hx. apply in_app_or in Hx. destruct Hx as [Hx|Hx]; auto. apply HE in Hx. tauto. }
  assert (HP : Permutation M (splates c ++ E)).
  { apply (same_names_perm FP); auto. apply (HND veq FP HS). intros x. rewrite map_app, in_app_iff. split.
    - intros Hx. apply in_map_iff in Hx. destruct Hx as [q [<- Hq]]. apply filter_In in Hq. destruct Hq as [Hq1 Hq2].
      destruct (has (splates c) (pname q)) eqn:Eh; [left; now apply has_names|].
      right. apply in_map. apply HE. split; auto. unfold extra. now rewrite Hq2, Eh.
    - intros [Hx|Hx]; apply in_map_iff in Hx; destruct Hx as [q [<- Hq]]; apply in_map; auto.
      apply HE in Hq. destruct Hq as [Hq1 Hq2]. apply filter_In. split; auto. unfold extra in Hq2. apply andb_true_iff in Hq2. tauto. }
  transitivity (weighted_sum o false FP (splates c ++ E) (fun s => den c s []) (fun _ => 0)).
  { unfold weighted_sum. rewrite (sum_over_perm o Hring _ _ _ _ HP NM).
    - apply (sum_over_ext anc_unwrap); auto. intros s _ _. f_equal. exact (wprod_perm false FP _ _ s HP).
    - intros s s' H. f_equal; [|now apply den_ext_fun]. exact (wprod_ext o false FP _ s s' H). }
  rewrite drop_normalised; auto.
  - unfold weighted_sum. apply (sum_over_ext anc_unwrap); [exact (wf_names c Wc)|]. intros s _ _. f_equal. f_equal. apply map_ext_in. intros q Hq.
    cbv zeta. symmetry. apply (weight_at_sub veq); auto. intros _ x Hx. exact (Cc q x Hq Hx). now apply (po_weights _ _ Hok), Ic.
  - apply den_ext_fun.
  - unfold E. apply (children_first_filter anc_unwrap). exact (parents_first_children l Nl O4).
  - intros p Hp. apply HE in Hp. destruct Hp as [Hp1 Hp2]. destruct (Hn p Hp1) as [H|H]; auto. exfalso.
    unfold extra in Hp2. apply andb_true_iff in Hp2. destruct Hp2 as [_ Hp2]. apply negb_true_iff in Hp2.
    apply (in_map pname) in H. apply has_names in H. congruence.
  - intros p s i Hp. apply den_ext. intros q Hq. unfold set_to. destruct (String.eqb_spec (pname q) (pname p)) as [e|]; auto. exfalso.
    apply HE in Hp. destruct Hp as [_ Hp]. unfold extra in Hp. apply andb_true_iff in Hp. destruct Hp as [_ Hp]. apply negb_true_iff in Hp.
    apply filter_In in Hq. destruct Hq as [Hq _]. apply (in_map pname) in Hq. rewrite e in Hq. apply has_names in Hq. congruence.
Qed.

Lemma trace_inert : forall FP (P : nat -> S -> term -> S -> Prop) ps sg ts sg', (forall p sg t sg', P p sg t sg' -> inert o FP t) ->
  trace P ps sg ts sg' -> Forall (inert o FP) ts.
Proof. intros FP P ps sg ts sg' HP H. induction H; constructor; eauto. Qed.

Theorem loss_value : forall fuel h nodes base (ks : list (@costing V S)) sg, ks <> [] -> Forall (costing_ok veq o nodes fuel h) ks ->
  (forall k, In k ks -> closed (cg_plates k)) ->
  (forall k p sg t sg', In k ks -> cg_est k p sg t sg' -> inert o (cg_plates k) t) ->
  (forall k p, In k ks -> In p (cg_plates k) -> In p (splates (nd_t (nodes (cg_id k)))) \/ normalised o false (cg_plates k) p) ->
  exists r sg', surrogate_loss veq anc_unwrap o o_exp fuel h nodes (map cg_id ks) sg base = Ok (PT r, sg') /\ splates r = [] /\ shape (st r) = [] /\
    o_det o (el (st r) []) = o_det o (osum o (map (fun k => let c := nd_t (nodes (cg_id k)) in
      weighted_sum o false (splates c) (splates c) (fun s => den c s []) (fun _ => 0)) ks)).
Proof.
  intros fuel h nodes base ks sg Hne Hok Hcl Hin Hn.
  destruct (surrogate_spec veq anc_unwrap o Hring o_exp fuel h nodes base ks sg Hne Hok) as [r [sg' [tss [R1 [R2 [R3 [R4 R5]]]]]]].
  exists r, sg'. refine (conj R1 (conj R3 (conj R4 _))). rewrite R5, !det_osum, !map_map. f_equal. clear R1 R3 R4 R5 Hne base r.
  revert R2. generalize sg. clear sg. revert tss. induction ks as [|k ks IH]; intros tss sg R2; inversion R2 as [|k' ks' sg0 ts sg1 tss' sg2 Ht Hts]; subst; auto.
  inversion Hok as [|? ? [_ Hk] Hks]; subst. simpl combine. cbn [map fst snd]. f_equal.
  - apply cost_loss_value.
    + apply (co_plates _ _ _ _ _ _ _ _ Hk). + apply Hcl. now left. + apply (co_cost _ _ _ _ _ _ _ _ Hk).
    + eapply trace_inert; [|exact Ht]. intros p s t s' Hp. eapply Hin; [now left|exact Hp].
    + intros p Hp. apply Hn; auto. now left.
  - apply (IH Hks) with (sg := sg1); auto.
    + intros k' Hk'. apply Hcl. now right. + intros k' p s t s' Hk'. apply Hin. now right. + intros k' p Hk'. apply Hn. now right.
Qed.


(** The value of the loss when all terms come from the score function with well-behaved baselines. *)
Theorem score_value : forall (nodes : nat -> @snode V S) h univ costs FP anc bl score sg base,
  closed_under (h_parents h) univ -> incl costs univ -> costs <> [] ->
  (forall c, In c costs -> score_setup veq anc_unwrap o o_exp nodes h c (FP c) (anc c) bl score /\ closed (FP c)) ->
  (forall c a f, In c costs -> In a (anc c) -> bl a = Some f -> baseline_gives o (FP c) nodes c a f (fun _ _ _ _ => True)) ->
  (forall c p, In c costs -> In p (FP c) -> In p (splates (nd_t (nodes c))) \/ normalised o false (FP c) p) ->
  exists enough, forall fuel, enough <= fuel ->
  exists r sg', surrogate_loss veq anc_unwrap o o_exp fuel h nodes costs sg base = Ok (PT r, sg') /\ splates r = [] /\ shape (st r) = [] /\
    o_det o (el (st r) []) = o_det o (osum o (map (fun c => let t := nd_t (nodes c) in
      weighted_sum o false (splates t) (splates t) (fun s => den t s []) (fun _ => 0)) costs)).
Proof.
  intros nodes h univ costs FP anc bl score sg base Hu Hi Hne Hs Hb Hn.
  destruct (enough_for_all costs (fun c fuel => exists l, surrogate_order fuel h c = Some l /\ NoDup l /\
     forall x, In x l <-> reachable (h_parents h) false c x)) as [enough He].
  { intros c Hc. destruct (walk_order h univ c Hu (Hi c Hc)) as [l [[e H1] H2]]. exists e. intros fuel Hf. exists l. auto. }
  exists enough. intros fuel Hf. specialize (He fuel Hf).
  set (ord := fun c => match surrogate_order fuel h c with Some l => l | None => [] end).
  set (est := fun c (_ : nat) (_ : S) t (_ : S) => inert o (FP c) t).
  set (ks := map (fun c => mkCosting c (FP c) (ord c) (scb nodes c) (est c)) costs).
  assert (Hord : forall c, In c costs -> surrogate_order fuel h c = Some (ord c) /\ NoDup (ord c) /\ forall x, In x (ord c) <-> reachable (h_parents h) false c x).
  { intros c Hc. destruct (He c Hc) as [l [E H]]. unfold ord. rewrite E. auto. }
  assert (Hks : Forall (costing_ok veq o nodes fuel h) ks).
  { apply Forall_forall. intros k Hk. apply in_map_iff in Hk. destruct Hk as [c [<- Hc]]. destruct (Hord c Hc) as [O1 [O2 O3]].
    split; [exact O1|]. simpl. destruct (Hs c Hc) as [[S1 S2 S3 S4 S5 S6 S7 S8 S9 S10] S11].
    assert (Hanc : forall p, In p (ord c) -> scb nodes c p = true -> In p (anc c)).
    { intros p Hp E. apply O3 in Hp. apply S6. split; auto. destruct (S7 p Hp) as [b Hb']. pose proof (scored_scb _ _ _ _ Hb'). congruence. }
    split; auto.
    - intros p Hp. apply O3 in Hp. destruct (S7 p Hp) as [b Hb']. now rewrite (scored_scb _ _ _ _ Hb').
    - intros p Hp E. specialize (Hanc p Hp E). destruct (S9 p Hanc) as [n [lp [m [ev [f [X1 [X2 [X3 X4]]]]]]]].
      assert (G : forall P Q : S -> term -> S -> Prop, (forall x t y, P x t y -> Q x t y) -> estimates o (FP c) nodes c p P -> estimates o (FP c) nodes c p Q).
      { intros P Q HPQ HP. unfold estimates in *. rewrite X1 in *. intros np rc nm sg0 b0 A1 A2 A3 A4.
        destruct (HP np rc nm sg0 b0 A1 A2 A3 A4) as [g [cv [sg1 [tm [E1 [E2 [E3 [E4 E5]]]]]]]]. exists g, cv, sg1, tm. refine (conj E1 (conj E2 (conj E3 (conj E4 _)))). apply HPQ. exact E5. }
      destruct (bl p) as [b|] eqn:Eb.
      + eapply G; [|exact (baseline_estimates (FP c) nodes c p n lp m ev f b _ (po_sound _ _ S1) (S8 p Hanc) X1 X2 X3 (Hb c p b Hc Hanc Eb) (score p) X4)].
        intros x t y [bp [bf [_ ->]]]. unfold est, inert. simpl. intros s _. rewrite (ev_mul _ _ Hev), (ev_sub _ _ Hev), box_one, (ev_one _ _ Hev). ring.
      + eapply G; [|exact (score_estimates (FP c) nodes c p n lp m ev f (po_sound _ _ S1) (S8 p Hanc) X1 X2 X3 (score p) X4)].
        intros x t y [_ ->]. exact I. }
  destruct (loss_value fuel h nodes base ks sg) as [r [sg' [R1 [R2 [R3 R4]]]]]; auto.
  - unfold ks. destruct costs; [congruence|discriminate].
  - intros k Hk. apply in_map_iff in Hk. destruct Hk as [c [<- Hc]]. simpl. apply (Hs c Hc).
  - intros k p x t y Hk. apply in_map_iff in Hk. destruct Hk as [c [<- Hc]]. simpl. auto.
  - intros k p Hk. apply in_map_iff in Hk. destruct Hk as [c [<- Hc]]. simpl. auto.
  - exists r, sg'. unfold ks in R1, R4. rewrite map_map in R1, R4. simpl in R1. rewrite map_id in R1. auto.
Qed.

End Surrogate2.
