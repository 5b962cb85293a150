(** The expected surrogate loss of the score function with baselines that do not depend on the sample (C24, C26). *)
From Coq Require Import String List Arith Bool ZArith Lia Permutation Ring.
From Verif Require Import Base Torch Plates Wrap OrderPlates Scalar Reduce Graph Surrogate SpecTensor SpecWrap SpecOrder SpecReduce SpecGraph
  SpecSurrogate SpecProgram ListLemmas OrderProofs ReduceProofs ReduceProofs2 VarianceProofs SurrogateProofs SurrogateProofs2 SurrogateProofs3
  ProgramProofs ProgramProofs2 ProgramProofs3.
Import ListNotations.

Section Baselines.
Context {V S X : Type}.
Variable veq : V -> V -> bool.
Variable anc_unwrap : plate V -> stensor V -> res (stensor V).
Variable o : sops V.
Hypothesis Hring : is_ring o.
Variable o_exp : V -> V.
Notation plate := (plate V).
Notation world := (@world X).
Notation N l := (map (@pname V) l).
Let Hring' : ring_theory (o_zero o) (o_one o) (o_add o) (o_mul o) (o_sub o) (o_opp o) (@eq V) := Hring.
Add Ring o_ring : Hring'.

Definition bl_term (pl : nat -> list plate) (bl : nat -> option (@baseline V S)) (bp : nat -> list plate) (b : nat -> assignment -> V)
  (score : nat -> assignment -> V) (a : nat) : @term V :=
  mkTerm (Some (pl a, score a))
         (match bl a with
          | None => None
          | Some _ => Some (union (pl a) (bp a), fun s => o_mul o (o_sub o (o_one o) (box o o_exp (score a s))) (b a s))
          end).

Definition in_order (h : heap) (c : nat) (l : list nat) : Prop :=
  (exists enough, forall fuel, enough <= fuel -> surrogate_order fuel h c = Some l) /\ NoDup l /\
    forall x, In x l <-> reachable (h_parents h) false c x.

Theorem score_loss_bl : forall (nodes : nat -> @snode V S) h costs FP anc bl bp b score sg base ord,
  costs <> [] -> (forall c, In c costs -> in_order h c (ord c)) ->
  (forall c, In c costs -> score_setup veq anc_unwrap o o_exp nodes h c (FP c) (anc c) bl score) ->
  (forall c a f, In c costs -> In a (anc c) -> bl a = Some f ->
     baseline_gives o (FP c) nodes c a f (fun sg bp' bf sg' => sg' = sg /\ bp' = bp c a /\ bf = b c a)) ->
  exists enough, forall fuel, enough <= fuel ->
  exists r, surrogate_loss veq anc_unwrap o o_exp fuel h nodes costs sg base = Ok (PT r, sg) /\ splates r = [] /\ shape (st r) = [] /\
    el (st r) [] = osum o (map (fun c => cost_loss o o_exp (FP c) (nd_t (nodes c))
      (map (bl_term (fun a => splates (nd_t (nodes a))) bl (bp c) (b c) score) (inside (anc c) (ord c)))) costs).
Proof.
  intros nodes h costs FP anc bl bp b score sg base ord Hne Hord Hs Hb.
  set (est := fun (c p : nat) (sg : S) tm sg' => sg' = sg /\ tm = bl_term (fun a => splates (nd_t (nodes a))) bl (bp c) (b c) score p).
  destruct (enough_for_all costs (fun c fuel => surrogate_order fuel h c = Some (ord c))) as [enough He].
  { intros c Hc. apply (Hord c Hc). }
  exists enough. intros fuel Hf. specialize (He fuel Hf).
  set (ks := map (fun c => mkCosting c (FP c) (ord c) (scb nodes c) (est c)) costs).
  assert (Hin : forall c, In c costs -> filter (scb nodes c) (ord c) = inside (anc c) (ord c)).
  { intros c Hc. destruct (Hord c Hc) as [_ [O2 O3]]. destruct (Hs c Hc) as [S1 S2 S3 S4 S5 S6 S7 S8 S9 S10].
    apply filter_ext_in. intros p Hp. apply O3 in Hp. destruct (S7 p Hp) as [d Hd]. rewrite (scored_scb _ _ _ _ Hd).
    destruct (in_dec Nat.eq_dec p (anc c)) as [Ha|Ha].
    - apply S6 in Ha. destruct Ha as [_ Ha]. pose proof (scored_scb _ _ _ _ Ha). pose proof (scored_scb _ _ _ _ Hd). congruence.
    - destruct d; auto. exfalso. apply Ha, S6. auto. }
  assert (Hks : Forall (costing_ok veq o nodes fuel h) ks).
  { apply Forall_forall. intros k Hk. apply in_map_iff in Hk. destruct Hk as [c [<- Hc]]. destruct (Hord c Hc) as [_ [O2 O3]].
    split; [exact (He c Hc)|]. simpl. destruct (Hs c Hc) as [S1 S2 S3 S4 S5 S6 S7 S8 S9 S10].
    assert (Hanc : forall p, In p (ord c) -> scb nodes c p = true -> In p (anc c)).
    { intros p Hp E. apply O3 in Hp. apply S6. split; auto. destruct (S7 p Hp) as [d Hd]. pose proof (scored_scb _ _ _ _ Hd). congruence. }
    split; auto.
    - intros p Hp. apply O3 in Hp. destruct (S7 p Hp) as [d Hd]. now rewrite (scored_scb _ _ _ _ Hd).
    - intros p Hp E. specialize (Hanc p Hp E). destruct (S9 p Hanc) as [n [lp [m [ev [f [X1 [X2 [X3 X4]]]]]]]].
      assert (G : forall P Q : S -> term -> S -> Prop, (forall x t y, P x t y -> Q x t y) -> estimates o (FP c) nodes c p P -> estimates o (FP c) nodes c p Q).
      { intros P Q HPQ HP. unfold estimates in *. rewrite X1 in *. intros np rc nm sg0 b0 A1 A2 A3 A4.
        destruct (HP np rc nm sg0 b0 A1 A2 A3 A4) as [g [cv [sg1 [tm [E1 [E2 [E3 [E4 E5]]]]]]]]. exists g, cv, sg1, tm. refine (conj E1 (conj E2 (conj E3 (conj E4 _)))). apply HPQ. exact E5. }
      destruct (bl p) as [bb|] eqn:Eb.
      + eapply G; [|exact (baseline_estimates veq anc_unwrap o Hring o_exp (FP c) nodes c p n lp m ev f bb _ (po_sound _ _ S1) (S8 p Hanc) X1 X2 X3 (Hb c p bb Hc Hanc Eb) (score p) X4)].
        intros x t y [bp' [bf [[-> [-> ->]] ->]]]. split; [reflexivity|]. unfold bl_term. now rewrite Eb.
      + eapply G; [|exact (score_estimates veq anc_unwrap o Hring o_exp (FP c) nodes c p n lp m ev f (po_sound _ _ S1) (S8 p Hanc) X1 X2 X3 (score p) X4)].
        intros x t y [-> ->]. split; [reflexivity|]. unfold bl_term. now rewrite Eb. }
  destruct (surrogate_spec veq anc_unwrap o Hring o_exp fuel h nodes base ks sg) as [r [sg' [tss [R1 [R2 [R3 [R4 R5]]]]]]].
  { unfold ks. destruct costs; [congruence|discriminate]. } { exact Hks. }
  replace (map cg_id ks) with costs in R1 by (unfold ks; rewrite map_map; simpl; now rewrite map_id).
  assert (HT : sg' = sg /\ tss = map (fun c => map (bl_term (fun a => splates (nd_t (nodes a))) bl (bp c) (b c) score) (filter (scb nodes c) (ord c))) costs).
  { clear -R2. unfold ks in R2. revert sg sg' tss R2. induction costs as [|c costs IH]; intros sg sg' tss H; [inversion H; auto|].
    cbn [map] in H. inversion H as [|k ks' sgx ts sg1 tss' sg2 Ht Hts]; subst. cbn [cg_est cg_scored cg_order] in Ht.
    assert (Ht' : sg1 = sg /\ ts = map (bl_term (fun a => splates (nd_t (nodes a))) bl (bp c) (b c) score) (filter (scb nodes c) (ord c))).
    { clear -Ht. induction Ht as [|p ps sg t sg1 ts sg2 [-> ->] Ht [-> ->]]; auto. }
    destruct Ht' as [-> ->]. apply IH in Hts. destruct Hts as [-> ->]. auto. }
  destruct HT as [-> ->]. exists r. refine (conj R1 (conj R3 (conj R4 _))). rewrite R5. f_equal.
  unfold ks. rewrite combine_map_both, map_map. apply map_ext_in. intros c Hc. cbn [fst snd cg_plates cg_id]. now rewrite (Hin c Hc).
Qed.

Hypothesis Hev : evaluates o o_exp.
Hypothesis Hexp : forall x y, o_exp (o_add o x y) = o_mul o (o_exp x) (o_exp y).
Hypothesis Hfirst : first_order o.

Lemma first_box : forall L l b, o_mul o (box o o_exp L) (o_mul o (o_sub o (o_one o) (box o o_exp l)) b) = o_mul o (o_sub o (o_one o) (box o o_exp l)) b.
Proof.
  intros L l b.
  assert (Z : o_mul o (o_sub o (box o o_exp L) (o_one o)) (o_sub o (o_one o) (box o o_exp l)) = o_zero o).
  { apply Hfirst; rewrite (ev_sub _ _ Hev), (box_one o Hring o_exp Hev), (ev_one _ _ Hev); ring. }
  transitivity (o_add o (o_mul o (o_mul o (o_sub o (box o o_exp L) (o_one o)) (o_sub o (o_one o) (box o o_exp l))) b) (o_mul o (o_sub o (o_one o) (box o o_exp l)) b)); [ring|].
  rewrite Z. ring.
Qed.

(** With baselines independent of the sample the expected loss, up to first order, is that without. *)
Theorem baseline_unbiased : forall (pg : program V X) (nodes : world -> nat -> @snode V S) h univ costs FP T anc bl bp b cost sg base,
  program_ok o o_exp pg -> costs <> [] -> closed_under (h_parents h) univ -> incl costs univ ->
  (forall w c, In c costs -> score_setup veq anc_unwrap o o_exp (nodes w) h c (FP c) (anc c) bl (fun a s => pg_logp pg a s (along pg w s)) /\
     (forall a, In a (anc c) -> splates (nd_t (nodes w a)) = pg_plates pg a) /\
     forall s, in_range s (FP c) -> den (nd_t (nodes w c)) s [] = cost c s (along pg w s)) ->
  (forall c, In c costs -> depends_on o o_exp pg (FP c) (T c) (anc c) (cost c)) ->
  (forall w c a f, In c costs -> In a (anc c) -> bl a = Some f ->
     baseline_gives o (FP c) (nodes w) c a f (fun sg bp' bf sg' => sg' = sg /\ bp' = bp c a /\ bf = b c a w)) ->
  (forall c a s, In c costs -> In a (anc c) -> bl a <> None -> in_range s (FP c) ->
     independent pg a (map (fun p => s (pname p)) (pg_plates pg a)) (fun w => b c a w s)) ->
  exists loss : world -> V,
    (forall w, exists enough, forall fuel, enough <= fuel ->
       exists t, backward_value veq anc_unwrap o o_exp fuel h (nodes w) costs sg base = Ok t /\ shape t = [] /\ el t [] = loss w) /\
    forall w r, sampled o o_exp pg w loss =
      osum o (map (fun c => weighted_sum o false (FP c) (FP c) (fun s => mean o o_exp pg s r (cost c s)) (fun _ => 0)) costs).
Proof.
  intros pg nodes h univ costs FP T anc bl bp b cost sg base Hpg Hne Hu Hi Hss Hdep Hb Hind.
  assert (Hord : exists ord, forall c, In c costs -> in_order h c (ord c)).
  { clear -Hu Hi. induction costs as [|c costs IH]; [exists (fun _ => []); intros c []|].
    destruct IH as [ord IH]; [intros x Hx; apply Hi; now right|].
    destruct (walk_order h univ c Hu (Hi c (or_introl eq_refl))) as [l Hl].
    exists (fun x => if x =? c then l else ord x). intros x [<-|Hx]; [rewrite Nat.eqb_refl; exact Hl|].
    destruct (Nat.eqb_spec x c) as [-> |]; [exact Hl|]. now apply IH. }
  destruct Hord as [ord Hord].
  set (sc := fun w a s => pg_logp pg a s (along pg w s)).
  set (ts := fun c w => map (bl_term (pg_plates pg) bl (bp c) (fun a => b c a w) (sc w)) (inside (anc c) (ord c))).
  exists (fun w => osum o (map (fun c => cost_loss o o_exp (FP c) (nd_t (nodes w c)) (ts c w)) costs)).
  split.
  - intros w.
    destruct (score_loss_bl (nodes w) h costs FP anc bl bp (fun c a => b c a w) (sc w) sg base ord Hne Hord) as [enough H].
    { intros c Hc. apply (Hss w c Hc). } { intros c a f Hc Ha E. now apply Hb. }
    exists enough. intros fuel Hf. destruct (H fuel Hf) as [r [R1 [R2 [R3 R4]]]]. exists (st r). unfold backward_value. rewrite R1. cbn [bind as_tensor].
    split; [reflexivity|]. split; [exact R3|]. rewrite R4. f_equal. apply map_ext_in. intros c Hc. f_equal. unfold ts. apply map_ext_in. intros a Ha.
    unfold bl_term. apply inside_incl in Ha. rewrite (proj1 (proj2 (Hss w c Hc)) a Ha). reflexivity.
  - intros w r. unfold sampled. rewrite (sampled_sum o Hring). apply osum_ext. intros c Hc. set (L := sites pg).
    assert (HS : sound veq (FP c)) by (apply (po_sound _ _ (ss_plates _ _ _ _ _ _ _ _ _ _ _ (proj1 (Hss w c Hc))))).
    assert (Sadd : forall f g : world -> V, sampled_from o o_exp pg L w (fun w => o_add o (f w) (g w)) = o_add o (sampled_from o o_exp pg L w f) (sampled_from o o_exp pg L w g)).
    { intros f g. transitivity (sampled_from o o_exp pg L w (fun w => osum o (map (fun k : bool => if k then f w else g w) [true; false]))).
      - apply sampled_ext. intros w'. cbn. ring.
      - rewrite (sampled_sum o Hring o_exp pg [true; false] L w (fun k w => if k then f w else g w)).
        transitivity (o_add o (sampled_from o o_exp pg L w f) (o_add o (sampled_from o o_exp pg L w g) (o_zero o))); [reflexivity|ring]. }
    assert (Szero : sampled_from o o_exp pg L w (fun _ => o_zero o) = o_zero o).
    { rewrite (sampled_ext o o_exp pg L w _ (fun _ => o_mul o (o_zero o) (o_zero o))) by (intros; ring). rewrite (sampled_mul o Hring). ring. }
    unfold cost_loss. rewrite Sadd.
    (* the control variates *)
    assert (Hcv : sampled_from o o_exp pg L w (fun w => controls o o_exp (FP c) [] (ts c w)) = o_zero o).
    { assert (G : forall l (met : world -> list term), incl l (anc c) -> (forall w w', map t_g (met w) = map t_g (met w') \/ gplates (met w) = gplates (met w')) ->
        sampled_from o o_exp pg L w (fun w => controls o o_exp (FP c) (met w) (map (bl_term (pg_plates pg) bl (bp c) (fun a => b c a w) (sc w)) l)) = o_zero o).
      { induction l as [|a l IH]; intros met Hl Hm.
        - cbn [map controls]. apply Szero.
        - cbn [map controls]. cbv zeta. rewrite Sadd.
          assert (Hm' : forall w w', gplates (met w ++ [bl_term (pg_plates pg) bl (bp c) (fun a => b c a w) (sc w) a]) =
                                     gplates (met w' ++ [bl_term (pg_plates pg) bl (bp c) (fun a => b c a w') (sc w') a])).
          { intros w1 w2. unfold gplates. rewrite !flat_map_app. simpl. f_equal. destruct (Hm w1 w2) as [E|E]; [|exact E].
            rewrite !flat_map_concat_map. rewrite <- !(map_map t_g plates_opt). now rewrite E. }
          rewrite (IH (fun w => met w ++ [bl_term (pg_plates pg) bl (bp c) (fun a => b c a w) (sc w) a])).
          2: { intros x Hx. apply Hl. now right. } 2: { intros w1 w2. right. apply Hm'. }
          assert (Ha : In a (anc c)) by (apply Hl; now left).
          destruct (bl a) as [f|] eqn:Eb.
          + set (PL := gplates (met w ++ [bl_term (pg_plates pg) bl (bp c) (fun a => b c a w) (sc w) a]) ++ union (pg_plates pg a) (bp c a)).
            transitivity (o_add o (sampled_from o o_exp pg L w (fun w => weighted_sum o false (FP c) (among (FP c) PL)
               (fun s => o_mul o (o_sub o (o_one o) (box o o_exp (sc w a s))) (b c a w s)) (fun _ => 0))) (o_zero o)).
            * f_equal. apply sampled_ext. intros w'. cbn [bl_term t_cv]. rewrite Eb. unfold total. rewrite (Hm' w' w). fold PL.
              apply (weighted_sum_ext anc_unwrap); [apply (among_NoDup veq (FP c) HS)|]. intros s _ _. apply first_box.
            * rewrite (sampled_weighted o Hring o_exp pg (FP c) (among (FP c) PL) L w (fun _ => 0) (fun s w => o_mul o (o_sub o (o_one o) (box o o_exp (sc w a s))) (b c a w s))).
              rewrite <- (weighted_sum_zero o Hring (FP c) (among (FP c) PL) (fun _ => 0)).
              match goal with |- o_add o ?A _ = _ => assert (EA : A = weighted_sum o false (FP c) (among (FP c) PL) (fun _ => o_zero o) (fun _ => 0)) end.
              { apply (weighted_sum_ext anc_unwrap); [apply (among_NoDup veq (FP c) HS)|]. intros s Hs1 Hs2.
                assert (Hr : in_range s (FP c)).
                { intros q Hq. destruct (in_dec string_dec (pname q) (N (among (FP c) PL))) as [HC|HC].
                  - apply in_map_iff in HC. destruct HC as [q' [E' Hq']]. specialize (Hs2 q' Hq'). rewrite <- E'. apply filter_In in Hq'.
                    rewrite <- (so_size _ _ HS q' q); auto; [left; apply Hq'|now left].
                  - rewrite (Hs1 _ HC). pose proof (so_pos _ _ HS q (or_introl Hq)). lia. }
                assert (HaT := dp_anc _ _ _ _ _ _ _ (Hdep c Hc) a Ha).
                unfold L, sc. apply (control_zero_at o Hring o_exp Hev Hexp pg Hpg a s w (fun w => b c a w s)).
                - apply (dp_vars _ _ _ _ _ _ _ (Hdep c Hc) a HaT).
                - intros p Hp. apply Hr. apply (dp_plates _ _ _ _ _ _ _ (Hdep c Hc) a p HaT Hp).
                - apply Hind; auto. congruence. }
              rewrite EA, (weighted_sum_zero o Hring). ring.
          + cbn [bl_term t_cv]. rewrite Eb. rewrite Szero. ring. }
      apply (G (inside (anc c) (ord c)) (fun _ => [])); [apply inside_incl|]. intros w1 w2. now left. }
    rewrite Hcv.
    (* the boxed cost *)
    set (F := fun (s : assignment) w => o_mul o (box o o_exp (osum o (map (fun a => pg_logp pg a s (along pg w s)) (anc c)))) (cost c s (along pg w s))).
    transitivity (o_add o (o_zero o) (sampled_from o o_exp pg L w (fun w => weighted_sum o false (FP c) (FP c) (fun s => F s w) (fun _ => 0)))).
    + f_equal. apply sampled_ext. intros w'. unfold total. destruct (Hss w' c Hc) as [[S1 S2 S3 S4 S5 S6 S7 S8 S9 S10] [Hpl Hden]].
      destruct (Hord c Hc) as [_ [O2 O3]].
      assert (Hperm : Permutation (inside (anc c) (ord c)) (anc c)).
      { apply NoDup_Permutation; auto. now apply NoDup_filter. intros x. split; [apply inside_incl|]. intros Hx. apply filter_In. split.
        - apply O3. now apply S6. - destruct (in_dec Nat.eq_dec x (anc c)); auto. }
      rewrite among_all.
      * apply (weighted_sum_ext anc_unwrap); [exact (HND veq (FP c) HS)|]. intros s Hs1 Hs2. unfold F. rewrite (Hden s (in_range_FP _ _ Hs2)). f_equal. f_equal.
        unfold gsum, ts. rewrite map_map. cbn [bl_term t_g value_opt]. apply (osum_perm o Hring). now apply Permutation_map.
      * intros p Hp. rewrite map_app. apply in_or_app. destruct (S10 p Hp) as [H|[a [Ha H]]]; [right; now apply in_map|].
        left. apply in_map. unfold gplates, ts. apply in_flat_map. exists (bl_term (pg_plates pg) bl (bp c) (fun a => b c a w') (sc w') a). split.
        -- apply in_map. eapply Permutation_in; [apply Permutation_sym, Hperm|auto].
        -- cbn. rewrite <- (Hpl a Ha). exact H.
    + rewrite (sampled_weighted o Hring o_exp pg (FP c) (FP c) L w (fun _ => 0) F).
      transitivity (weighted_sum o false (FP c) (FP c) (fun s => sampled_from o o_exp pg L w (F s)) (fun _ => 0)); [ring|].
      apply (weighted_sum_ext anc_unwrap); [exact (HND veq (FP c) HS)|].
      intros s Hs1 Hs2. unfold F.
      exact (boxed_mean o Hring o_exp Hev Hexp pg Hpg (FP c) (T c) (anc c) (cost c) s w r (Hdep c Hc) (ss_nodup _ _ _ _ _ _ _ _ _ _ _ (proj1 (Hss w c Hc))) (in_range_FP _ _ Hs2)).
Qed.
End Baselines.
