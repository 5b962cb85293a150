(** A control variate that does not depend on the sample has expectation zero (C24, C26). *)
From Coq Require Import String List Arith Bool ZArith Lia Permutation Ring.
From Verif Require Import Base Torch Plates Wrap OrderPlates Scalar Reduce Graph Surrogate SpecTensor SpecWrap SpecOrder SpecReduce SpecGraph
  SpecSurrogate SpecProgram ListLemmas ReduceProofs ReduceProofs2 SurrogateProofs SurrogateProofs2 ProgramProofs.
Import ListNotations.

Section Sites.
Context {V X : Type}.
Notation plate := (plate V).
Variable o : sops V.
Hypothesis Hring : is_ring o.
Variable o_exp : V -> V.
Hypothesis Hev : evaluates o o_exp.
Hypothesis Hexp : forall x y, o_exp (o_add o x y) = o_mul o (o_exp x) (o_exp y).
Let Hring' : ring_theory (o_zero o) (o_one o) (o_add o) (o_mul o) (o_sub o) (o_opp o) (@eq V) := Hring.
Add Ring o_ring : Hring'.
Variable pg : program V X.
Hypothesis Hpg : program_ok o o_exp pg.
Notation world := (@world X).
Notation prob := (prob o_exp pg).
Notation det := (o_det o).
Notation sampled_from := (sampled_from o o_exp pg).

Definition dep_site (a : nat) (i : list nat) (b : nat) : list nat := map (fun p => choice pg a i (pname p)) (pg_plates pg b).

Lemma same_site : forall a i (w w' : world), In a (pg_vars pg) -> (forall b, In b (pg_deps pg a) -> w b (dep_site a i b) = w' b (dep_site a i b)) ->
  pg_support pg a (choice pg a i) (along pg w (choice pg a i)) = pg_support pg a (choice pg a i) (along pg w' (choice pg a i)) /\
  forall x, prob a (choice pg a i) (along pg w (choice pg a i)) x = prob a (choice pg a i) (along pg w' (choice pg a i)) x.
Proof.
  intros a i w w' Ha H. split.
  - apply (po_local _ _ _ Hpg a); auto.
  - intros x. unfold SpecProgram.prob. f_equal. apply (po_local _ _ _ Hpg a); auto; [|now rewrite !put_same].
    intros b Hb. unfold put. destruct (b =? a); auto. apply H. exact Hb.
Qed.

Section Kept.
Variable K : nat -> list nat -> bool.
Hypothesis HK : forall b j c, In b (pg_vars pg) -> K b j = true -> In c (pg_deps pg b) -> K c (dep_site b j c) = true.
Definition sameK (w w' : world) : Prop := forall b j, K b j = true -> w b j = w' b j.
Lemma sameK_write : forall w w' a i x, sameK w w' -> sameK (write w a i x) (write w' a i x).
Proof. intros w w' a i x H b j Hb. unfold write. destruct ((b =? a) && _); auto. Qed.
Lemma sampled_same : forall l (w w' : world) (g : world -> V), (forall a i, In (a, i) l -> In a (pg_vars pg) /\ K a i = true) ->
  (forall w w', sameK w w' -> g w = g w') -> sameK w w' -> sampled_from l w g = sampled_from l w' g.
Proof.
  induction l as [|[a i] l IH]; intros w w' g Hl Hg H; simpl; [now apply Hg|].
  destruct (Hl a i (or_introl eq_refl)) as [Ha Hk].
  destruct (same_site a i w w' Ha) as [E1 E2]; [intros b Hb; apply H; now apply HK|].
  rewrite E1. apply osum_ext. intros x _. rewrite E2. f_equal. apply IH; auto; [intros b j Hb; apply Hl; now right|now apply sameK_write].
Qed.
Definition only (l : list (nat * list nat)) : list (nat * list nat) := filter (fun s => K (fst s) (snd s)) l.
Lemma sampled_only : forall l (w : world) (g : world -> V), (forall a i, In (a, i) l -> In a (pg_vars pg)) ->
  (forall w w', sameK w w' -> g w = g w') -> sampled_from l w g = sampled_from (only l) w g.
Proof.
  induction l as [|[a i] l IH]; intros w g Hl Hg; [reflexivity|].
  assert (Hl' : forall b j, In (b, j) l -> In b (pg_vars pg)) by (intros b j Hb; apply (Hl b j); now right).
  unfold only. simpl. destruct (K a i) eqn:Ek; fold (only l).
  - simpl. apply osum_ext. intros x _. f_equal. now apply IH.
  - assert (Ha : In a (pg_vars pg)) by (apply (Hl a i); now left).
    transitivity (osum o (map (fun x => o_mul o (det (prob a (choice pg a i) (along pg w (choice pg a i)) x)) (sampled_from (only l) w g))
      (pg_support pg a (choice pg a i) (along pg w (choice pg a i))))).
    + apply osum_ext. intros x _. f_equal. rewrite IH by assumption. apply sampled_same; auto.
      * intros b j Hb. apply filter_In in Hb. destruct Hb as [Hb Hk]. split; [exact (Hl' b j Hb)|exact Hk].
      * intros b j Hb. apply write_other. intros E. injection E as -> ->. congruence.
    + apply (osum_const o Hring). now apply (prob_sums_det o o_exp Hev pg Hpg).
Qed.
End Kept.

Lemma sampled_off : forall l (w : world) (f g : world -> V), (forall w', (forall b j, ~ In (b, j) l -> w' b j = w b j) -> f w' = g w') -> sampled_from l w f = sampled_from l w g.
Proof.
  induction l as [|[a i] l IH]; intros w f g H; simpl; [apply H; auto|]. apply osum_ext. intros x _. f_equal. apply IH. intros w' H'.
  apply H. intros b j Hb. rewrite H' by (intros C; apply Hb; now right). apply write_other. intros E. apply Hb. left. congruence.
Qed.

Lemma in_sites : forall a i, In (a, i) (sites pg) <-> In a (pg_vars pg) /\ In i (indices (map pn (pg_plates pg a))).
Proof.
  intros a i. unfold sites. rewrite in_flat_map. split.
  - intros [b [Hb H]]. apply in_map_iff in H. destruct H as [j [E Hj]]. injection E as -> ->. auto.
  - intros [Ha Hi]. exists a. split; auto. now apply in_map.
Qed.

(** What comes after a site in the sampling order is neither the site nor one it depends on. *)
Lemma sites_after : forall l1 a i l2, sites pg = l1 ++ (a, i) :: l2 -> ~ In (a, i) l2 /\ forall b, In b (pg_deps pg a) -> ~ In (b, dep_site a i b) l2.
Proof.
  intros l1 a i l2 E.
  assert (G : forall vs l1, flat_map (fun a => map (pair a) (indices (map pn (pg_plates pg a)))) vs = l1 ++ (a, i) :: l2 ->
     NoDup vs -> (forall l b r, vs = l ++ b :: r -> forall c, In c (pg_deps pg b) -> ~ In c (b :: r)) ->
     ~ In (a, i) l2 /\ forall b, In b (pg_deps pg a) -> ~ In (b, dep_site a i b) l2).
  { induction vs as [|v vs IH]; intros k E' Hnd Hd; [destruct k; discriminate|]. simpl in E'.
    inversion Hnd as [|? ? Hv Hnd']; subst.
    assert (Hd' : forall l b r, vs = l ++ b :: r -> forall c, In c (pg_deps pg b) -> ~ In c (b :: r)).
    { intros l b r El. apply (Hd (v :: l) b r). now rewrite El. }
    destruct (Nat.eq_dec v a) as [-> |Nv].
    - (* the row of a *)
      assert (S : exists m1 m2, indices (map pn (pg_plates pg a)) = m1 ++ i :: m2 /\ l2 = map (pair a) m2 ++ flat_map (fun a => map (pair a) (indices (map pn (pg_plates pg a)))) vs).
      { clear -E' Hv. revert k E'. generalize (indices (map pn (pg_plates pg a))). intros m. induction m as [|j m IHm]; intros k E'.
        - exfalso. simpl in E'. assert (In (a, i) (flat_map (fun a0 => map (pair a0) (indices (map pn (pg_plates pg a0)))) vs)) by (rewrite E'; apply in_or_app; right; now left).
          apply in_flat_map in H. destruct H as [b [Hb H]]. apply in_map_iff in H. destruct H as [j [Ej _]]. injection Ej as -> _. contradiction.
        - destruct k as [|x k]; simpl in E'; injection E' as E1 E2.
          + subst j l2. exists [], m. auto.
          + destruct (IHm k E2) as [m1 [m2 [F1 F2]]]. exists (j :: m1), m2. split; [now rewrite F1|exact F2]. }
      destruct S as [m1 [m2 [S1 S2]]]. assert (N := NoDup_indices (map pn (pg_plates pg a))). rewrite S1 in N. apply NoDup_remove_2 in N.
      subst l2. split.
      + intros C. apply in_app_or in C. destruct C as [C|C].
        * apply in_map_iff in C. destruct C as [j [Ej Hj]]. injection Ej as ->. apply N, in_or_app. now right.
        * apply in_flat_map in C. destruct C as [b [Hb H]]. apply in_map_iff in H. destruct H as [j [Ej _]]. injection Ej as -> _. contradiction.
      + intros b Hb C. apply (Hd [] a vs eq_refl b Hb). apply in_app_or in C. destruct C as [C|C].
        * apply in_map_iff in C. destruct C as [j [Ej _]]. injection Ej as -> _. now left.
        * apply in_flat_map in C. destruct C as [c [Hc H]]. apply in_map_iff in H. destruct H as [j [Ej _]]. injection Ej as -> _. now right.
    - (* another row in front *)
      assert (S : exists k', flat_map (fun a => map (pair a) (indices (map pn (pg_plates pg a)))) vs = k' ++ (a, i) :: l2).
      { clear -E' Nv. revert k E'. generalize (indices (map pn (pg_plates pg v))). intros m. induction m as [|j m IHm]; intros k E'; [exists k; exact E'|].
        destruct k as [|x k]; simpl in E'; injection E' as E1 E2; [congruence|]. now apply (IHm k). }
      destruct S as [k' S]. exact (IH k' S Hnd' Hd'). }
  apply (G (pg_vars pg) l1 E (po_nodup _ _ _ Hpg)).
  intros l b r El c Hc C. apply (po_order _ _ _ Hpg l b r El) in Hc. assert (N := po_nodup _ _ _ Hpg). rewrite El in N. clear -N Hc C.
  induction l as [|x l IH]; [contradiction|]. simpl in N. inversion N; subst. destruct Hc as [-> |Hc]; [apply H1, in_or_app; now right|]. now apply IH.
Qed.

Lemma control_zero : forall a i (w : world) (g : world -> V), In (a, i) (sites pg) -> independent pg a i g ->
  sampled o o_exp pg w (fun w => o_mul o (o_sub o (o_one o) (box o o_exp (pg_logp pg a (choice pg a i) (along pg w (choice pg a i))))) (g w)) = o_zero o.
Proof.
  intros a i w g Hin [K [K1 [K2 K3]]]. unfold sampled.
  destruct (in_split _ _ Hin) as [l1 [l2 E]]. destruct (sites_after l1 a i l2 E) as [A1 A2].
  assert (Ha : In a (pg_vars pg)) by (apply in_sites in Hin; tauto).
  assert (Hl2 : forall b j, In (b, j) l2 -> In b (pg_vars pg)).
  { intros b j Hb. apply (in_sites b j). rewrite E. apply in_or_app. right. now right. }
  assert (Hii : dep_site a i a = i).
  { apply in_sites in Hin. destruct Hin as [_ Hi]. apply in_indices in Hi. unfold dep_site, choice.
    apply set_all_map; [apply (po_names _ _ _ Hpg a Ha)|]. apply valid_length in Hi. now rewrite Hi, map_length. }
  rewrite E. clear E Hin. revert w. induction l1 as [|[b j] l1 IH]; intros w.
  - cbn [app SpecProgram.sampled_from]. cbv zeta. set (s := choice pg a i). set (r := along pg w s).
    transitivity (osum o (map (fun x => o_mul o (o_sub o (det (prob a s r x)) (prob a s r x)) (sampled_from (only K l2) w g)) (pg_support pg a s r))).
    + apply osum_ext. intros x _.
      assert (F : sampled_from l2 (write w a i x) (fun w => o_mul o (o_sub o (o_one o) (box o o_exp (pg_logp pg a s (along pg w s)))) (g w)) =
                  o_mul o (o_sub o (o_one o) (box o o_exp (pg_logp pg a s (put r a x)))) (sampled_from (only K l2) w g)).
      { rewrite (sampled_off l2 _ _ (fun w' => o_mul o (o_sub o (o_one o) (box o o_exp (pg_logp pg a s (put r a x)))) (g w'))).
        - rewrite (sampled_mul o Hring). f_equal. rewrite (sampled_only K K2 l2 _ g Hl2 K3). apply (sampled_same K K2); auto.
          + intros b j Hb. apply filter_In in Hb. destruct Hb as [Hb Hk]. split; [exact (Hl2 b j Hb)|exact Hk].
          + intros b j Hb. apply write_other. intros Q. injection Q as -> ->. congruence.
        - intros w' H'. f_equal. f_equal. f_equal. apply (po_local _ _ _ Hpg a s s); auto.
          + intros b Hb. change (w' b (dep_site a i b) = put r a x b). rewrite (H' b (dep_site a i b)) by (now apply A2).
            assert (Nab : b <> a). { intros ->. destruct (in_split _ _ Ha) as [u1 [u2 Eu]]. pose proof (po_order _ _ _ Hpg u1 a u2 Eu a Hb) as C.
              pose proof (po_nodup _ _ _ Hpg) as N. rewrite Eu in N. apply NoDup_remove_2 in N. apply N, in_or_app. now left. }
            rewrite write_other by congruence. unfold put. destruct (Nat.eqb_spec b a); [contradiction|reflexivity].
          + change (w' a (dep_site a i a) = put r a x a). rewrite Hii, put_same, (H' a i A1). apply write_same. }
      rewrite F. unfold SpecProgram.prob. set (lp := pg_logp pg a s (put r a x)).
      transitivity (o_mul o (o_sub o (det (o_exp lp)) (o_mul o (det (o_exp lp)) (box o o_exp lp))) (sampled_from (only K l2) w g)); [ring|].
      now rewrite (det_box o Hring o_exp Hev Hexp).
    + rewrite <- (osum_mul_r o Hring (fun x => o_sub o (det (prob a s r x)) (prob a s r x))).
      assert (Z : osum o (map (fun x => o_sub o (det (prob a s r x)) (prob a s r x)) (pg_support pg a s r)) = o_zero o).
      { transitivity (o_sub o (osum o (map (fun x => det (prob a s r x)) (pg_support pg a s r))) (osum o (map (prob a s r) (pg_support pg a s r)))).
        - generalize (pg_support pg a s r). intros l. induction l as [|x l IHl]; cbn [map]; [cbn; ring|]. rewrite !osum_cons, IHl. ring.
        - rewrite (prob_sums_det o o_exp Hev pg Hpg a s r Ha), (po_sums _ _ _ Hpg a s r Ha). ring. }
      rewrite Z. ring.
  - cbn [app SpecProgram.sampled_from]. cbv zeta.
    rewrite (osum_ext o _ (fun _ => o_zero o)); [apply (osum_zero o Hring)|]. intros x _. rewrite IH. ring.
Qed.

(** The same at a choice of samples. *)
Lemma control_zero_at : forall a s (w : world) (g : world -> V), In a (pg_vars pg) -> in_range s (pg_plates pg a) ->
  independent pg a (map (fun p => s (pname p)) (pg_plates pg a)) g ->
  sampled o o_exp pg w (fun w => o_mul o (o_sub o (o_one o) (box o o_exp (pg_logp pg a s (along pg w s)))) (g w)) = o_zero o.
Proof.
  intros a s w g Ha Hs Hi. set (i := map (fun p => s (pname p)) (pg_plates pg a)) in *.
  rewrite <- (control_zero a i w g).
  - apply (sampled_ext o o_exp pg). intros w'. f_equal. f_equal. f_equal.
    assert (E : forall p, In p (pg_plates pg a) -> s (pname p) = choice pg a i (pname p)).
    { subst i. unfold choice. generalize (pg_plates pg a). intros l p Hp. induction l as [|q l IH]; [contradiction|]. simpl. unfold set_to.
      destruct (String.eqb_spec (pname p) (pname q)) as [Eq|Eq]; [now rewrite Eq|]. destruct Hp as [-> |Hp]; [congruence|]. now apply IH. }
    assert (D : forall b, incl (map pname (pg_plates pg b)) (map pname (pg_plates pg a)) -> along pg w' s b = along pg w' (choice pg a i) b).
    { intros b Hb. unfold along. f_equal. apply map_ext_in. intros p Hp. apply (in_map pname) in Hp. apply Hb in Hp. apply in_map_iff in Hp.
      destruct Hp as [q [Eq Hq]]. rewrite <- Eq. now apply E. }
    apply (po_local _ _ _ Hpg a); auto. intros b Hb. apply D. now apply (po_nested _ _ _ Hpg a b Ha Hb).
    apply D. apply incl_refl.
  - apply in_sites. split; auto. apply in_indices. subst i. revert Hs. generalize (pg_plates pg a). intros l R. induction l as [|p l IHl]; simpl; [constructor|].
    constructor; [apply R; now left|]. apply IHl. intros q Hq. apply R. now right.
  - exact Hi.
Qed.
End Sites.
