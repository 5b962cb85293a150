(** Proofs about graph walks, the topological sort, construction and cleaning. *)
From Coq Require Import String List Arith Bool Lia Permutation Sorted.
From Coq Require Import Relations.Relation_Operators.
From Verif Require Import Base ListLemmas Graph SpecGraph.
Import ListNotations.

Lemma mem_In x l : mem x l = true <-> In x l.
Proof.
  unfold mem. rewrite existsb_exists. split.
  - intros (y & Hy & E). apply Nat.eqb_eq in E. now subst.
  - intros H. exists x. split; auto. apply Nat.eqb_refl.
Qed.

Lemma mem_notIn x l : mem x l = false <-> ~ In x l.
Proof.
  destruct (mem x l) eqn:E.
  - apply mem_In in E. split; [discriminate|contradiction].
  - split; auto. intros _ H. apply mem_In in H. congruence.
Qed.

(** ** Measures *)

Definition weight_of (f : nat -> nat) (univ visited : list nat) : nat :=
  list_sum (map f (filter (fun v => negb (mem v visited)) univ)).

Lemma weight_cons f univ visited v :
  NoDup univ -> In v univ -> ~ In v visited ->
  weight_of f univ visited = f v + weight_of f univ (v :: visited).
Proof.
  intros ND Hv Hn. unfold weight_of, list_sum. induction univ as [|u r IH]; [contradiction|].
  inversion ND as [|? ? Hu NDr]; subst. cbn [filter].
  destruct Hv as [->|Hv].
  - replace (mem v visited) with false by (symmetry; now apply mem_notIn).
    replace (mem v (v :: visited)) with true by (cbn; rewrite Nat.eqb_refl; auto).
    cbn [negb map fold_right].
    rewrite (filter_ext_in (fun v0 => negb (mem v0 visited)) (fun v0 => negb (mem v0 (v :: visited))) r); auto.
    intros x Hx. f_equal.
    cbn. destruct (Nat.eqb_spec x v); [subst; contradiction|auto].
  - specialize (IH NDr Hv).
    assert (u <> v) by (intros ->; contradiction).
    replace (mem u (v :: visited)) with (mem u visited)
      by (cbn; destruct (Nat.eqb_spec u v); [contradiction|auto]).
    destruct (negb (mem u visited)); cbn [map fold_right] in *; [|exact IH]. lia.
Qed.

Section Walks.
Variable expand : nat -> list edge.
Variable od : bool.
Variable univ : list nat.
Hypothesis ND : NoDup univ.
Hypothesis CL : closed_under expand univ.

Definition targets v := map fst (filter (fun e => snd e || negb od) (expand v)).

Lemma targets_follows v w : In w (targets v) <-> follows expand od v w.
Proof.
  unfold targets, follows. rewrite in_map_iff. split.
  - intros ([w' d] & <- & H). apply filter_In in H as [H E]. cbn in *. exists d. split; auto.
    intros ->. now rewrite orb_false_r in E.
  - intros (d & H & E). exists (w, d). split; auto. apply filter_In. split; auto. cbn.
    destruct od; cbn; [rewrite E; auto|apply orb_true_r].
Qed.

Lemma targets_univ v w : In v univ -> In w (targets v) -> In w univ.
Proof. intros Hv H. apply targets_follows in H as (d & H & _). eapply CL; eauto. Qed.

Lemma reach_univ s x : In s univ -> reachable expand od s x -> In x univ.
Proof. intros Hs H. induction H; auto. apply IHclos_refl_trans_1n. apply targets_univ with x; auto. now apply targets_follows. Qed.

Lemma reach_step s x y : reachable expand od s x -> follows expand od x y -> reachable expand od s y.
Proof.
  intros H E. induction H.
  - eapply rt1n_trans; [exact E|apply rt1n_refl].
  - eapply rt1n_trans; [eassumption|]. now apply IHclos_refl_trans_1n.
Qed.

Lemma closed_reach (P : nat -> Prop) s x :
  (forall v w, P v -> follows expand od v w -> P w) -> P s -> reachable expand od s x -> P x.
Proof. intros HC Hs H. induction H; eauto. Qed.

Lemma dfs_spec fuel : forall stack visited acc s,
  length stack + weight_of (fun v => length (targets v)) univ visited < fuel ->
  (forall x, In x stack -> In x univ) ->
  visited = acc -> NoDup acc ->
  (forall x, In x acc -> reachable expand od s x) -> (forall x, In x stack -> reachable expand od s x) ->
  (forall v w, In v acc -> follows expand od v w -> In w acc \/ In w stack) ->
  In s acc \/ In s stack ->
  exists l, dfs fuel expand od false stack visited acc = Some l /\ NoDup l /\
            (forall x, In x l <-> reachable expand od s x).
Proof.
  induction fuel as [|k IH]; intros stack visited acc s F U EV NDa RA RS C S; [lia|].
  destruct stack as [|v r]; cbn [dfs].
  - exists (rev acc). split; auto. split; [now apply NoDup_rev|]. intros x. rewrite <- in_rev. split; auto.
    destruct S as [S|[]]. apply (closed_reach (fun y => In y acc)); auto.
    intros a b Ha Hb. destruct (C a b Ha Hb) as [|[]]; auto.
  - cbn [orb]. destruct (mem v visited) eqn:M; cbn [negb].
    + apply mem_In in M. subst visited. apply IH; auto.
      * cbn in F. lia.
      * intros; apply U; now right.
      * intros; apply RS; now right.
      * intros a b Ha Hb. destruct (C a b Ha Hb) as [|[<-|]]; auto.
      * destruct S as [|[<-|]]; auto.
    + apply mem_notIn in M. subst visited.
      change (map fst (filter (fun e => snd e || negb od) (expand v))) with (targets v).
      apply IH; auto.
      * rewrite app_length, rev_length. cbn in F.
        rewrite (weight_cons _ univ acc v) in F; auto; [lia|]. apply U; now left.
      * intros x H. apply in_app_iff in H as [H|H].
        { apply in_rev in H. eapply targets_univ; [|eauto]. apply U; now left. }
        { apply U; now right. }
      * now constructor.
      * intros x [<-|H]; auto. apply RS; now left.
      * intros x H. apply in_app_iff in H as [H|H].
        { apply in_rev in H. apply targets_follows in H. eapply reach_step; [|eauto]. apply RS; now left. }
        { apply RS; now right. }
      * intros a b [<-|Ha] Hb.
        { right. apply in_app_iff. left. apply -> in_rev. now apply targets_follows. }
        { destruct (C a b Ha Hb) as [|[<-|]]; [left; now right|left; now left|right; apply in_app_iff; auto]. }
      * destruct S as [|[<-|]]; [left; now right|left; now left|right; apply in_app_iff; auto].
Qed.

(** One round of the breadth first loop. *)
Lemma bfs_push_spec es : forall q vis q' vis',
  fold_left (bfs_push od false) es (q, vis) = (q', vis') ->
  exists new, q' = q ++ new /\ vis' = rev new ++ vis /\ NoDup new /\
    (forall x, In x new <-> ~ In x vis /\ exists d, In (x, d) es /\ (od = true -> d = true)).
Proof.
  induction es as [|[w d] es IH]; cbn [fold_left]; intros q vis q' vis' E.
  - injection E as <- <-. exists []. rewrite app_nil_r.
    refine (conj eq_refl (conj eq_refl (conj (NoDup_nil _) _))). intros x; split; [intros []|].
    intros (_ & ? & [] & _).
  - cbn [bfs_push snd fst] in E. rewrite orb_false_l in E.
    destruct (negb (mem w vis) && (d || negb od)) eqn:B.
    + apply andb_prop in B as [B1 B2]. apply negb_true_iff, mem_notIn in B1.
      apply IH in E as (new & -> & -> & NDn & M). exists (w :: new).
      rewrite <- !app_assoc. cbn [app rev]. rewrite <- app_assoc. cbn [app].
      refine (conj eq_refl (conj eq_refl (conj _ _))).
      * constructor; auto. intros H. apply M in H as [H _]. apply H. now left.
      * intros x; split.
        { intros [<-|H].
          - split; auto. exists d. split; [now left|]. intros E. rewrite E in B2. now rewrite orb_false_r in B2.
          - apply M in H as (H0 & d' & H & E). split; [intros ?; apply H0; now right|].
            exists d'. split; auto. now right. }
        intros (H & d' & [H1|H1] & E).
        { injection H1 as -> ->. now left. }
        { destruct (Nat.eq_dec w x) as [->|n]; [now left|right]. apply M. split; eauto. intros [?|?]; auto. }
    + apply IH in E as (new & -> & -> & NDn & M). exists new.
      refine (conj eq_refl (conj eq_refl (conj NDn _))). intros x; split.
      * intros H. apply M in H as (H0 & d' & H & E). split; auto. exists d'. split; auto. now right.
      * intros (H & d' & [H1|H1] & E); [|apply M; eauto].
        injection H1 as -> ->. exfalso. apply andb_false_iff in B as [B|B].
        { apply negb_false_iff, mem_In in B. auto. }
        { destruct od; cbn in B; [rewrite E in B by auto; discriminate|now rewrite orb_true_r in B]. }
Qed.

Lemma weight_one_new new : forall vis,
  NoDup new -> (forall x, In x new -> In x univ /\ ~ In x vis) ->
  weight_of (fun _ => 1) univ vis = length new + weight_of (fun _ => 1) univ (rev new ++ vis).
Proof.
  induction new as [|x new IH]; intros vis NDn H; cbn [rev app length]; auto.
  inversion NDn; subst. destruct (H x (or_introl eq_refl)) as [H1' H2'].
  rewrite (weight_cons _ univ vis x) by auto. cbn. f_equal.
  rewrite (IH (x :: vis)).
  - rewrite <- app_assoc. reflexivity.
  - auto.
  - intros y Hy. destruct (H y (or_intror Hy)). split; auto. intros [->|?]; auto.
Qed.

Lemma bfs_spec_gen (Inv : list nat -> list nat -> Prop)
  (step : forall v q out new, Inv out (v :: q) -> NoDup new ->
     (forall x, In x new <-> ~ In x (out ++ v :: q) /\ follows expand od v x) -> Inv (out ++ [v]) (q ++ new)) :
  forall fuel queue visited out s,
  length queue + weight_of (fun _ => 1) univ visited < fuel ->
  Inv (rev out) queue ->
  (forall x, In x queue -> In x univ) ->
  (forall x, In x visited <-> In x out \/ In x queue) -> NoDup (rev out ++ queue) ->
  (forall x, In x visited -> reachable expand od s x) ->
  (forall v w, In v out -> follows expand od v w -> In w visited) ->
  In s visited ->
  exists l, bfs fuel expand od false queue visited out = Some l /\ NoDup l /\
            (forall x, In x l <-> reachable expand od s x) /\ Inv l [].
Proof.
  induction fuel as [|k IH]; intros queue visited out s F I U EV NDa R C S; [lia|].
  destruct queue as [|v q]; cbn [bfs].
  - rewrite app_nil_r in NDa.
    exists (rev out). split; auto. split; auto. split; auto. intros x. rewrite <- in_rev. split.
    + intros H. apply R. apply EV. now left.
    + assert (Hs : In s out) by (apply EV in S as [|[]]; auto).
      intros H. revert H. apply (closed_reach (fun y => In y out)); auto. intros a b Ha Hb. specialize (C a b Ha Hb).
      apply EV in C as [|[]]; auto.
  - destruct (fold_left (bfs_push od false) (expand v) (q, visited)) as [q' vis'] eqn:E.
    apply bfs_push_spec in E as (new & -> & -> & NDn & M).
    assert (Hv : In v univ) by (apply U; now left).
    assert (MF : forall x, In x new <-> ~ In x visited /\ follows expand od v x) by (intros x; apply M).
    assert (Hnew : forall x, In x new -> In x univ /\ ~ In x visited).
    { intros x H. apply MF in H as (H1 & H2). split; auto. eapply targets_univ; [exact Hv|]. now apply targets_follows. }
    assert (OV : forall x, In x (rev out ++ v :: q) <-> In x visited).
    { intros x. rewrite EV, in_app_iff, <- in_rev. reflexivity. }
    apply IH.
    + rewrite app_length. rewrite (weight_one_new new visited) in F by auto. cbn in F. lia.
    + cbn [rev]. apply step; auto. intros x. rewrite MF, OV. reflexivity.
    + intros x H. apply in_app_iff in H as [H|H]; [apply U; now right|now apply Hnew].
    + intros x. cbn [In]. rewrite !in_app_iff, <- in_rev, EV. cbn [In]. tauto.
    + cbn [rev]. rewrite <- app_assoc. cbn [app].
      change (rev out ++ v :: q ++ new) with (rev out ++ (v :: q) ++ new). rewrite app_assoc.
      apply NoDup_app_intro; auto.
      intros x H1 H2. apply OV in H1. now apply Hnew in H2.
    + intros x H. apply in_app_iff in H as [H|H]; [|auto]. apply in_rev in H. apply MF in H as [_ H].
      eapply reach_step; [|exact H]. apply R. apply EV. right; now left.
    + intros a b [<-|Ha] Hb; apply in_app_iff.
      * destruct (in_dec Nat.eq_dec b visited); auto. left. apply -> in_rev. apply MF. auto.
      * right. eauto.
    + apply in_app_iff; auto.
Qed.

End Walks.

(** ** Fuel *)

Lemma dfs_more fuel : forall expand od rep stack vis acc l m,
  dfs fuel expand od rep stack vis acc = Some l -> fuel <= m -> dfs m expand od rep stack vis acc = Some l.
Proof.
  induction fuel as [|k IH]; intros expand od rep stack vis acc l m E H; [discriminate|].
  destruct m as [|m]; [lia|]. cbn [dfs] in *. destruct stack; auto.
  destruct (rep || negb (mem n vis)); apply IH with (m := m) in E; auto; lia.
Qed.

Lemma bfs_more fuel : forall expand od rep q vis out l m,
  bfs fuel expand od rep q vis out = Some l -> fuel <= m -> bfs m expand od rep q vis out = Some l.
Proof.
  induction fuel as [|k IH]; intros expand od rep q vis out l m E H; [discriminate|].
  destruct m as [|m]; [lia|]. cbn [bfs] in *. destruct q; auto.
  destruct (fold_left (bfs_push od rep) (expand n) (q, vis)).
  apply IH with (m := m) in E; auto; lia.
Qed.

Lemma walk_more fuel expand df rv od rep self l m :
  walk fuel expand df rv od rep self = Some l -> fuel <= m -> walk m expand df rv od rep self = Some l.
Proof.
  unfold walk. destruct df; [apply dfs_more|].
  destruct (bfs fuel expand od rep [self] [self] []) eqn:E; [|discriminate].
  intros H L. now rewrite (bfs_more _ _ _ _ _ _ _ _ _ E L).
Qed.

Lemma closed_nodup expand univ : closed_under expand univ -> closed_under expand (nodup Nat.eq_dec univ).
Proof. intros C v w d Hv H. apply nodup_In in Hv. apply nodup_In. eauto. Qed.

Lemma walk_exists expand univ df rv od self :
  closed_under expand univ -> In self univ ->
  exists fuel l, walk fuel expand df rv od false self = Some l /\ NoDup l /\
                 (forall x, In x l <-> reachable expand od self x).
Proof.
  intros C H. apply closed_nodup in C. apply (nodup_In Nat.eq_dec) in H.
  pose proof (NoDup_nodup Nat.eq_dec univ) as N. unfold walk. destruct df.
  - eexists. eapply (dfs_spec expand od _ N C _ [self] [] [] self (Nat.lt_succ_diag_r _)).
    + intros x [<-|[]]; auto.
    + reflexivity.
    + constructor.
    + intros x [].
    + intros x [<-|[]]. apply rt1n_refl.
    + intros v w [].
    + right; now left.
  - edestruct (bfs_spec_gen expand od _ N C (fun _ _ => True) ltac:(auto) _ [self] [self] [] self
                (Nat.lt_succ_diag_r _)) as (l & E & R1 & R2 & _).
    + exact I.
    + intros x [<-|[]]; auto.
    + cbn. tauto.
    + constructor; [intros []|constructor].
    + intros x [<-|[]]. apply rt1n_refl.
    + intros v w [].
    + now left.
    + eexists. exists (if rv then rev l else l). rewrite E. split; eauto. destruct rv; auto.
      split; [now apply NoDup_rev|]. intros x. rewrite <- in_rev. apply R2.
Qed.

Lemma walk_spec expand univ df rv od self :
  closed_under expand univ -> In self univ ->
  exists l, NoDup l /\ (forall x, In x l <-> reachable expand od self x) /\
    (exists enough, forall fuel, enough <= fuel -> walk fuel expand df rv od false self = Some l) /\
    (forall fuel l', walk fuel expand df rv od false self = Some l' -> l' = l).
Proof.
  intros C H. destruct (walk_exists expand univ df rv od self C H) as (f & l & E & R1 & R2).
  exists l. split; auto. split; auto. split.
  - exists f. intros m L. eapply walk_more; eauto.
  - intros m l' E'. pose proof (walk_more _ _ _ _ _ _ _ _ (max f m) E ltac:(lia)) as A.
    pose proof (walk_more _ _ _ _ _ _ _ _ (max f m) E' ltac:(lia)) as B. congruence.
Qed.

(** ** Order of the reversed breadth first walk in a layered graph *)

Section Layered.
Variable expand : nat -> list edge.
Variable univ : list nat.
Hypothesis CL : closed_under expand univ.
Variable self : nat.
Hypothesis SU : In self univ.
Variable rank : nat -> nat.
Hypothesis LAY : forall v w, reachable expand false self v -> follows expand false v w -> rank w = S (rank v).

Definition rle a b := rank a <= rank b.

Definition LInv (o q : list nat) : Prop :=
  (forall x, In x (o ++ q) -> reachable expand false self x) /\
  StronglySorted rle (o ++ q) /\
  match q with [] => True | v :: _ => forall x, In x q -> rank x <= S (rank v) end.

Lemma ss_app l m : StronglySorted rle l -> StronglySorted rle m -> (forall x y, In x l -> In y m -> rle x y) ->
  StronglySorted rle (l ++ m).
Proof.
  induction 1; cbn; intros; auto. constructor; auto.
  apply Forall_app. split; auto. apply Forall_forall. auto.
Qed.

Lemma ss_app_inv l m : StronglySorted rle (l ++ m) ->
  StronglySorted rle m /\ (forall x y, In x l -> In y m -> rle x y).
Proof.
  induction l; cbn; intros H.
  - split; auto. intros ? ? [].
  - inversion H; subst. destruct (IHl H2) as [A B]. split; auto. intros x y [<-|Hx] Hy; auto.
    rewrite Forall_forall in H3. apply H3. apply in_app_iff; auto.
Qed.

Lemma ss_const l k : (forall x, In x l -> rank x = k) -> StronglySorted rle l.
Proof.
  induction l; intros H; constructor.
  - apply IHl. intros; apply H; now right.
  - apply Forall_forall. intros x Hx. unfold rle. rewrite (H a), (H x); auto; now (left + right).
Qed.

Lemma layered_step v q out new : LInv out (v :: q) -> NoDup new ->
  (forall x, In x new <-> ~ In x (out ++ v :: q) /\ follows expand false v x) -> LInv (out ++ [v]) (q ++ new).
Proof.
  intros (R & S1 & B) _ M.
  assert (Rv : reachable expand false self v) by (apply R; apply in_app_iff; right; now left).
  assert (N : forall x, In x new -> rank x = S (rank v)).
  { intros x H. apply M in H as [_ H]. apply LAY; auto. }
  assert (E : (out ++ [v]) ++ q ++ new = (out ++ v :: q) ++ new).
  { rewrite <- !app_assoc. reflexivity. }
  unfold LInv. rewrite E. split; [|split].
  - intros x H. apply in_app_iff in H as [H|H]; auto. apply M in H as [_ H]. eapply reach_step; eauto.
  - apply ss_app; auto.
    + eapply ss_const; eauto.
    + intros x y Hx Hy. unfold rle. rewrite (N y Hy). apply in_app_iff in Hx as [Hx|Hx].
      * apply ss_app_inv in S1 as [_ S1]. specialize (S1 x v Hx (or_introl eq_refl)). unfold rle in S1. lia.
      * auto.
  - apply ss_app_inv in S1 as [S1 _]. inversion S1; subst. rewrite Forall_forall in H2.
    destruct (q ++ new) as [|h t] eqn:Q; auto. intros x Hx. rewrite <- Q in Hx.
    assert (rank x <= S (rank v)).
    { apply in_app_iff in Hx as [Hx|Hx]; [apply B; now right|rewrite N; auto]. }
    assert (rank v <= rank h).
    { assert (In h (q ++ new)) as Hh by (rewrite Q; now left).
      apply in_app_iff in Hh as [Hh|Hh]; [exact (H2 h Hh)|rewrite (N h Hh); lia]. }
    lia.
Qed.

Lemma ss_before l x y : StronglySorted rle l -> In x l -> In y l -> rank x < rank y -> before l x y.
Proof.
  intros S Hx Hy L. apply in_split in Hx as (l1 & l2 & ->).
  apply in_app_iff in Hy as [Hy|[->|Hy]].
  - apply ss_app_inv in S as [_ S]. specialize (S y x Hy (or_introl eq_refl)). unfold rle in S. lia.
  - lia.
  - apply in_split in Hy as (l3 & l4 & ->). exists l1, l3, l4. reflexivity.
Qed.

Lemma before_rev l x y : before l x y -> before (rev l) y x.
Proof.
  intros (a & b & c & ->). exists (rev c), (rev b), (rev a).
  rewrite rev_app_distr. cbn [rev]. rewrite rev_app_distr. cbn [rev]. rewrite <- !app_assoc. reflexivity.
Qed.

Lemma layered_order :
  exists l, (exists enough, forall fuel, enough <= fuel -> walk fuel expand false true false false self = Some l) /\
    NoDup l /\ (forall x, In x l <-> reachable expand false self x) /\
    (forall x y, In x l -> ancestor expand x y -> before l y x).
Proof.
  pose proof (closed_nodup _ _ CL) as C. pose proof (proj2 (nodup_In Nat.eq_dec univ self) SU) as H.
  pose proof (NoDup_nodup Nat.eq_dec univ) as N.
  edestruct (bfs_spec_gen expand false _ N C LInv layered_step _ [self] [self] [] self
                (Nat.lt_succ_diag_r _)) as (l & E & R1 & R2 & R3).
  - unfold LInv. cbn. split; [|split].
    + intros x [<-|[]]. apply rt1n_refl.
    + constructor; constructor.
    + intros x [<-|[]]. lia.
  - intros x [<-|[]]; auto.
  - cbn. tauto.
  - constructor; [intros []|constructor].
  - intros x [<-|[]]. apply rt1n_refl.
  - intros v w [].
  - now left.
  - exists (rev l). split; [|split; [now apply NoDup_rev|split]].
    + eexists. intros fuel L. unfold walk. now rewrite (bfs_more _ _ _ _ _ _ _ _ _ E L).
    + intros x. now rewrite <- in_rev.
    + intros x y Hx A. apply before_rev. apply in_rev in Hx.
      destruct R3 as (_ & S & _). rewrite app_nil_r in S.
      assert (reachable expand false self y /\ rank x < rank y) as [Ry Lt].
      { apply R2 in Hx. clear - A Hx LAY. induction A as [x y F|x z y F A IH].
        - split; [eapply reach_step; eauto|]. rewrite (LAY x y); auto.
        - destruct IH as [I1 I2]; [eapply reach_step; eauto|]. split; auto. rewrite (LAY x z) in I2; auto. lia. }
      apply ss_before; auto. now apply R2.
Qed.

End Layered.

(** ** Reverse Kahn *)

Notation cnt := (count_occ Nat.eq_dec).

Lemma indexb_app_first n l i : indexb Nat.eqb n l = Some i -> exists a b, l = a ++ n :: b /\ length a = i.
Proof.
  revert i. induction l as [|y l IH]; cbn; intros i; [discriminate|].
  destruct (Nat.eqb_spec y n) as [->|].
  - intros [= <-]. exists [], l. auto.
  - destruct (indexb Nat.eqb n l); [|discriminate]. intros [= <-].
    destruct (IH n1 eq_refl) as (a & b & -> & <-). exists (y :: a), b. auto.
Qed.

Lemma indexb_none n l : indexb Nat.eqb n l = None -> ~ In n l.
Proof.
  induction l as [|y l IH]; cbn; auto. destruct (Nat.eqb_spec y n); [discriminate|].
  destruct (indexb Nat.eqb n l); [discriminate|]. intros _ [?|?]; auto. now apply IH.
Qed.

Lemma del_child_in n l : In n l -> exists r, del_child n l = Ok r /\
  forall c, cnt l c = (if c =? n then 1 else 0) + cnt r c.
Proof.
  intros H. unfold del_child. destruct (indexb Nat.eqb n l) as [i|] eqn:E.
  - apply indexb_app_first in E as (a & b & -> & <-). eexists. split; [reflexivity|].
    intros c. unfold remove_at.
    rewrite firstn_app, firstn_all, Nat.sub_diag. cbn [firstn]. rewrite app_nil_r.
    replace (skipn (S (length a)) (a ++ n :: b)) with b.
    2:{ replace (S (length a)) with (length a + 1) by lia. clear H. induction a; cbn; auto. }
    rewrite !count_occ_app. cbn [count_occ].
    destruct (Nat.eq_dec n c) as [->|e]; [rewrite Nat.eqb_refl; lia|].
    destruct (Nat.eqb_spec c n); [congruence|lia].
  - apply indexb_none in E. contradiction.
Qed.

Lemma set_at_same {A} (f : nat -> A) i v : set_at f i v i = v.
Proof. unfold set_at. now rewrite Nat.eqb_refl. Qed.
Lemma set_at_other {A} (f : nat -> A) i v j : j <> i -> set_at f i v j = f j.
Proof. unfold set_at. intros H. now destruct (Nat.eqb_spec j i). Qed.

Lemma cnt_nil l : (forall c, cnt l c = 0) -> l = [].
Proof. intros H. destruct l as [|x l]; auto. specialize (H x). cbn in H. destruct (Nat.eq_dec x x); [discriminate|congruence]. Qed.

Section Kahn.
Variable h : heap.
Notation par c := (map fst (h_parents h c)).
Notation ch p := (map fst (h_children h p)).
Hypothesis SYM : forall p c, cnt (ch p) c = cnt (par c) p.
Hypothesis UP : forall p c, In p (par c) -> p < c.
Hypothesis SIZE : forall c, h_size h <= c -> par c = [].
Variable costs : list nat.
Hypothesis NDC : NoDup costs.
Hypothesis LEAF : forall c, In c costs -> h_children h c = [].
Hypothesis CSIZE : forall c, In c costs -> c < h_size h.

Definition anc x := exists c, In c costs /\ reachable (h_parents h) false c x.
Hypothesis NOSIDE : forall p c, anc p -> In c (ch p) -> anc c.

Definition rem (edges : nat -> option (list nat)) p := match edges p with Some r => r | None => ch p end.

Lemma anc_step c p : anc c -> In p (par c) -> anc p.
Proof.
  intros (k & K & R) H. exists k. split; auto. eapply reach_step; eauto.
  apply in_map_iff in H as ([w d] & <- & H). exists d. split; auto. discriminate.
Qed.

Lemma anc_size x : anc x -> x < h_size h.
Proof.
  intros (k & K & R). apply CSIZE in K. clear -UP K R. induction R as [|x y z F R IH]; auto. apply IH.
  destruct F as (d & F & _). assert (y < x); [|lia]. apply UP. apply in_map_iff. exists (y, d). auto.
Qed.

Record J (s : list nat) (edges : nat -> option (list nat)) (l : list nat) : Prop := {
  J1 : NoDup (l ++ s);
  J2 : forall x, In x (l ++ s) -> anc x;
  J3 : forall p c, cnt (rem edges p) c = if mem c l then 0 else cnt (ch p) c;
  J4 : forall p, In p (l ++ s) <-> In p costs \/ (ch p <> [] /\ rem edges p = []);
  J6 : forall p l1 l2, l = l1 ++ p :: l2 -> forall c, In c (ch p) -> In c l2 }.

(** The state inside the loop over the parents of [n], [ps] being still to do. *)
Record M (n : nat) (l ps s : list nat) (edges : nat -> option (list nat)) : Prop := {
  M1 : NoDup (n :: l ++ s);
  M2 : forall x, In x (n :: l ++ s) -> anc x;
  M3 : forall p c, cnt (rem edges p) c = if mem c l then 0 else if c =? n then cnt ps p else cnt (ch p) c;
  M4 : forall p, In p (n :: l ++ s) <-> In p costs \/ (ch p <> [] /\ rem edges p = []);
  M5 : forall p, In p ps -> In p (par n) }.

Lemma parents_loop n l : ~ In n l -> forall ps s edges, M n l (map fst ps) s edges ->
  exists s' edges', foldM (topo_parent h n) ps (s, edges) = Ok (s', edges') /\ M n l [] s' edges'.
Proof.
  intros Hn. induction ps as [|[p d] ps IH]; intros s edges HM; cbn [foldM map fst].
  - exists s, edges. auto.
  - destruct HM as [m1 m2 m3 m4 m5]. cbn [map fst] in *.
    assert (Hp : In p (par n)) by (apply m5; now left).
    assert (Hin : In n (rem edges p)).
    { apply (count_occ_In Nat.eq_dec). rewrite m3. rewrite (proj2 (mem_notIn n l)); auto.
      rewrite Nat.eqb_refl. cbn. destruct (Nat.eq_dec p p); [lia|congruence]. }
    assert (Hchp : In n (ch p)).
    { apply (count_occ_In Nat.eq_dec). rewrite SYM. now apply count_occ_In. }
    assert (Hnew : ~ In p (n :: l ++ s)).
    { intros H. apply m4 in H as [H|[_ H]].
      - apply LEAF in H. rewrite H in Hchp. destruct Hchp.
      - rewrite H in Hin. destruct Hin. }
    destruct (del_child_in n (rem edges p) Hin) as (r & E & C).
    unfold topo_parent at 1. cbn [fst]. fold (rem edges p). rewrite E. cbn [bind].
    apply IH. clear IH.
    assert (R : forall q, rem (set_at edges p (Some r)) q = if q =? p then r else rem edges q).
    { intros q. unfold rem, set_at. destruct (q =? p); auto. }
    assert (m3' : forall q c, cnt (rem (set_at edges p (Some r)) q) c =
              (if mem c l then 0 else if c =? n then cnt (map fst ps) q else cnt (ch q) c)).
    { intros q c. rewrite R. destruct (Nat.eqb_spec q p) as [->|ne].
      - specialize (C c). rewrite m3 in C. cbn in C. destruct (Nat.eq_dec p p) as [_|]; [|congruence].
        destruct (Nat.eqb_spec c n) as [e|e]; [rewrite e in *|].
        + rewrite (proj2 (mem_notIn n l)) in * by auto. lia.
        + lia.
      - rewrite m3. cbn. destruct (Nat.eq_dec p q); [congruence|reflexivity]. }
    constructor.
    + destruct r; auto. inversion m1; subst. constructor.
      * intros H. apply in_app_iff in H as [H|[H|H]].
        { apply H1. apply in_app_iff; auto. }
        { subst. apply Hnew. now left. }
        { apply H1. apply in_app_iff; auto. }
      * apply NoDup_Add with (a := p) (l := l ++ s).
        { apply Add_app. }
        split; auto. intros H. apply Hnew. now right.
    + intros x. destruct r; auto. intros [<-|H]; [apply m2; now left|].
      apply in_app_iff in H as [H|[<-|H]].
      * apply m2. right. apply in_app_iff; auto.
      * apply anc_step with n; auto. apply m2. now left.
      * apply m2. right. apply in_app_iff; auto.
    + auto.
    + intros q. rewrite R. destruct (Nat.eqb_spec q p) as [->|ne].
      * destruct r as [|a r].
        { split; [|intros _; right; apply in_app_iff; right; now left]. intros _. right. split; auto.
          intros H. rewrite H in Hchp. destruct Hchp. }
        { split; [intros H; contradiction|]. intros [H|[_ H]]; [|discriminate].
          apply LEAF in H. rewrite H in Hchp. destruct Hchp. }
      * rewrite <- m4. destruct r; [|reflexivity]. cbn. rewrite !in_app_iff. cbn. intuition congruence.
    + intros q H. apply m5. now right.
Qed.

Lemma topo_loop_spec fuel : forall s edges l,
  h_size h < fuel + length l -> J s edges l ->
  exists out edges', topo_loop fuel h s edges l = Ok (rev out) /\ J [] edges' out.
Proof.
  induction fuel as [|k IH]; intros s edges l F HJ.
  - exfalso. destruct HJ as [j1 j2 _ _ _].
    assert (length (l ++ s) <= length (seq 0 (h_size h))).
    { apply NoDup_incl_length; auto. intros x H. apply in_seq. apply j2, anc_size in H. lia. }
    rewrite app_length, seq_length in H. lia.
  - cbn [topo_loop]. destruct s as [|n r].
    + exists l, edges. auto.
    + destruct HJ as [j1 j2 j3 j4 j6].
      assert (P : Permutation (l ++ n :: r) (n :: l ++ r)) by (symmetry; apply Permutation_middle).
      assert (j1' : NoDup (n :: l ++ r)) by (eapply Permutation_NoDup; eauto).
      assert (Hn : ~ In n l) by (inversion j1'; subst; rewrite in_app_iff in *; tauto).
      assert (IN : forall x, In x (n :: l ++ r) <-> In x (l ++ n :: r)).
      { intros x. split; apply Permutation_in; auto. now symmetry. }
      edestruct (parents_loop n l Hn (h_parents h n) r edges) as (s' & edges' & E & [m1 m2 m3 m4 _]).
      { constructor; auto.
        - intros x H. apply j2. now apply IN.
        - intros p c. rewrite j3. destruct (mem c l); auto. destruct (Nat.eqb_spec c n) as [->|]; auto.
        - intros p. rewrite IN. auto. }
      rewrite E. cbn [bind fst snd]. apply IH.
      * cbn. lia.
      * constructor; auto.
        { intros p c. rewrite m3. cbn. destruct (c =? n); cbn; auto. destruct (mem c l); auto. }
        { intros p l1 l2 EQ c Hc. destruct l1 as [|a l1]; injection EQ as -> ->.
          - assert (Hp : In p (l2 ++ p :: r)) by (apply in_app_iff; right; now left).
            apply j4 in Hp as [Hp|[_ Hp]].
            + apply LEAF in Hp. rewrite Hp in Hc. destruct Hc.
            + specialize (j3 p c). rewrite Hp in j3. cbn in j3. destruct (mem c l2) eqn:Mc; [now apply mem_In|].
              apply (count_occ_In Nat.eq_dec) in Hc. lia.
          - eapply j6; eauto. }
Qed.

Lemma kahn_complete edges l : J [] edges l -> forall x, anc x -> In x l.
Proof.
  intros [j1 j2 j3 j4 j6] x A.
  remember (h_size h - x) as k eqn:K. revert x A K.
  induction k as [k IH] using lt_wf_ind. intros x A K.
  rewrite app_nil_r in *.
  destruct (list_eq_dec Nat.eq_dec (ch x) []) as [E|NE].
  - apply j4. left. destruct A as (c & C & R).
    (* a tensor without children that is reached from a cost is that cost *)
    assert (c = x \/ exists y, In x (par y)) as [->|(y & Y)]; auto.
    { clear -R. induction R as [|a b z F R IH]; auto. right. destruct IH as [->|]; auto.
      exists a. destruct F as (d & F & _). apply in_map_iff. exists (z, d). auto. }
    apply (count_occ_In Nat.eq_dec) in Y. rewrite <- SYM, E in Y. cbn in Y. lia.
  - apply j4. right. split; auto. apply cnt_nil. intros c. rewrite j3. destruct (mem c l) eqn:Mc; auto.
    apply mem_notIn in Mc. destruct (in_dec Nat.eq_dec c (ch x)) as [H|H].
    + exfalso. apply Mc. assert (Ac : anc c) by (eapply NOSIDE; eauto).
      assert (x < c). { apply UP. apply (count_occ_In Nat.eq_dec). rewrite <- SYM. now apply count_occ_In. }
      pose proof (anc_size c Ac). apply IH with (m := h_size h - c); auto. lia.
    + now apply count_occ_not_In.
Qed.

Lemma before_split l x y l1 l2 : l = l1 ++ x :: l2 -> In y l2 -> before l x y.
Proof. intros -> H. apply in_split in H as (a & b & ->). exists l1, a, b. reflexivity. Qed.

Lemma topo_sort_spec (is_cost : nat -> bool) (fuel : nat) :
  (forall c, In c costs -> is_cost c = true) -> h_size h < fuel ->
  exists l, topological_sort fuel h is_cost costs = Ok l /\ NoDup l /\ (forall x, In x l <-> anc x) /\
    (forall p c, In p l -> In c (ch p) -> before l c p).
Proof.
  intros IC F. unfold topological_sort.
  destruct (existsb _ costs) eqn:E.
  { exfalso. apply existsb_exists in E as (c & C & E). rewrite IC, (LEAF c) in E by auto. discriminate. }
  destruct (topo_loop_spec fuel (rev costs) (fun _ => None) []) as (out & edges & R & HJ).
  - cbn. lia.
  - constructor; cbn [app].
    + now apply NoDup_rev.
    + intros x H. apply in_rev in H. exists x. split; auto. apply rt1n_refl.
    + reflexivity.
    + intros p. rewrite <- in_rev. unfold rem. tauto.
    + intros p l1 l2 H. now destruct l1.
  - exists (rev out). split; auto. pose proof (kahn_complete _ _ HJ) as K. destruct HJ as [j1 j2 j3 j4 j6].
    rewrite app_nil_r in *. split; [now apply NoDup_rev|]. split.
    + intros x. rewrite <- in_rev. split; auto.
    + intros p c Hp Hc. apply in_rev in Hp. apply in_split in Hp as (l1 & l2 & ->).
      apply before_rev. eapply before_split; eauto.
Qed.

End Kahn.

(** ** Construction *)

(** [h_parents] and [h_children] agree with a list of constructions. *)
Record built (ops : list (list nat)) (h : heap) : Prop := {
  B_size : h_size h = length ops;
  B_par : forall c, h_parents h c = map (fun p => (p, false)) (nth c ops []);
  B_ch : forall p c, occurrences c (h_children h p) = cnt (nth c ops []) p;
  B_flag : forall p c d, In (c, d) (h_children h p) -> d = false }.

Lemma link_fold n ps : forall h, ~ In n ps ->
  h_size (fold_left (link n) ps h) = h_size h /\
  h_cleaned (fold_left (link n) ps h) = h_cleaned h /\
  h_parents (fold_left (link n) ps h) n = h_parents h n ++ map (fun p => (p, false)) ps /\
  (forall c, c <> n -> h_parents (fold_left (link n) ps h) c = h_parents h c) /\
  (forall p, exists k, h_children (fold_left (link n) ps h) p = h_children h p ++ repeat (n, false) k /\ k = cnt ps p).
Proof.
  induction ps as [|p ps IH]; intros h H; cbn [fold_left map].
  - rewrite app_nil_r. repeat split; auto. intros q. exists 0. cbn. now rewrite app_nil_r.
  - destruct (IH (link n h p)) as (I1 & I2 & I3 & I4 & I5); [intros X; apply H; now right|].
    rewrite I1, I2, I3. cbn [link h_size h_cleaned h_parents h_children]. rewrite set_at_same, <- app_assoc.
    refine (conj eq_refl (conj eq_refl (conj eq_refl (conj _ _)))).
    + intros c Hc. rewrite I4 by auto. cbn. now rewrite set_at_other.
    + intros q. destruct (I5 q) as (k & E & K). cbn [link h_children] in E. rewrite E. cbn [count_occ].
      destruct (Nat.eq_dec p q) as [->|ne].
      * rewrite set_at_same. exists (S k). split; [|congruence]. rewrite <- app_assoc. reflexivity.
      * rewrite set_at_other by congruence. exists k. auto.
Qed.

Lemma nth_snoc (ops : list (list nat)) ps c :
  nth c (ops ++ [ps]) [] = if c =? length ops then ps else nth c ops [].
Proof.
  destruct (Nat.eqb_spec c (length ops)) as [->|].
  - rewrite app_nth2, Nat.sub_diag by lia. reflexivity.
  - destruct (lt_dec c (length ops)); [now rewrite app_nth1 by lia|].
    rewrite !nth_overflow; auto; rewrite ?app_length; cbn; lia.
Qed.

Lemma occ_repeat n k c : occurrences c (repeat (n, false) k) = if c =? n then k else 0.
Proof.
  unfold occurrences. induction k as [|k IH]; [cbn; now destruct (c =? n)|].
  cbn [repeat map fst count_occ].
  destruct (Nat.eqb_spec c n) as [e|e]; destruct (Nat.eq_dec n c) as [e'|e']; rewrite IH; congruence.
Qed.

Lemma occ_app x l m : occurrences x (l ++ m) = occurrences x l + occurrences x m.
Proof. unfold occurrences. now rewrite map_app, count_occ_app. Qed.

Notation ok_ops := history.

Lemma ok_ops_size ops i p : ok_ops ops -> In p (nth i ops []) -> p < length ops.
Proof.
  intros O H. destruct (lt_dec i (length ops)) as [L|L]; [pose proof (O i p H); lia|].
  rewrite nth_overflow in H by lia. destruct H.
Qed.

Lemma construct_built ops h ps : built ops h -> ok_ops (ops ++ [ps]) -> built (ops ++ [ps]) (construct ps h).
Proof.
  intros [b1 b2 b3 b4] O. set (n := h_size h) in *.
  assert (HP : forall p, In p ps -> p < n).
  { intros p H. specialize (O n p). rewrite nth_snoc, b1, Nat.eqb_refl in O. rewrite b1. auto. }
  assert (Hn : ~ In n ps) by (intros H; apply HP in H; lia).
  unfold construct. fold n.
  set (h0 := mkHeap (S n) (set_at (h_parents h) n []) (h_children h) (h_cleaned h)).
  destruct (link_fold n ps h0 Hn) as (L1 & L2 & L3 & L4 & L5).
  constructor; cbn [h_size h_parents h_children].
  - rewrite L1. cbn. rewrite app_length. cbn. lia.
  - intros c. rewrite nth_snoc, <- b1. destruct (Nat.eqb_spec c n) as [->|ne].
    + rewrite L3. cbn. now rewrite set_at_same.
    + rewrite L4 by auto. cbn. rewrite set_at_other; auto.
  - intros p c. rewrite nth_snoc, <- b1. destruct (Nat.eq_dec p n) as [->|ne].
    + rewrite set_at_same. cbn. symmetry. apply count_occ_not_In.
      destruct (Nat.eqb_spec c n); auto.
      intros H. assert (H' : In n (nth c (ops ++ [ps]) [])).
      { rewrite nth_snoc, <- b1. now destruct (Nat.eqb_spec c n). }
      pose proof (O c n H'). rewrite nth_overflow in H by lia. destruct H.
    + rewrite set_at_other by auto. destruct (L5 p) as (k & E & K). rewrite E. cbn [h0 h_children].
      rewrite occ_app, occ_repeat, b3. destruct (Nat.eqb_spec c n) as [->|].
      * rewrite (nth_overflow ops) by lia. cbn. congruence.
      * lia.
  - intros p c d. destruct (Nat.eq_dec p n) as [->|ne].
    + rewrite set_at_same. intros [].
    + rewrite set_at_other by auto. destruct (L5 p) as (k & E & K). rewrite E. intros H.
      apply in_app_iff in H as [H|H]; [eauto|]. apply repeat_spec in H. congruence.
Qed.

Lemma ok_ops_prefix ops more : ok_ops (ops ++ more) -> ok_ops ops.
Proof.
  intros O i p H. apply (O i p). destruct (lt_dec i (length ops)); [now rewrite app_nth1 by lia|].
  rewrite nth_overflow in H by lia. destruct H.
Qed.

Lemma all_built ops : ok_ops ops -> built ops (fold_left (fun h ps => construct ps h) ops empty_heap).
Proof.
  intros O.
  assert (G : forall more done h, built done h -> ok_ops (done ++ more) ->
              built (done ++ more) (fold_left (fun h ps => construct ps h) more h)).
  { induction more as [|ps more IH]; intros done h B K; cbn [fold_left].
    - now rewrite app_nil_r.
    - replace (done ++ ps :: more) with ((done ++ [ps]) ++ more) by (now rewrite <- app_assoc).
      apply IH.
      + apply construct_built; auto. apply ok_ops_prefix with more. now rewrite <- app_assoc.
      + now rewrite <- app_assoc. }
  apply (G ops []); auto.
  constructor; cbn; auto.
  - intros [|c]; auto.
  - intros p [|c]; auto.
  - intros p c d [].
Qed.

Lemma built_par ops h c : built ops h -> map fst (h_parents h c) = nth c ops [].
Proof. intros B. rewrite (B_par _ _ B), map_map. cbn. apply map_id. Qed.

Lemma built_sym ops h p c : built ops h -> occurrences c (h_children h p) = occurrences p (h_parents h c).
Proof. intros B. rewrite (B_ch _ _ B). unfold occurrences. now rewrite (built_par ops). Qed.

Lemma built_up ops h p c : ok_ops ops -> built ops h -> In p (map fst (h_parents h c)) -> p < c.
Proof. intros O B. rewrite (built_par ops) by auto. apply O. Qed.

Lemma built_acyclic ops h x : ok_ops ops -> built ops h -> ~ ancestor (h_parents h) x x.
Proof.
  intros O B A. assert (G : forall y, ancestor (h_parents h) x y -> y < x).
  { intros y H. clear A. induction H as [x y F|x z y F H IH].
    - destruct F as (d & F & _). apply (built_up ops h); auto. apply in_map_iff. exists (y, d). auto.
    - assert (z < x); [|lia]. destruct F as (d & F & _). apply (built_up ops h); auto. apply in_map_iff. exists (z, d). auto. }
  specialize (G x A). lia.
Qed.

(** ** Cleaning *)

Definition nbrs (h : heap) n := map fst (h_children h n) ++ map fst (h_parents h n).

(** A path through tensors that have not been cleaned. *)
Inductive wpath (h : heap) : nat -> nat -> Prop :=
| wp_refl n : h_cleaned h n = false -> wpath h n n
| wp_step n m x : h_cleaned h n = false -> In m (nbrs h n) -> wpath h m x -> wpath h n x.

Definition wf_heap (h : heap) : Prop := forall v w, v < h_size h -> In w (nbrs h v) -> w < h_size h.

Fixpoint clean_list (fuel : nat) (l : list nat) (h : heap) : option heap :=
  match l with
  | [] => Some h
  | e :: r => match clean fuel e h with Some h' => clean_list fuel r h' | None => None end
  end.

Lemma clean_unfold k n h :
  clean (S k) n h =
  if h_cleaned h n then Some h
  else match clean_list k (map fst (h_children h n)) (mark_cleaned n h) with
       | Some h1 => match clean_list k (map fst (h_parents h1 n)) h1 with
                    | Some h2 => Some (drop_links n h2)
                    | None => None
                    end
       | None => None
       end.
Proof.
  cbn [clean]. destruct (h_cleaned h n); auto.
  set (all := fix all (l : list edge) (h : heap) : option heap :=
        match l with
        | [] => Some h
        | e :: r => match clean k (fst e) h with Some h' => all r h' | None => None end
        end).
  assert (E : forall l h, all l h = clean_list k (map fst l) h).
  { induction l as [|e l IH]; intros h'; cbn; auto. destruct (clean k (fst e) h'); auto. }
  rewrite E. destruct (clean_list k (map fst (h_children h n)) (mark_cleaned n h)); auto. now rewrite E.
Qed.

Lemma clean_list_app k l m h :
  clean_list k (l ++ m) h = match clean_list k l h with Some h' => clean_list k m h' | None => None end.
Proof. revert h. induction l as [|x l IH]; intros h; cbn; auto. destruct (clean k x h); auto. Qed.

Lemma clean_all_list fuel l h : clean_all fuel l h = clean_list fuel l h.
Proof. reflexivity. Qed.

Record Post (h : heap) (roots : list nat) (h' : heap) : Prop := {
  P_size : h_size h' = h_size h;
  P_clean : forall x, h_cleaned h' x = true <-> h_cleaned h x = true \/ exists r, In r roots /\ wpath h r x;
  P_empty : forall x, h_cleaned h x = false -> h_cleaned h' x = true -> h_parents h' x = [] /\ h_children h' x = [];
  P_same : forall x, h_cleaned h x = true \/ h_cleaned h' x = false ->
             h_parents h' x = h_parents h x /\ h_children h' x = h_children h x }.

Lemma Post_mono h l h' x : Post h l h' -> h_cleaned h' x = false -> h_cleaned h x = false.
Proof.
  intros P E. destruct (h_cleaned h x) eqn:C; auto. exfalso.
  assert (h_cleaned h' x = true) by (apply (P_clean _ _ _ P); auto). congruence.
Qed.

Lemma Post_nbrs h l h' x : Post h l h' -> h_cleaned h' x = false -> nbrs h' x = nbrs h x.
Proof. intros P E. unfold nbrs. destruct (P_same _ _ _ P x) as [-> ->]; auto. Qed.

Lemma Post_wpath h l h' a b : Post h l h' -> wpath h' a b -> wpath h a b.
Proof.
  intros P W. induction W as [n E|n m x E I W IH].
  - apply wp_refl. eapply Post_mono; eauto.
  - apply wp_step with m; auto; [eapply Post_mono; eauto|]. erewrite <- Post_nbrs; eauto.
Qed.

Lemma wpath_trans h a b c : wpath h a b -> wpath h b c -> wpath h a c.
Proof. intros W V. induction W; auto. eapply wp_step; eauto. Qed.

Lemma wpath_ends h a b : wpath h a b -> h_cleaned h a = false /\ h_cleaned h b = false.
Proof. induction 1; tauto. Qed.

Lemma Post_wpath_fwd h l h' a b : Post h l h' -> wpath h a b -> wpath h' a b \/ exists r, In r l /\ wpath h r b.
Proof.
  intros P W. induction W as [n E|n m x E I W IH].
  - destruct (h_cleaned h' n) eqn:C; [right|left; now apply wp_refl].
    apply (P_clean _ _ _ P) in C as [C|C]; [congruence|auto].
  - destruct (h_cleaned h' n) eqn:C.
    + right. apply (P_clean _ _ _ P) in C as [C|(r & R & V)]; [congruence|]. exists r. split; auto.
      eapply wpath_trans; [exact V|]. eapply wp_step; eauto.
    + destruct IH as [IH|IH]; auto. left. eapply wp_step; eauto. erewrite Post_nbrs; eauto.
Qed.

Lemma Post_wf h l h' : Post h l h' -> wf_heap h -> wf_heap h'.
Proof.
  intros P W v w L I. rewrite (P_size _ _ _ P) in *. destruct (h_cleaned h' v) eqn:E.
  - destruct (h_cleaned h v) eqn:C.
    + apply (W v w L). unfold nbrs in *. destruct (P_same _ _ _ P v) as [<- <-]; auto.
    + destruct (P_empty _ _ _ P v C E) as [E1 E2]. unfold nbrs in I. rewrite E1, E2 in I. destruct I.
  - apply (W v w L). erewrite <- Post_nbrs; eauto.
Qed.

Lemma Post_nil h : Post h [] h.
Proof.
  constructor; auto.
  - intros x. split; [auto|]. intros [H|(r & [] & _)]; auto.
  - intros; congruence.
Qed.

Lemma Post_app h l h1 m h2 : Post h l h1 -> Post h1 m h2 -> Post h (l ++ m) h2.
Proof.
  intros P Q. constructor.
  - now rewrite (P_size _ _ _ Q), (P_size _ _ _ P).
  - intros x. rewrite (P_clean _ _ _ Q), (P_clean _ _ _ P). split.
    + intros [[H|(r & R & W)]|(r & R & W)]; auto; right; exists r; rewrite in_app_iff; split; auto.
      eapply Post_wpath; eauto.
    + intros [H|(r & R & W)]; auto. apply in_app_iff in R as [R|R]; [left; right; eauto|].
      destruct (Post_wpath_fwd _ _ _ _ _ P W) as [V|V]; eauto.
  - intros x C E. destruct (h_cleaned h1 x) eqn:C1.
    + destruct (P_same _ _ _ Q x) as [-> ->]; auto. apply (P_empty _ _ _ P); auto.
    + apply (P_empty _ _ _ Q); auto.
  - intros x H. assert (h_cleaned h x = true \/ h_cleaned h1 x = false) as H1.
    { destruct H as [H|H]; auto. right. eapply Post_mono; eauto. }
    destruct (P_same _ _ _ P x H1) as [<- <-]. apply (P_same _ _ _ Q).
    destruct H as [H|H]; auto. left. apply (P_clean _ _ _ P). auto.
Qed.

Definition ucount (h : heap) : nat := length (filter (fun x => negb (h_cleaned h x)) (seq 0 (h_size h))).

Lemma filter_len_le {A} (f g : A -> bool) l : (forall x, In x l -> f x = true -> g x = true) ->
  length (filter f l) <= length (filter g l).
Proof.
  induction l as [|x l IH]; cbn; intros H; auto.
  assert (length (filter f l) <= length (filter g l)) by (apply IH; intros; apply H; auto).
  destruct (f x) eqn:E; [rewrite (H x); auto; cbn; lia|]. destruct (g x); cbn; lia.
Qed.

Lemma filter_len_lt {A} (f g : A -> bool) l n : (forall x, In x l -> f x = true -> g x = true) ->
  In n l -> f n = false -> g n = true -> length (filter f l) < length (filter g l).
Proof.
  induction l as [|x l IH]; cbn; intros H I F G; [contradiction|].
  assert (length (filter f l) <= length (filter g l)) by (apply filter_len_le; auto).
  destruct I as [->|I].
  - rewrite F, G. cbn. lia.
  - assert (length (filter f l) < length (filter g l)) by (apply IH; auto).
    destruct (f x) eqn:E; [rewrite (H x); auto; cbn; lia|]. destruct (g x); cbn; lia.
Qed.

Lemma Post_ucount h l h' : Post h l h' -> ucount h' <= ucount h.
Proof.
  intros P. unfold ucount. rewrite (P_size _ _ _ P). apply filter_len_le. intros x _ E.
  apply negb_true_iff in E. apply negb_true_iff. eapply Post_mono; eauto.
Qed.

Lemma mark_ucount n h : n < h_size h -> h_cleaned h n = false -> ucount (mark_cleaned n h) < ucount h.
Proof.
  intros L E. unfold ucount. cbn [mark_cleaned h_size h_cleaned]. apply filter_len_lt with n.
  - intros x _. unfold set_at. destruct (x =? n); auto. discriminate.
  - apply in_seq. lia.
  - now rewrite set_at_same.
  - now rewrite E.
Qed.

Lemma clean_list_spec k :
  (forall n h, wf_heap h -> n < h_size h -> ucount h < k -> exists h', clean k n h = Some h' /\ Post h [n] h') ->
  forall l h, wf_heap h -> (forall x, In x l -> x < h_size h) -> ucount h < k ->
  exists h', clean_list k l h = Some h' /\ Post h l h'.
Proof.
  intros IH. induction l as [|n l IHl]; intros h W L U; cbn [clean_list].
  - exists h. split; auto. apply Post_nil.
  - destruct (IH n h W) as (h1 & E & P); auto; [apply L; now left|]. rewrite E.
    destruct (IHl h1) as (h2 & E2 & P2).
    + eapply Post_wf; eauto.
    + intros x H. rewrite (P_size _ _ _ P). apply L. now right.
    + pose proof (Post_ucount _ _ _ P). lia.
    + exists h2. split; auto. apply (Post_app h [n] h1 l h2); auto.
Qed.

Lemma wpath_mark h n a x : wpath h a x -> x = n \/ wpath (mark_cleaned n h) a x \/
  exists y, In y (nbrs h n) /\ wpath (mark_cleaned n h) y x.
Proof.
  intros W. induction W as [b E|b m x E I W IH].
  - destruct (Nat.eq_dec b n) as [->|ne]; auto. right; left. apply wp_refl. cbn. now rewrite set_at_other.
  - destruct IH as [IH|[IH|IH]]; auto. destruct (Nat.eq_dec b n) as [->|ne]; [right; right; eauto|].
    right; left. apply wp_step with m; auto. cbn. now rewrite set_at_other.
Qed.

Lemma wpath_unmark h n a x : wpath (mark_cleaned n h) a x -> wpath h a x /\ x <> n.
Proof.
  assert (G : forall b, h_cleaned (mark_cleaned n h) b = false -> b <> n /\ h_cleaned h b = false).
  { intros b. cbn. unfold set_at. destruct (Nat.eqb_spec b n); [discriminate|auto]. }
  induction 1 as [b E|b m y E I W IH].
  - apply G in E as [E1 E2]. split; auto. now apply wp_refl.
  - apply G in E as [E1 E2]. split; [|tauto]. apply wp_step with m; auto. tauto.
Qed.

Lemma clean_spec k : forall n h, wf_heap h -> n < h_size h -> ucount h < k ->
  exists h', clean k n h = Some h' /\ Post h [n] h'.
Proof.
  induction k as [|k IH]; intros n h W L U; [lia|].
  rewrite clean_unfold. destruct (h_cleaned h n) eqn:C.
  - exists h. split; auto. constructor; auto.
    + intros x. split; auto. intros [H|(r & [<-|[]] & V)]; auto. apply wpath_ends in V. destruct V; congruence.
    + intros; congruence.
  - set (h0 := mark_cleaned n h).
    assert (W0 : wf_heap h0) by exact W.
    assert (U0 : ucount h0 < k) by (pose proof (mark_ucount n h L C); unfold h0; lia).
    destruct (clean_list_spec k IH (map fst (h_children h n)) h0) as (h1 & E1 & P1); auto.
    { intros x H. apply (W n x L). apply in_app_iff; auto. }
    assert (C0 : h_cleaned h0 n = true) by (cbn; now rewrite set_at_same).
    assert (Hp : h_parents h1 n = h_parents h n) by (destruct (P_same _ _ _ P1 n) as [-> _]; auto).
    destruct (clean_list_spec k IH (map fst (h_parents h n)) h1) as (h2 & E2 & P2); auto.
    { eapply Post_wf; eauto. }
    { intros x H. rewrite (P_size _ _ _ P1). apply (W n x L). apply in_app_iff; auto. }
    { pose proof (Post_ucount _ _ _ P1). lia. }
    rewrite E1, Hp, E2. eexists. split; [reflexivity|].
    pose proof (Post_app _ _ _ _ _ P1 P2) as P. fold (nbrs h n) in P.
    assert (OUT : forall x, x <> n -> h_cleaned h0 x = h_cleaned h x).
    { intros x H. cbn. now rewrite set_at_other. }
    constructor.
    + cbn. now rewrite (P_size _ _ _ P).
    + intros x. cbn [drop_links h_cleaned]. rewrite (P_clean _ _ _ P). split.
      * intros [H|(r & R & V)].
        { destruct (Nat.eq_dec x n) as [->|ne]; [|rewrite OUT in H; auto].
          right. exists n. split; [now left|]. now apply wp_refl. }
        { right. exists n. split; [now left|]. apply wp_step with r; auto. now apply wpath_unmark in V. }
      * intros [H|(r & [<-|[]] & V)].
        { left. destruct (Nat.eq_dec x n) as [->|ne]; [congruence|]. now rewrite OUT. }
        { apply (wpath_mark h n) in V as [->|[V|V]]; auto. apply wpath_ends in V. destruct V as [V _]. fold h0 in V. congruence. }
    + intros x Cx. cbn [drop_links h_cleaned h_parents h_children]. intros Dx.
      destruct (Nat.eq_dec x n) as [->|ne]; [now rewrite !set_at_same|].
      rewrite !set_at_other by auto. apply (P_empty _ _ _ P); auto. now rewrite OUT.
    + intros x H. cbn [drop_links h_cleaned h_parents h_children] in *.
      assert (x <> n).
      { intros ->. destruct H as [H|H]; [congruence|].
        assert (h_cleaned h2 n = true) by (apply (P_clean _ _ _ P); auto). congruence. }
      rewrite !set_at_other by auto. change (h_parents h x) with (h_parents h0 x).
      change (h_children h x) with (h_children h0 x). apply (P_same _ _ _ P). now rewrite OUT.
Qed.

Lemma clean_more k : forall n h h' m, clean k n h = Some h' -> k <= m -> clean m n h = Some h'.
Proof.
  induction k as [|k IH]; intros n h h' m E L; [discriminate|].
  destruct m as [|m]; [lia|]. rewrite clean_unfold in *. destruct (h_cleaned h n); auto.
  assert (G : forall l h h', clean_list k l h = Some h' -> clean_list m l h = Some h').
  { induction l as [|x l IHl]; intros g g' H; cbn in *; auto.
    destruct (clean k x g) eqn:X; [|discriminate]. rewrite (IH _ _ _ m X) by lia. auto. }
  destruct (clean_list k (map fst (h_children h n)) (mark_cleaned n h)) as [h1|] eqn:E1; [|discriminate].
  rewrite (G _ _ _ E1).
  destruct (clean_list k (map fst (h_parents h1 n)) h1) as [h2|] eqn:E2; [|discriminate].
  now rewrite (G _ _ _ E2).
Qed.

Lemma wpath_connected h a x : (forall y, connected (h_parents h) (h_children h) a y -> h_cleaned h y = false) ->
  (wpath h a x <-> connected (h_parents h) (h_children h) a x).
Proof.
  intros W. split.
  - intros H. clear W. induction H as [|n m x E I H IH]; [apply rt1n_refl|].
    eapply rt1n_trans; [|exact IH]. apply in_app_iff in I. tauto.
  - intros H. induction H as [a|a b x E H IH].
    + apply wp_refl. apply W. apply rt1n_refl.
    + apply wp_step with b.
      * apply W. apply rt1n_refl.
      * apply in_app_iff. tauto.
      * apply IH. intros y Y. apply W. eapply rt1n_trans; eauto.
Qed.

Lemma resets_spec ms : forall r, NoDup ms ->
  forall m, fold_left (fun r m => set_at r m (S (r m))) ms r m = r m + (if mem m ms then 1 else 0).
Proof.
  induction ms as [|k ms IH]; intros r N m; cbn [fold_left]; [cbn; lia|].
  inversion N; subst. rewrite IH by auto. cbn. destruct (Nat.eqb_spec m k) as [->|ne].
  - rewrite set_at_same. cbn. rewrite (proj2 (mem_notIn k ms)) by auto. lia.
  - now rewrite set_at_other.
Qed.

(** Both [reset] and the end of [backward]: [pre] is empty or the surrogate loss. *)
Lemma cleanup_spec (pre : list nat) g :
  wf_heap (g_heap g) -> (forall c, In c (pre ++ g_costs g) -> c < h_size (g_heap g)) ->
  (forall c x, In c (pre ++ g_costs g) -> connected (h_parents (g_heap g)) (h_children (g_heap g)) c x ->
               h_cleaned (g_heap g) x = false) ->
  exists h', Post (g_heap g) (pre ++ g_costs g) h' /\
    forall fuel, ucount (g_heap g) < fuel -> clean_list fuel (pre ++ g_costs g) (g_heap g) = Some h'.
Proof.
  intros W L C.
  remember (S (ucount (g_heap g))) as k eqn:K.
  destruct (clean_list_spec k (clean_spec k) (pre ++ g_costs g) (g_heap g) W L) as (h' & E & P); [lia|].
  exists h'. split; auto. intros fuel F.
  assert (G : forall l h h', clean_list k l h = Some h' -> clean_list fuel l h = Some h').
  { induction l as [|x l IHl]; intros a b H; cbn in *; auto.
    destruct (clean k x a) eqn:X; [|discriminate]. rewrite (clean_more k _ _ _ fuel X) by lia. auto. }
  auto.
Qed.

Lemma wpath_size h a x : wf_heap h -> a < h_size h -> wpath h a x -> x < h_size h.
Proof. intros W L V. induction V; auto. apply IHV. eapply W; eauto. Qed.

Lemma cleanup_all (pre : list nat) g :
  wf_heap (g_heap g) -> (forall c, In c (pre ++ g_costs g) -> c < h_size (g_heap g)) ->
  (forall c x, In c (pre ++ g_costs g) -> connected (h_parents (g_heap g)) (h_children (g_heap g)) c x ->
               h_cleaned (g_heap g) x = false) ->
  NoDup (g_methods g) ->
  exists g', (forall fuel, h_size (g_heap g) < fuel ->
                match clean_list fuel pre (g_heap g) with
                | Some h => reset fuel (mkG h (g_costs g) (g_methods g) (g_resets g))
                | None => None
                end = Some g') /\
    g_costs g' = [] /\ g_methods g' = [] /\
    (forall m, g_resets g' m = g_resets g m + (if in_dec Nat.eq_dec m (g_methods g) then 1 else 0)) /\
    (forall c x, In c (pre ++ g_costs g) -> connected (h_parents (g_heap g)) (h_children (g_heap g)) c x ->
                 h_parents (g_heap g') x = [] /\ h_children (g_heap g') x = []) /\
    (forall x, (forall c, In c (pre ++ g_costs g) ->
                          ~ connected (h_parents (g_heap g)) (h_children (g_heap g)) c x) ->
               h_parents (g_heap g') x = h_parents (g_heap g) x /\
               h_children (g_heap g') x = h_children (g_heap g) x).
Proof.
  intros W L C N.
  destruct (cleanup_spec pre g W L C) as (h' & P & E).
  exists (mkG h' [] [] (fold_left (fun r m => set_at r m (S (r m))) (g_methods g) (g_resets g))).
  split; [|split; [|split; [|split; [|split]]]]; auto; cbn [g_costs g_methods g_resets g_heap].
  - intros fuel F.
    assert (U : ucount (g_heap g) < fuel).
    { unfold ucount. eapply Nat.le_lt_trans; [|exact F].
      etransitivity; [apply (filter_len_le _ (fun _ => true)); auto|].
      rewrite <- (seq_length (h_size (g_heap g)) 0) at 2. generalize (seq 0 (h_size (g_heap g))).
      induction l; cbn; lia. }
    specialize (E fuel U). rewrite clean_list_app in E.
    destruct (clean_list fuel pre (g_heap g)) as [h1|]; [|discriminate].
    unfold reset. cbn [g_costs g_heap g_methods g_resets]. rewrite clean_all_list, E. reflexivity.
  - intros m. rewrite resets_spec by auto.
    destruct (in_dec Nat.eq_dec m (g_methods g)) as [I|I].
    + now rewrite (proj2 (mem_In m _)).
    + now rewrite (proj2 (mem_notIn m _)).
  - intros c x I K. apply (P_empty _ _ _ P); [eapply C; eauto|].
    apply (P_clean _ _ _ P). right. exists c. split; auto. apply wpath_connected; eauto.
  - intros x H. apply (P_same _ _ _ P). destruct (h_cleaned h' x) eqn:X; auto.
    apply (P_clean _ _ _ P) in X as [X|(r & R & V)]; auto. exfalso. apply (H r R).
    apply wpath_connected; eauto.
Qed.

(** ** Every history of constructions with registered costs *)

Lemma built_wf ops h : ok_ops ops -> built ops h -> wf_heap h.
Proof.
  intros O B v w L I. rewrite (B_size _ _ B) in *. apply in_app_iff in I as [I|I].
  - apply (count_occ_In Nat.eq_dec) in I. fold (occurrences w (h_children h v)) in I. rewrite (B_ch _ _ B) in I.
    apply (count_occ_In Nat.eq_dec) in I.
    destruct (lt_dec w (length ops)); auto. rewrite nth_overflow in I by lia. destruct I.
  - rewrite (built_par ops) in I by auto. eapply ok_ops_size; eauto.
Qed.

Lemma construct_cleaned ps h x : h_cleaned (construct ps h) x = if x =? h_size h then false else h_cleaned h x.
Proof.
  unfold construct. cbn [h_cleaned]. unfold set_at at 1. destruct (x =? h_size h); auto.
  set (h0 := mkHeap _ _ _ _). change (h_cleaned h) with (h_cleaned h0). clearbody h0.
  revert h0. generalize (h_size h). induction ps as [|p ps IH]; intros n h0; cbn; auto. rewrite IH. reflexivity.
Qed.

Lemma built_cleaned ops x : h_cleaned (fold_left (fun h ps => construct ps h) ops empty_heap) x = false.
Proof.
  assert (G : forall ops h, (forall x, h_cleaned h x = false) ->
     h_cleaned (fold_left (fun h ps => construct ps h) ops h) x = false).
  { clear. induction ops as [|ps ops IH]; intros h H; cbn; auto. apply IH. intros y. rewrite construct_cleaned.
    destruct (y =? h_size h); auto. }
  apply G. reflexivity.
Qed.

Lemma built_closed_par ops h : ok_ops ops -> built ops h -> closed_under (h_parents h) (seq 0 (length ops)).
Proof.
  intros O B v w d Hv H. apply in_seq in Hv. apply in_seq. split; [lia|]. cbn.
  assert (I : In w (nbrs h v)) by (apply in_app_iff; right; apply in_map_iff; exists (w, d); auto).
  rewrite <- (B_size _ _ B). eapply built_wf; eauto. rewrite (B_size _ _ B). lia.
Qed.

Lemma built_closed_ch ops h : ok_ops ops -> built ops h -> closed_under (h_children h) (seq 0 (length ops)).
Proof.
  intros O B v w d Hv H. apply in_seq in Hv. apply in_seq. split; [lia|]. cbn.
  assert (I : In w (nbrs h v)) by (apply in_app_iff; left; apply in_map_iff; exists (w, d); auto).
  rewrite <- (B_size _ _ B). eapply built_wf; eauto. rewrite (B_size _ _ B). lia.
Qed.

Notation build ops := (fold_left (fun h ps => construct ps h) ops empty_heap).

Lemma no_differentiable_path ops output input : history ops -> input < length ops -> output <> input ->
  exists enough, forall fuel, enough <= fuel -> has_differentiable_path fuel (build ops) output input = Some false.
Proof.
  intros O L N. pose proof (all_built ops O) as B.
  destruct (walk_spec (h_children (build ops)) (seq 0 (length ops)) true false true input) as (l & _ & R & (e & E) & _).
  - now apply built_closed_ch.
  - apply in_seq. lia.
  - exists e. intros fuel F. unfold has_differentiable_path, walk_children. rewrite (E fuel F). cbn. f_equal.
    apply mem_notIn. intros H. apply R in H. inversion H as [|y z W _]; subst; [congruence|].
    destruct W as (d & W & D). apply (B_flag _ _ B) in W. specialize (D eq_refl). congruence.
Qed.

Lemma infer_never_pathwise ops cost tensor : history ops -> tensor < length ops -> cost <> tensor ->
  exists enough, forall fuel, enough <= fuel -> infer_is_pathwise fuel (build ops) tensor cost = Ok false.
Proof.
  intros O L N. destruct (no_differentiable_path ops cost tensor O L N) as (e & E). exists e. intros f F.
  unfold infer_is_pathwise. now rewrite E.
Qed.

Lemma check_always_raises ops cost tensor : history ops -> tensor < length ops -> cost <> tensor ->
  exists enough, forall fuel, enough <= fuel -> reparam_is_pathwise fuel true (build ops) tensor cost = Err ValueError.
Proof.
  intros O L N. destruct (no_differentiable_path ops cost tensor O L N) as (e & E). exists e. intros f F.
  unfold reparam_is_pathwise. cbn. now rewrite E.
Qed.

Lemma constructed_links ops : history ops ->
  (forall c, map fst (h_parents (build ops) c) = nth c ops []) /\
  (forall p c, occurrences c (h_children (build ops) p) = occurrences p (h_parents (build ops) c)) /\
  (forall x, ~ ancestor (h_parents (build ops)) x x).
Proof.
  intros O. pose proof (all_built ops O) as B. split; [|split]; intros.
  - now apply built_par.
  - now apply (built_sym ops).
  - now apply (built_acyclic ops).
Qed.

Lemma topo_sorted ops is_cost costs : history ops -> NoDup costs ->
  (forall c, In c costs -> is_cost c = true /\ c < length ops /\ h_children (build ops) c = []) ->
  (forall p c k, In k costs -> reachable (h_parents (build ops)) false k p ->
     In c (map fst (h_children (build ops) p)) ->
     exists k', In k' costs /\ reachable (h_parents (build ops)) false k' c) ->
  exists l, (forall fuel, length ops < fuel -> topological_sort fuel (build ops) is_cost costs = Ok l) /\
    NoDup l /\
    (forall x, In x l <-> exists k, In k costs /\ reachable (h_parents (build ops)) false k x) /\
    (forall p c, In p l -> In c (map fst (h_children (build ops) p)) -> before l c p).
Proof.
  intros O N C SD. pose proof (all_built ops O) as B. set (h := build ops) in *.
  assert (G : forall fuel, length ops < fuel -> exists l, topological_sort fuel h is_cost costs = Ok l /\ NoDup l /\
     (forall x, In x l <-> exists k, In k costs /\ reachable (h_parents h) false k x) /\
    (forall p c, In p l -> In c (map fst (h_children h p)) -> before l c p)).
  { intros fuel F. apply topo_sort_spec; auto.
    - intros p c. apply (built_sym ops); auto.
    - intros p c. apply (built_up ops); auto.
    - intros c K. now apply C.
    - intros c K. rewrite (B_size _ _ B). now apply C.
    - intros p c (k & K & R) I. eapply SD; eauto.
    - intros c K. now apply C.
    - now rewrite (B_size _ _ B). }
  destruct (G (S (length ops)) (Nat.lt_succ_diag_r _)) as (l & E & R1 & R2 & R3).
  exists l. split; auto. intros fuel F. 
  assert (M : forall k s edges acc r m, topo_loop k h s edges acc = Ok r -> k <= m -> topo_loop m h s edges acc = Ok r).
  { induction k as [|k IH]; intros s edges acc r m X L; [discriminate|]. destruct m; [lia|]. cbn [topo_loop] in *.
    destruct s; auto. destruct (foldM _ _ _); [|discriminate]. cbn [bind] in *. apply IH with (m := m) in X; auto. lia. }
  unfold topological_sort in *. destruct (existsb _ costs); [discriminate|]. eapply M; eauto.
Qed.

Lemma methods_nodup ms : forall g, NoDup (g_methods g) ->
  NoDup (g_methods (fold_left (fun g m => register_method m g) ms g)).
Proof.
  induction ms as [|m ms IH]; intros g N; cbn; auto. apply IH. unfold register_method.
  destruct (mem m (g_methods g)) eqn:E; auto. cbn. apply mem_notIn in E.
  apply NoDup_app_intro; auto; [constructor; [intros []|constructor]|]. intros x H [<-|[]]. auto.
Qed.

Lemma methods_used ms : forall g m,
  In m (g_methods (fold_left (fun g m => register_method m g) ms g)) <-> In m (g_methods g) \/ In m ms.
Proof.
  induction ms as [|k ms IH]; intros g m; cbn; [tauto|]. rewrite IH. unfold register_method.
  destruct (mem k (g_methods g)) eqn:E; cbn.
  - apply mem_In in E. intuition (subst; auto).
  - rewrite in_app_iff. cbn. tauto.
Qed.

Lemma backward_cleanup_spec sl g : links_exist (g_heap g) ->
  (forall c, In c (sl :: g_costs g) -> c < h_size (g_heap g)) ->
  (forall c x, In c (sl :: g_costs g) -> connected (h_parents (g_heap g)) (h_children (g_heap g)) c x ->
     h_cleaned (g_heap g) x = false) ->
  NoDup (g_methods g) ->
  exists g', (forall fuel, h_size (g_heap g) < fuel -> backward_cleanup fuel sl g = Some g') /\
    cleaned_up (sl :: g_costs g) g g'.
Proof.
  intros W L C N. destruct (cleanup_all [sl] g W L C N) as (g' & E & R). exists g'. split; [|exact R].
  intros fuel F. specialize (E fuel F). cbn in E. unfold backward_cleanup.
  destruct (clean fuel sl (g_heap g)); auto.
Qed.

Lemma reset_spec g : links_exist (g_heap g) ->
  (forall c, In c (g_costs g) -> c < h_size (g_heap g)) ->
  (forall c x, In c (g_costs g) -> connected (h_parents (g_heap g)) (h_children (g_heap g)) c x ->
     h_cleaned (g_heap g) x = false) ->
  NoDup (g_methods g) ->
  exists g', (forall fuel, h_size (g_heap g) < fuel -> reset fuel g = Some g') /\ cleaned_up (g_costs g) g g'.
Proof.
  intros W L C N. destruct (cleanup_all [] g W L C N) as (g' & E & R). exists g'. split; [|exact R].
  intros fuel F. specialize (E fuel F). cbn in E. destruct g. exact E.
Qed.

Lemma first_iteration ops : history ops -> links_exist (build ops) /\ (forall x, h_cleaned (build ops) x = false).
Proof.
  intros O. split; [exact (built_wf ops _ O (all_built ops O))|]. intros x. apply built_cleaned.
Qed.

Lemma methods_registered ms g : g_methods g = [] ->
  let g' := fold_left (fun g m => register_method m g) ms g in
  NoDup (g_methods g') /\ (forall m, In m (g_methods g') <-> In m ms).
Proof.
  intros E. split; [apply methods_nodup; rewrite E; constructor|]. intros m. rewrite methods_used, E. cbn. tauto.
Qed.

Lemma surrogate_layered ops c depth : history ops -> c < length ops ->
  (forall v w, reachable (h_parents (build ops)) false c v -> follows (h_parents (build ops)) false v w ->
     depth w = S (depth v)) ->
  exists l, (exists enough, forall fuel, enough <= fuel -> surrogate_order fuel (build ops) c = Some l) /\ NoDup l /\
    (forall x, In x l <-> reachable (h_parents (build ops)) false c x) /\
    (forall x y, In x l -> ancestor (h_parents (build ops)) x y -> before l y x).
Proof.
  intros O L D. apply (layered_order _ (seq 0 (length ops)) (built_closed_par ops _ O (all_built ops O)) c
    ltac:(apply in_seq; lia) depth D).
Qed.

Lemma history_dec ops : forallb (fun i => forallb (fun p => p <? i) (nth i ops [])) (seq 0 (length ops)) = true -> history ops.
Proof.
  intros H i p I. destruct (lt_dec i (length ops)) as [L|L].
  - rewrite forallb_forall in H. assert (X : In i (seq 0 (length ops))) by (apply in_seq; lia). specialize (H i X).
    rewrite forallb_forall in H. apply Nat.ltb_lt, H, I.
  - rewrite nth_overflow in I by lia. destruct I.
Qed.

Lemma not_topological :
  let ops := [[]; [0]; [0; 1]] in
  let h := build ops in
  history ops /\ ancestor (h_parents h) 1 0 /\
  (forall fuel, 4 <= fuel -> surrogate_order fuel h 2 = Some [1; 0; 2]) /\ ~ before [1; 0; 2] 0 1.
Proof.
  cbv zeta. split; [|split; [|split]].
  - apply history_dec. reflexivity.
  - apply t1n_step. exists false. split; [now left|easy].
  - intros fuel F. do 4 (destruct fuel as [|fuel]; [lia|]). reflexivity.
  - intros (a & b & c & E).
    destruct a as [|? [|? [|? [|]]]]; destruct b as [|? [|? [|]]]; cbn in E; congruence.
Qed.

Lemma side_branch :
  let ops := [[]; [0]; [1]; [1]] in
  let h := build ops in
  history ops /\ h_children h 2 = [] /\ ancestor (h_parents h) 2 1 /\ ancestor (h_parents h) 2 0 /\
  (forall fuel, 4 < fuel -> topological_sort fuel h (Nat.eqb 2) [2] = Ok [2]).
Proof.
  cbv zeta. split; [apply history_dec; reflexivity|]. split; [reflexivity|].
  assert (S1 : follows (h_parents (build [[]; [0]; [1]; [1]])) false 2 1) by (exists false; split; [now left|easy]).
  assert (S2 : follows (h_parents (build [[]; [0]; [1]; [1]])) false 1 0) by (exists false; split; [now left|easy]).
  split; [now apply t1n_step|]. split; [eapply t1n_trans; [exact S1|now apply t1n_step]|].
  intros fuel F. do 4 (destruct fuel as [|fuel]; [lia|]). reflexivity.
Qed.

Lemma reuse :
  let g1 := register_cost 0 (mkG (construct [] empty_heap) [] [] (fun _ => 0)) in
  exists g2, (forall fuel, 3 <= fuel -> reset fuel g1 = Some g2) /\
  let g3 := register_cost 0 g2 in
  connected (h_parents (g_heap g3)) (h_children (g_heap g3)) 2 0 /\ g_costs g3 = [2] /\
  exists g4, (forall fuel, 3 <= fuel -> reset fuel g3 = Some g4) /\ h_children (g_heap g4) 0 = [(2, false)].
Proof.
  cbv zeta. eexists. split.
  - intros fuel F. do 3 (destruct fuel as [|fuel]; [lia|]). reflexivity.
  - split; [|split; [reflexivity|]].
    + eapply rt1n_trans; [|apply rt1n_refl]. left. now left.
    + eexists. split; [intros fuel F; do 3 (destruct fuel as [|fuel]; [lia|]); reflexivity|reflexivity].
Qed.
