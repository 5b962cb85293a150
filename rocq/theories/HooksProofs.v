(** Gradients accumulate until the sample is cleaned. *)
From Coq Require Import String List Arith Bool Lia Ring.
From Verif Require Import Base Torch Plates Scalar Hooks ListLemmas IndexLemmas SpecTensor SpecHooks WrapProofs OpProofs.
Import ListNotations.

Section HooksProofs.
Context {V : Type}.
Variable o : sops V.
Hypothesis Hring : is_ring o.
Let Hring' : ring_theory (o_zero o) (o_one o) (o_add o) (o_mul o) (o_sub o) (o_opp o) (@eq V) := Hring.
Add Ring o_ring : Hring'.
Variable hs : list (@hook V).
Variable shp : nat -> list nat.
Hypothesis Hnames : NoDup (map hk_name hs).
Hypothesis Hfits : forall i h, nth_error hs i = Some h -> fits h (shp i).

Notation sel name := (fun d : nat * ten V => match nth_error hs (fst d) with Some h => String.eqb (hk_name h) name | None => false end).

Definition summed (ds : list (nat * ten V)) (g : string -> option (stensor V)) : Prop :=
  forall name, match g name with
  | None => filter (sel name) ds = []
  | Some x => filter (sel name) ds <> [] /\ exists i h, nth_error hs i = Some h /\ hk_name h = name /\ splates x = hk_plates h /\
      shape (st x) = shp i /\ forall idx, valid idx (shp i) ->
        el (st x) idx = osum o (map (fun d => el (snd d) idx) (filter (sel name) ds))
  end.

Lemma bshape_same : forall s : list nat, bshape s s = Some s.
Proof. intros s. apply broadcasts_bshape. induction s; constructor; auto. Qed.

Lemma names_inj : forall i j h k, nth_error hs i = Some h -> nth_error hs j = Some k -> hk_name h = hk_name k -> i = j.
Proof.
  intros i j h k Hi Hj E. rewrite NoDup_nth_error in Hnames. apply Hnames.
  - rewrite map_length. apply nth_error_Some. congruence.
  - rewrite !nth_error_map, Hi, Hj. simpl. congruence.
Qed.

Lemma osum_snoc : forall l x, osum o (l ++ [x]) = o_add o (osum o l) x.
Proof. intros l x. unfold osum. induction l as [|y l IH]; simpl; [ring|]. rewrite IH. ring. Qed.

Lemma deliver_ok : forall ds s i g, summed ds (grads s) -> live s i = true -> i < length hs -> shape g = shp i ->
  exists s', call_hook o hs i g s = Ok s' /\ live s' = live s /\ pending s' = pending s /\ summed (ds ++ [(i, g)]) (grads s').
Proof.
  intros ds s i g Hs Hl Hi Hg. unfold call_hook.
  destruct (nth_error hs i) as [h|] eqn:Eh; [|apply nth_error_None in Eh; lia]. rewrite Hl.
  destruct (Hfits i h Eh) as [F1 [F2 [ev F3]]].
  assert (T : exists t, match grads s (hk_name h) with Some old => elementwise2 (o_add o) (st old) g | None => Ok g end = Ok t /\
     shape t = shp i /\ forall idx, valid idx (shp i) ->
       el t idx = osum o (map (fun d => el (snd d) idx) (filter (sel (hk_name h)) (ds ++ [(i, g)])))).
  { specialize (Hs (hk_name h)). rewrite filter_app. cbn [filter fst]. rewrite Eh, String.eqb_refl.
    destruct (grads s (hk_name h)) as [old|].
    - destruct Hs as [Hne [j [k [Hj [Hk [Hp [Hsh Hel]]]]]]]. assert (i = j) by (eapply names_inj; eauto). subst j.
      unfold elementwise2. rewrite Hsh, Hg, bshape_same. eexists. split; [reflexivity|]. split; [reflexivity|].
      intros idx Hv. cbn [el]. rewrite bidx_valid by auto. rewrite Hel by auto. rewrite map_app. simpl. now rewrite osum_snoc.
    - exists g. split; auto. split; auto. intros idx Hv. rewrite Hs. simpl. ring. }
  destruct T as [t [Et [Ht Hel]]]. rewrite Et. cbn [bind].
  destruct (mk_tensor_good 0 t [] (hk_plates h) false ev) as [x [Ex [A1 [A2 [A3 _]]]]]; auto. { rewrite Ht. exact F3. }
  rewrite Ex. cbn [bind]. eexists. split; [reflexivity|]. cbn [live pending grads]. repeat split; auto.
  intros name. destruct (String.eqb_spec name (hk_name h)) as [->|Hn].
  - split.
    + rewrite filter_app. cbn [filter fst]. rewrite Eh, String.eqb_refl. intros C. apply app_eq_nil in C as [_ C]. discriminate.
    + exists i, h. rewrite A2, A3. auto.
  - specialize (Hs name). rewrite filter_app. cbn [filter fst]. rewrite Eh.
    destruct (String.eqb_spec (hk_name h) name); [congruence|]. rewrite app_nil_r. exact Hs.
Qed.

Lemma clean_fold : forall l (s : @hstate V), grads (fold_left clean_graph l s) = grads s /\
  forall j, live (fold_left clean_graph l s) j = live s j && negb (existsb (Nat.eqb j) l).
Proof.
  induction l as [|i l IH]; intros s; simpl; [split; auto; intros; now rewrite andb_true_r|].
  destruct (IH (clean_graph s i)) as [E1 E2]. split; [rewrite E1; reflexivity|].
  intros j. rewrite E2. simpl. destruct (j =? i); simpl; auto. now rewrite andb_false_r.
Qed.

Lemma after_clean : forall evs (s : @hstate V), (forall i, i < length hs -> live s i = false) -> pending s = [] ->
  Forall (shaped shp (length hs)) evs -> exists s', run_hooks o hs evs s = Ok s' /\ grads s' = grads s.
Proof.
  induction evs as [|e evs IH]; intros s Hl Hp HF. { exists s. split; reflexivity. }
  inversion HF as [|? ? H1 H2]; subst. unfold run_hooks. cbn [foldM]. fold (run_hooks o hs evs).
  destruct e as [i g|]; cbn [step].
  - destruct H1 as [Hi _]. unfold call_hook. destruct (nth_error hs i) eqn:E; [|apply nth_error_None in E; lia].
    rewrite (Hl i Hi). cbn [bind]. apply (IH s Hl Hp H2).
  - cbn [bind]. unfold clean_sample. rewrite Hp. cbn [fold_left].
    destruct (IH (mkHS (grads s) (live s) [])) as [s' [E G]]; auto. exists s'. split; [exact E|]. now rewrite G.
Qed.

Lemma before_clean : forall evs ds (s : @hstate V), summed ds (grads s) -> (forall i, i < length hs -> live s i = true) ->
  pending s = seq 0 (length hs) -> Forall (shaped shp (length hs)) evs ->
  exists s', run_hooks o hs evs s = Ok s' /\ summed (ds ++ before evs) (grads s').
Proof.
  induction evs as [|e evs IH]; intros ds s Hs Hl Hp HF. { exists s. simpl. rewrite app_nil_r. split; [reflexivity|auto]. }
  inversion HF as [|? ? H1 H2]; subst. unfold run_hooks. cbn [foldM]. fold (run_hooks o hs evs).
  destruct e as [i g|]; cbn [step before].
  - destruct H1 as [Hi Hg]. destruct (deliver_ok ds s i g Hs (Hl i Hi) Hi Hg) as [s1 [E1 [L1 [P1 S1]]]].
    rewrite E1. cbn [bind]. destruct (IH (ds ++ [(i, g)]) s1) as [s' [E S']]; auto; try congruence.
    { intros j Hj. rewrite L1. auto. }
    exists s'. split; auto. rewrite <- app_assoc in S'. exact S'.
  - cbn [bind]. rewrite app_nil_r.
    destruct (clean_fold (pending s) s) as [G1 G2].
    destruct (after_clean evs (clean_sample s)) as [s' [E S']]; auto.
    { intros i Hi. unfold clean_sample. cbn [live]. rewrite G2, Hp.
      replace (existsb (Nat.eqb i) (seq 0 (length hs))) with true; [apply andb_false_r|].
      symmetry. apply existsb_exists. exists i. split; [apply in_seq; lia|apply Nat.eqb_refl]. }
    exists s'. split; [exact E|]. rewrite S'. unfold clean_sample. cbn [grads]. rewrite G1. exact Hs.
Qed.

Lemma hooks_spec : forall evs, Forall (shaped shp (length hs)) evs ->
  exists s, run_hooks o hs evs (fresh (length hs)) = Ok s /\
  forall name, match grads s name with
  | None => delivered hs name evs = []
  | Some x => delivered hs name evs <> [] /\ exists i h, nth_error hs i = Some h /\ hk_name h = name /\ splates x = hk_plates h /\
      shape (st x) = shp i /\ forall idx, valid idx (shp i) ->
        el (st x) idx = osum o (map (fun g => el g idx) (delivered hs name evs))
  end.
Proof.
  intros evs HF. destruct (before_clean evs [] (fresh (length hs))) as [s [E S]]; auto.
  { intros name. reflexivity. }
  exists s. split; auto. intros name. specialize (S name). unfold delivered. simpl in S. destruct (grads s name) as [x|].
  - destruct S as [S1 [i [h [S2 [S3 [S4 [S5 S6]]]]]]]. split.
    + intros C. apply S1. destruct (filter _ (before evs)); [auto|discriminate].
    + exists i, h. repeat split; auto. intros idx Hv. rewrite S6 by auto. now rewrite map_map.
  - now rewrite S.
Qed.

End HooksProofs.
