(** Distributions as arguments and results of wrapped functions. *)
From Coq Require Import String List Arith Bool Lia Permutation.
From Verif Require Import Base Torch Plates Wrap ListLemmas IndexLemmas SpecTensor SpecWrap WrapProofs AlignProofs CallProofs CallProofs2.
Import ListNotations.

Section DistrProofs.
Context {V : Type}.
Variable veq : V -> V -> bool.
Variable anc_unwrap : plate V -> stensor V -> res (stensor V).
Notation plate := (plate V).
Notation stensor := (stensor V).
Notation pyval := (pyval V).
Notation N l := (map (@pname V) l).

Lemma unwrap_rebuilt : forall (R : stensor -> ten V -> Prop) ps o ed a, rebuildable a ->
  (forall t, In t (tensors_in a) \/ In t (params_in a) -> exists u, unwrap_tensor veq anc_unwrap ps o ed t = Ok u /\ R t u) ->
  exists a', unwrap_val veq anc_unwrap ps o ed a = Ok a' /\ unwrapped R a a'.
Proof.
  intros R ps o ed. induction a using pyval_ind'; intros ND HR; simpl in *; try (eexists; split; [reflexivity|constructor]).
  - destruct (HR a (or_introl (or_introl eq_refl))) as [u [E Hu]]. rewrite E. simpl. eexists; split; [reflexivity|]. now constructor.
  - enough (X : exists l', (fix go (l : list pyval) : res (list pyval) :=
                  match l with
                  | [] => Ok []
                  | x :: r => do x' <- unwrap_val veq anc_unwrap ps o ed x; do r' <- go r; Ok (x' :: r')
                  end) l = Ok l' /\ Forall2 (unwrapped R) l l').
    { destruct X as [l' [E F]]. rewrite E. simpl. eexists; split; [reflexivity|]. now constructor. }
    induction H as [|x r Hx Hr IH]; [exists []; auto|]. destruct ND as [ND1 ND2].
    destruct (Hx ND1) as [x' [Ex Ux]]. { intros t Ht. apply HR. simpl. rewrite !in_app_iff. tauto. }
    destruct (IH ND2) as [r' [Er Ur]]. { intros t Ht. apply HR. simpl. rewrite !in_app_iff. tauto. }
    rewrite Ex. cbn [bind]. rewrite Er. cbn [bind]. eexists; split; [reflexivity|]. now constructor.
  - enough (X : exists l', (fix go (l : list pyval) : res (list pyval) :=
                  match l with
                  | [] => Ok []
                  | x :: r => do x' <- unwrap_val veq anc_unwrap ps o ed x; do r' <- go r; Ok (x' :: r')
                  end) l = Ok l' /\ Forall2 (unwrapped R) l l').
    { destruct X as [l' [E F]]. rewrite E. simpl. eexists; split; [reflexivity|]. now constructor. }
    induction H as [|x r Hx Hr IH]; [exists []; auto|]. destruct ND as [ND1 ND2].
    destruct (Hx ND1) as [x' [Ex Ux]]. { intros t Ht. apply HR. simpl. rewrite !in_app_iff. tauto. }
    destruct (IH ND2) as [r' [Er Ur]]. { intros t Ht. apply HR. simpl. rewrite !in_app_iff. tauto. }
    rewrite Ex. cbn [bind]. rewrite Er. cbn [bind]. eexists; split; [reflexivity|]. now constructor.
  - enough (X : exists l', (fix go (l : list (string * pyval)) : res (list (string * pyval)) :=
                  match l with
                  | [] => Ok []
                  | (k, x) :: r => do x' <- unwrap_val veq anc_unwrap ps o ed x; do r' <- go r; Ok ((k, x') :: r')
                  end) l = Ok l' /\ Forall2 (fun x y => fst x = fst y /\ unwrapped R (snd x) (snd y)) l l').
    { destruct X as [l' [E F]]. rewrite E. simpl. eexists; split; [reflexivity|]. now constructor. }
    induction H as [|[k x] r Hx Hr IH]; [exists []; auto|]. destruct ND as [ND1 ND2]. simpl in Hx.
    destruct (Hx ND1) as [x' [Ex Ux]]. { intros t Ht. apply HR. simpl. rewrite !in_app_iff. tauto. }
    destruct (IH ND2) as [r' [Er Ur]]. { intros t Ht. apply HR. simpl. rewrite !in_app_iff. tauto. }
    rewrite Ex. cbn [bind]. rewrite Er. cbn [bind]. eexists; split; [reflexivity|]. constructor; auto.
  - destruct ND as [Hc ND].
    enough (X : exists l', (fix go (l : list (string * pyval)) : res (list (string * pyval)) :=
                  match l with
                  | [] => Ok []
                  | (k, x) :: r => do x' <- unwrap_val veq anc_unwrap ps o ed x; do r' <- go r; Ok ((k, x') :: r')
                  end) l = Ok l' /\ Forall2 (fun x y => fst x = fst y /\ unwrapped R (snd x) (snd y)) l l').
    { destruct X as [l' [E F]]. rewrite E. cbn [bind]. exists (PDistr c l'). split; [destruct Hc as [->| ->]; reflexivity|]. now constructor. }
    induction H as [|[k x] r Hx Hr IH]; [exists []; auto|]. destruct ND as [ND1 ND2]. simpl in Hx.
    destruct (Hx ND1) as [x' [Ex Ux]]. { intros t Ht. apply HR. simpl. rewrite !in_app_iff. tauto. }
    destruct (IH ND2) as [r' [Er Ur]]. { intros t Ht. apply HR. simpl in *. rewrite !in_app_iff. tauto. }
    rewrite Ex. cbn [bind]. rewrite Er. cbn [bind]. eexists; split; [reflexivity|]. constructor; auto.
Qed.

Lemma prepare_rebuilt : forall (R : stensor -> ten V -> Prop) args kwargs o ts,
  ts = call_tensors args kwargs -> callable veq ts ->
  o_unwrap o = true -> o_dim o = None -> o_dims o = None ->
  Forall rebuildable args -> Forall (fun kv => rebuildable (snd kv)) kwargs ->
  (forall t, In t ts \/ In t (call_params args kwargs) -> exists u, unwrap_tensor veq anc_unwrap (wide (all_plates ts)) o (max_event ts) t = Ok u /\ R t u) ->
  exists args' kwargs',
    prepare_args veq anc_unwrap args kwargs o = Ok (args', kwargs', ts, all_plates ts) /\
    Forall2 (unwrapped R) args args' /\
    Forall2 (fun x y => fst x = fst y /\ unwrapped R (snd x) (snd y)) kwargs kwargs'.
Proof.
  intros R args kwargs o ts Ets [Hwf [HA Hpl]] Hu Hd Hds NDa NDk HR.
  unfold prepare_args. rewrite !collect_spec.
  destruct (folded_spec veq anc_unwrap ts [] (flat_map splates ts)) as [E [I [D X]]]; auto.
  { intros x []. } { constructor. } { intros t Ht x Hx. apply in_flat_map. exists t; auto. }
  assert (Ecol : col veq (tensors_in (PDict kwargs)) (col veq (tensors_in (PList args)) ([], [], 0)) = (ts, all_plates ts, max_event ts)).
  { rewrite <- col_app. simpl tensors_in. fold (call_tensors args kwargs). rewrite <- Ets. unfold col. rewrite E. reflexivity. }
  rewrite Ecol. change (folded ts []) with (all_plates ts) in *.
  rewrite (filter_collected_ok veq (flat_map splates ts)) by auto. cbn [bind].
  rewrite Hd. cbn [bind]. rewrite Hds. cbn [bind]. rewrite Hu.
  destruct (mapM_spec (unwrap_val veq anc_unwrap (mdp (all_plates ts)) o (max_event ts)) (unwrapped R) args) as [args' [E1 F1]].
  { intros x Hx. apply unwrap_rebuilt.
    - rewrite Forall_forall in NDa. auto.
    - intros t Ht. apply HR. rewrite Ets. unfold call_tensors, call_params. rewrite !in_app_iff, !in_flat_map. destruct Ht; eauto. }
  destruct (mapM_spec (fun kv : string * pyval => do v <- unwrap_val veq anc_unwrap (mdp (all_plates ts)) o (max_event ts) (snd kv); Ok (fst kv, v))
     (fun x y => fst x = fst y /\ unwrapped R (snd x) (snd y)) kwargs) as [kwargs' [E2 F2]].
  { intros x Hx. destruct (unwrap_rebuilt R (mdp (all_plates ts)) o (max_event ts) (snd x)) as [v [Ev Uv]].
    - rewrite Forall_forall in NDk. auto.
    - intros t Ht. apply HR. rewrite Ets. unfold call_tensors, call_params. rewrite !in_app_iff, !in_flat_map. destruct Ht; eauto.
    - rewrite Ev. cbn [bind]. eexists; split; [reflexivity|]. auto. }
  rewrite E1. cbn [bind]. rewrite E2. cbn [bind]. exists args', kwargs'. auto.
Qed.

Lemma distr_aligned : forall args kwargs o ts ds, ts = call_tensors args kwargs -> ds = call_params args kwargs -> callable veq (ts ++ ds) -> covered ts ds ->
  o_unwrap o = true -> o_align o = true -> o_lbroadcast o = true -> o_flatten o = false -> o_dim o = None -> o_dims o = None ->
  Forall rebuildable args -> Forall (fun kv => rebuildable (snd kv)) kwargs ->
  let R := laid_out (wide (all_plates ts)) (o_expand o) (max_event ts) in
  exists args' kwargs', prepare_args veq anc_unwrap args kwargs o = Ok (args', kwargs', ts, all_plates ts) /\
    Forall2 (unwrapped R) args args' /\ Forall2 (fun x y => fst x = fst y /\ unwrapped R (snd x) (snd y)) kwargs kwargs'.
Proof.
  intros args kwargs o ts ds Ets Eds HC Hcov H1 H2 H3 H4 H5 H6 Ha Hk R.
  destruct HC as [Hwf [HA Hpl]]. rewrite flat_map_app in HA, Hpl.
  assert (HC : callable veq ts).
  { split; [now apply Forall_app in Hwf|]. split; [intros p q Hp Hq; apply HA; apply in_app_iff; auto|intros p Hp; apply Hpl, in_app_iff; auto]. }
  apply prepare_rebuilt; auto. intros t Ht.
  destruct (all_plates_facts veq anc_unwrap ts HC) as [I [D X]].
  assert (IW : incl (wide (all_plates ts)) (flat_map splates ts)) by (intros p Hp; apply In_wide in Hp; apply I; tauto).
  apply unwrap_tensor_spec with (L := flat_map splates ts ++ flat_map splates ds); auto.
  - intros p Hp. apply in_app_iff. left. auto.
  - intros p Hp. apply in_app_iff. rewrite !in_flat_map. destruct Ht as [Ht|Ht]; [left|right; rewrite Eds]; eauto.
  - rewrite Forall_forall in Hwf. apply Hwf, in_app_iff. rewrite Eds. tauto.
  - now apply NoDup_map_filter.
  - intros p Hp. apply In_wide in Hp. tauto.
  - intros p Hp. apply In_wide in Hp. destruct Hp as [Hp Hn].
    assert (Hx : In (pname p) (N (all_plates ts))).
    { apply X. destruct Ht as [Ht|Ht]; [exists t; split; auto; now apply in_map|]. rewrite <- Eds in Ht. destruct (Hcov t Ht) as [C _]. auto. }
    apply in_map_iff in Hx. destruct Hx as [q [E Hq]]. rewrite <- E. apply in_map. apply In_wide. split; auto.
    destruct (HA q p) as [_ En]; auto; [apply in_app_iff; auto| |lia].
    apply in_app_iff. rewrite !in_flat_map. destruct Ht as [Ht|Ht]; [left|right; rewrite Eds]; eauto.
  - intros p Hp. apply plain_hook. apply Hpl, in_app_iff. auto.
  - destruct Ht as [Ht|Ht]; [apply max_event_ge; auto|]. rewrite <- Eds in Ht. destruct (Hcov t Ht) as [_ [u [Hu Hle]]].
    pose proof (max_event_ge ts 0 u (or_introl Hu)). unfold max_event. lia.
Qed.

(** Distributions whose class does not take their parameters are passed as they are. *)
Lemma distr_as_is : forall args kwargs o args' kwargs' ps pl i c l, o_unwrap o = true -> prepare_args veq anc_unwrap args kwargs o = Ok (args', kwargs', ps, pl) ->
  nth_error args i = Some (PDistr c l) -> c = DRelaxed \/ c = DNested -> nth_error args' i = Some (PDistr c l).
Proof.
  intros args kwargs o args' kwargs' ps pl i c l Hu H Hi Hc. unfold prepare_args in H.
  destruct (collect veq (PDict kwargs) (collect veq (PList args) ([], [], 0))) as [[p0 pl0] m].
  destruct (filter_collected veq pl0 pl0) as [pls|]; [|discriminate]. cbn [bind] in H.
  match type of H with bind ?x _ = _ => destruct x as [[kw id]|]; [|discriminate] end. cbn [bind] in H.
  match type of H with bind ?x _ = _ => destruct x as [kw'|]; [|discriminate] end. cbn [bind] in H. rewrite Hu in H.
  destruct (mapM (unwrap_val veq anc_unwrap (mdp pls) o m) args) as [as'|] eqn:E; [|discriminate]. cbn [bind] in H.
  destruct (mapM _ kw'); [|discriminate]. cbn [bind] in H. injection H as <- _ _ _.
  clear - E Hi Hc. revert i as' E Hi. induction args as [|x r IH]; intros i as' E Hi; [destruct i; discriminate|].
  cbn [mapM] in E. destruct (unwrap_val veq anc_unwrap (mdp pls) o m x) as [x'|] eqn:Ex; [|discriminate]. cbn [bind] in E.
  destruct (mapM (unwrap_val veq anc_unwrap (mdp pls) o m) r) as [r'|] eqn:Er; [|discriminate]. cbn [bind] in E. injection E as <-.
  destruct i as [|i]; cbn [nth_error] in *; [|eauto]. injection Hi as ->. cbn [unwrap_val] in Ex.
  match type of Ex with bind ?y _ = _ => destruct y as [l'|]; [|discriminate] end. cbn [bind] in Ex. injection Ex as <-. destruct Hc as [->| ->]; reflexivity.
Qed.

Lemma all_plates_from : forall (ts : list stensor) p, In p (all_plates ts) -> exists t, In t ts /\ In p (splates t).
Proof.
  intros ts p. unfold all_plates. assert (G : forall acc, In p (fold_left (fun acc t => union acc (splates t)) ts acc) -> In p acc \/ exists t, In t ts /\ In p (splates t)).
  { induction ts as [|t ts IH]; intros acc H; simpl in *; auto. apply IH in H. destruct H as [H|[u [Hu H]]]; [|eauto].
    unfold union in H. apply in_app_iff in H. destruct H as [H|H]; auto. apply filter_In in H. right. exists t. tauto. }
  intros H. apply G in H. destruct H as [[]|H]; auto.
Qed.
(** What the plates of a call are. *)
Lemma collected_plates : forall args kwargs o a k ps pl p, prepare_args veq anc_unwrap args kwargs o = Ok (a, k, ps, pl) -> In p pl ->
  exists t, In t (call_tensors args kwargs) /\ In p (splates t).
Proof.
  intros args kwargs o a k ps pl p H Hp. unfold prepare_args in H. rewrite !collect_spec in H.
  rewrite <- col_app in H. simpl tensors_in in H. fold (call_tensors args kwargs) in H. set (ts := call_tensors args kwargs) in *. cbn [col app] in H.
  match type of H with bind (filter_collected veq ?l _) _ = _ => set (pl0 := l) in * end.
  destruct (filter_collected veq pl0 pl0) as [pls|] eqn:E; [|discriminate]. cbn [bind] in H.
  match type of H with bind ?x _ = _ => destruct x as [[kw id]|]; [|discriminate] end. cbn [bind] in H.
  match type of H with bind ?x _ = _ => destruct x as [kw'|]; [|discriminate] end. cbn [bind] in H.
  assert (Epl : pls = pl).
  { destruct (o_unwrap o); [|congruence]. destruct (mapM _ args); [|discriminate]. cbn [bind] in H. destruct (mapM _ kw'); [|discriminate]. cbn [bind] in H. congruence. }
  subst pls. clear H.
  assert (G : forall all l r, filter_collected veq all l = Ok r -> incl r l).
  { intros all l. induction l as [|q l IH]; intros r Hr; cbn [filter_collected] in Hr; [injection Hr as <-; apply incl_refl|].
    destruct (on_collecting_args veq q all) as [b|]; [|discriminate]. cbn [bind] in Hr. destruct (filter_collected veq all l) as [r'|]; [|discriminate]. cbn [bind] in Hr.
    injection Hr as <-. specialize (IH r' eq_refl). intros x Hx. destruct b; [destruct Hx as [<-|Hx]; [now left|right; auto]|right; auto]. }
  apply (G _ _ _ E) in Hp. clear - Hp. unfold pl0 in Hp.
  assert (A : forall new old x, In x (add_plates veq old new) -> In x old \/ In x new).
  { unfold add_plates. induction new as [|q new IH]; intros old x Hx; cbn [fold_left] in Hx; auto. apply IH in Hx. destruct Hx as [Hx|Hx]; [|right; now right].
    unfold add_plate in Hx. destruct (pin veq q old); auto. apply in_app_iff in Hx. destruct Hx as [Hx|[<-|[]]]; auto. right. now left. }
  assert (B : forall l acc, In p (fold_left (fun pl t => add_plates veq pl (splates t)) l acc) -> In p acc \/ exists t, In t l /\ In p (splates t)).
  { induction l as [|t l IH]; intros acc Hx; cbn [fold_left] in Hx; auto. apply IH in Hx. destruct Hx as [Hx|[u [Hu Hx]]]; [|right; exists u; split; [now right|auto]].
    apply A in Hx. destruct Hx as [Hx|Hx]; auto. right. exists t. split; [now left|auto]. }
  apply B in Hp. destruct Hp as [[]|Hp]; auto.
Qed.

(** A result never has anything of the parameters of a distribution. *)
Lemma distr_forgotten : forall fn args kwargs o base r, call_tensors args kwargs <> [] -> o_flatten o = false ->
  handle_deterministic veq anc_unwrap top_ctx fn args kwargs [] o base = Ok (PT r) ->
  (forall a k out, fn a k = Ok out -> no_storch out) ->
  (forall i, In i (sparents r) -> exists t, In t (call_tensors args kwargs) /\ sid t = i) /\
  (forall p, In p (splates r) -> exists t, In t (call_tensors args kwargs) /\ In p (splates t)).
Proof.
  intros fn args kwargs o base r Hne Hf H Hns.
  destruct (dependencies_recorded veq anc_unwrap fn args kwargs o base (PT r) Hne Hf H Hns) as [args' [kwargs' [plates [out' [P1 [P2 P3]]]]]].
  inversion P3 as [t a S1 S2 S3 S4 E1 E2| | | | |]; subst. split.
  - intros i Hi. rewrite S3 in Hi. apply in_map_iff in Hi. destruct Hi as [t' [<- Ht']]. eauto.
  - intros p Hp. exact (collected_plates _ _ _ _ _ _ _ _ P1 Hp).
Qed.

(** Results. *)
Lemma output_parts : forall fn args kwargs o base v, call_tensors args kwargs <> [] -> handle_deterministic veq anc_unwrap top_ctx fn args kwargs [] o base = Ok v ->
  exists args' kwargs' plates out j, prepare_args veq anc_unwrap args kwargs o = Ok (args', kwargs', call_tensors args kwargs, plates) /\ fn args' kwargs' = Ok out /\
    prepare_outputs out (call_tensors args kwargs) plates base 1 (o_flatten o) = Ok (v, j).
Proof.
  intros fn args kwargs o base v Hne H. unfold handle_deterministic in H. cbn [top_ctx c_stochastic] in H.
  destruct (prepare_args veq anc_unwrap args kwargs o) as [[[[a k] ps] pl]|] eqn:E; [|discriminate]. cbn [bind] in H. pose proof (prepare_args_parents veq anc_unwrap _ _ _ _ _ _ _ E) as ->.
  destruct (call_tensors args kwargs) as [|t0 ts0] eqn:Ect; [congruence|].
  destruct (fn a k) as [out|] eqn:Ef; [|discriminate]. cbn [bind c_ignore] in H. rewrite filter_none in H.
  destruct (prepare_outputs out (t0 :: ts0) pl base 1 (o_flatten o)) as [[v' j]|] eqn:Eo; [|discriminate]. cbn [bind] in H. injection H as ->.
  exists a, k, pl, out, j. auto.
Qed.
Lemma distr_output_fails : forall fn args kwargs o base c l, call_tensors args kwargs <> [] -> (forall a k, fn a k = Ok (PDistr c l)) -> c <> DDiscrete ->
  forall v, handle_deterministic veq anc_unwrap top_ctx fn args kwargs [] o base <> Ok v.
Proof.
  intros fn args kwargs o base c l Hne Hfn Hc v H. destruct (output_parts fn args kwargs o base v Hne H) as [a [k [pl [out [j [_ [E H']]]]]]].
  rewrite Hfn in E. injection E as <-. destruct c; try congruence; cbn [prepare_outputs] in H'; try discriminate.
  match type of H' with bind ?x _ = _ => destruct x as [?|]; discriminate end.
Qed.
End DistrProofs.
