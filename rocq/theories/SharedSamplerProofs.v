(** Proofs about sampling methods that several estimators are given. *)
From Coq Require Import List String ZArith QArith Bool Arith Lia.
From Verif Require Import Base Construct SpecConstruct SpecInstall SharedSampler SpecSharedSampler ConstructProofs InstallProofs.
Import ListNotations.
Open Scope string_scope.
Open Scope list_scope.
Open Scope nat_scope.

Lemma put_same : forall h r x, r < List.length h -> nth_error (put h r x) r = Some x.
Proof. induction h as [|y h IH]; intros [|r] x H; cbn in *; try lia; [reflexivity|]. apply IH. lia. Qed.
Lemma put_other : forall h r r' x, r <> r' -> nth_error (put h r x) r' = nth_error h r'.
Proof. induction h as [|y h IH]; intros [|r] [|r'] x H; cbn; try reflexivity; try lia. apply IH. lia. Qed.
Lemma put_length : forall h r x, List.length (put h r x) = List.length h.
Proof. induction h as [|y h IH]; intros [|r] x; cbn; auto. Qed.

Lemma assign_installed k a : In k takes_sampler -> assign k a = rev (map (fun p => (fst p, VFun (snd p))) (installed k)) ++ a.
Proof. intros H. repeat (destruct H as [<-|H]; [reflexivity|]). contradiction. Qed.

Lemma get_assign k a x : In k takes_sampler ->
  (forall f, In (x, f) (installed k) -> get (assign k a) x = Some (VFun f)) /\ (~ In x (map fst (installed k)) -> get (assign k a) x = get a x).
Proof.
  intros H. split.
  - intros f Hf. repeat (destruct H as [<-|H]; [cbn in Hf; repeat (destruct Hf as [Hf|Hf]; [injection Hf as <- <-; reflexivity|]); contradiction|]). contradiction.
  - rewrite assign_installed by exact H. intros Hx.
    assert (G : forall l, ~ In x (map fst l) -> get (l ++ a) x = get a x).
    { induction l as [|[y w] l IH]; intros G; [reflexivity|]. cbn. cbn in G. destruct (String.eqb_spec x y) as [->|_]; [exfalso; apply G; now left|]. apply IH. tauto. }
    apply G. rewrite map_rev, map_map. intros Hi. apply in_rev in Hi. apply Hx. exact Hi.
Qed.

Lemma kw_given k pos kw v : In k takes_sampler -> given (sig_of k) pos (("sampling_method", v) :: kw) "sampling_method" v.
Proof.
  intros H. repeat (destruct H as [<-|H]; [eexists 1, _, _; split; [reflexivity|]; right; left; now left|]). contradiction.
Qed.

Lemma varkw_more k : more_kw k = varkw k.
Proof. now destruct k. Qed.

(** The object that [construct] gives the estimator is the one that the reference now denotes. *)
Lemma new_agrees h c h' o : proper h c -> new h c = (h', Ok o) ->
  exists cls a, nth_error h (c_ref c) = Some (cls, a) /\ h' = put h (c_ref c) (cls, assign (c_cls c) a) /\ get o "sampling_method" = Some (VObj cls (assign (c_cls c) a)).
Proof.
  intros (Hk & Hr & Hn) Hnew. unfold new in Hnew. destruct (nth_error h (c_ref c)) as [[cls a]|] eqn:E; [|discriminate].
  injection Hnew as Hh Hc. exists cls, a. split; [reflexivity|]. destruct (construct_binds _ _ _ _ Hc) as [e He]. rewrite varkw_more, He in Hh. split; [now rewrite Hh|].
  destruct (made_with _ _ _ _ _ Hk He Hc) as (s & Hs & m & c0 & a0 & Hm & -> & ->).
  rewrite (the_given (c_cls c) (c_pos c) ((("sampling_method", VObj cls a) :: c_kw c)) e _ _ Hn He (kw_given _ _ _ _ Hk)) in Hm. cbn in Hm. injection Hm as <- <-. rewrite assign_installed by exact Hk. exact Hs.
Qed.

Lemma new_frame h c r : r <> c_ref c -> nth_error (fst (new h c)) r = nth_error h r.
Proof.
  intros H. unfold new. destruct (nth_error h (c_ref c)) as [[cls a]|]; [|reflexivity]. cbn. destruct bind_args; [|reflexivity]. apply put_other. congruence.
Qed.
Lemma new_length h c : List.length (fst (new h c)) = List.length h.
Proof. unfold new. destruct (nth_error h (c_ref c)) as [[cls a]|]; [|reflexivity]. cbn. destruct bind_args; [|reflexivity]. apply put_length. Qed.
Lemma news_cons h c cs : news h (c :: cs) = (fst (news (fst (new h c)) cs), snd (new h c) :: snd (news (fst (new h c)) cs)).
Proof. cbn. destruct (new h c) as [h1 o1]. cbn. destruct (news h1 cs). reflexivity. Qed.

Lemma news_frame : forall cs h r, ~ In r (map c_ref cs) -> nth_error (fst (news h cs)) r = nth_error h r.
Proof.
  induction cs as [|c cs IH]; intros h r H; [reflexivity|]. rewrite news_cons. cbn [fst]. rewrite IH by (cbn in H; tauto). apply new_frame. cbn in H. intuition congruence.
Qed.
Lemma news_length : forall cs h, List.length (snd (news h cs)) = List.length cs.
Proof. induction cs as [|c cs IH]; intros h; [reflexivity|]. rewrite news_cons. cbn. now rewrite IH. Qed.

Lemma proper_length h h' c : List.length h' = List.length h -> proper h c -> proper h' c.
Proof. unfold proper. intros ->. tauto. Qed.

Lemma separate : forall cs h i c o, (forall c, In c cs -> proper h c) -> NoDup (map c_ref cs) ->
  nth_error cs i = Some c -> nth_error (snd (news h cs)) i = Some (Ok o) ->
  exists cls a0 a, nth_error h (c_ref c) = Some (cls, a0) /\ nth_error (fst (news h cs)) (c_ref c) = Some (cls, a) /\
    get o "sampling_method" = Some (VObj cls a) /\
    (forall x f, In (x, f) (installed (c_cls c)) -> get a x = Some (VFun f)) /\
    (forall x, ~ In x (map fst (installed (c_cls c))) -> get a x = get a0 x).
Proof.
  induction cs as [|c0 cs IH]; intros h i c o Hp Hd Hi Ho; [destruct i; discriminate|]. rewrite news_cons in Ho |- *. cbn [fst snd] in Ho |- *.
  inversion Hd as [|? ? Hno Hd']; subst. destruct i as [|i].
  - injection Hi as ->. cbn in Ho. injection Ho as Ho. assert (Hc : proper h c) by (apply Hp; now left).
    destruct (new_agrees h c (fst (new h c)) o Hc) as (cls & a & E & Hh & Hs). { rewrite <- Ho. now destruct (new h c). }
    exists cls, a, (assign (c_cls c) a). split; [exact E|]. rewrite news_frame by exact Hno. rewrite Hh, put_same by apply Hc.
    split; [reflexivity|]. split; [exact Hs|]. split; intros x; [intros f Hf|intros Hx]; eapply get_assign; eauto; apply Hc.
  - cbn in Hi, Ho. assert (Hne : c_ref c <> c_ref c0). { intros E. apply Hno. rewrite <- E. apply in_map. eapply nth_error_In; eauto. }
    destruct (IH (fst (new h c0)) i c o) as (cls & a0 & a & A & B); auto.
    { intros c' Hc'. eapply proper_length; [apply new_length|]. apply Hp. now right. }
    rewrite new_frame in A by exact Hne. eauto 10.
Qed.

Lemma shared h c1 c2 cs o1 o2 os x : proper h c1 -> proper h c2 -> c_ref c1 = c_ref c2 -> ~ In (c_ref c1) (map c_ref cs) ->
  snd (news h (c1 :: c2 :: cs)) = Ok o1 :: Ok o2 :: os ->
  (forall f2, In (x, f2) (installed (c_cls c2)) -> uses (fst (news h (c1 :: c2 :: cs))) c1 x f2) /\
  (forall f1, In (x, f1) (installed (c_cls c1)) -> ~ In x (map fst (installed (c_cls c2))) -> uses (fst (news h (c1 :: c2 :: cs))) c2 x f1).
Proof.
  intros H1 H2 Er Hn Ho. rewrite !news_cons in Ho |- *. cbn [fst snd] in Ho |- *. injection Ho as E1 E2 _.
  destruct (new_agrees h c1 (fst (new h c1)) o1 H1) as (cls & a & E & Hh & _). { rewrite <- E1. now destruct (new h c1). }
  assert (H2' : proper (fst (new h c1)) c2) by (eapply proper_length; [apply new_length|exact H2]).
  destruct (new_agrees (fst (new h c1)) c2 (fst (new (fst (new h c1)) c2)) o2 H2') as (cls' & a' & E' & Hh' & _). { rewrite <- E2. now destruct (new (fst (new h c1)) c2). }
  rewrite <- Er in E', Hh'. rewrite Hh in E'. rewrite put_same in E' by apply H1. injection E' as <- <-.
  unfold uses. rewrite <- !Er. rewrite !news_frame by exact Hn. rewrite Hh', put_same by (rewrite new_length; apply H1).
  split.
  - intros f2 Hf. eexists _, _. split; [reflexivity|]. eapply get_assign; eauto; apply H2.
  - intros f1 Hf Hx. eexists _, _. split; [reflexivity|]. rewrite (proj2 (get_assign _ _ _ (proj1 H2)) Hx). eapply get_assign; eauto; apply H1.
Qed.

(** Calls that are rejected for the plate name, or RELAX without a control variate. *)
Lemma rejected h c cls a s s' x f : proper h c -> nth_error h (c_ref c) = Some (cls, a) ->
  fits (sig_of (c_cls c)) (c_pos c) (("sampling_method", VObj cls a) :: c_kw c) ->
  given (sig_of (c_cls c)) (c_pos c) (("sampling_method", VObj cls a) :: c_kw c) "plate_name" (VStr s) ->
  get a "plate_name" = Some (VStr s') -> s <> s' -> In (x, f) (installed (c_cls c)) ->
  snd (new h c) = Err ValueError /\ uses (fst (new h c)) c x f.
Proof.
  intros Hp E Hf Hg Ha Hs Hx. unfold uses, new. rewrite E. cbn [fst snd]. split.
  - eapply other_plate; eauto; try apply Hp. apply kw_given, Hp.
  - rewrite varkw_more. destruct (fits_binds _ _ _ Hf) as [e ->]. rewrite put_same by apply Hp. eexists _, _. split; [reflexivity|]. eapply get_assign; eauto; apply Hp.
Qed.

Lemma unknown_kw h c y v : c_cls c <> KScore -> In (y, v) (c_kw c) -> ~ In y (map (fun p => fst (fst p)) (sig_of (c_cls c))) -> fst (new h c) = h.
Proof.
  intros Hk Hin Hy. unfold new. destruct (nth_error h (c_ref c)) as [[cls a]|] eqn:E; [|reflexivity]. cbn [fst]. unfold bind_args.
  assert (M : more_kw (c_cls c) = false) by (destruct (c_cls c); try reflexivity; congruence). rewrite M. cbn [orb].
  destruct (forallb _ _) eqn:F; [|reflexivity]. exfalso. rewrite forallb_forall in F. specialize (F (y, v) (or_intror Hin)). cbn in F.
  apply Hy. unfold known in F. apply existsb_exists in F. destruct F as ([[z b] d] & Hz & Ez). cbn in Ez. apply String.eqb_eq in Ez. subst z.
  apply in_map_iff. exists (y, b, d). split; [reflexivity|exact Hz].
Qed.
