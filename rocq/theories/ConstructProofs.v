(** Proofs about the constructors. *)
From Coq Require Import List String ZArith QArith Bool Lia.
From Verif Require Import Base Construct SpecConstruct.
Import ListNotations.
Open Scope string_scope.
Open Scope list_scope.

Lemma get_in kw x v : NoDup (map fst kw) -> In (x, v) kw -> get kw x = Some v.
Proof.
  induction kw as [|[y w] r IH]; [contradiction|]. cbn. intros Hn [He|Hi].
  - injection He as -> ->. now rewrite String.eqb_refl.
  - inversion_clear Hn as [|? ? Hy Hr]. destruct (String.eqb_spec x y) as [->|_]; [|now apply IH].
    exfalso. apply Hy. apply (in_map fst) in Hi. exact Hi.
Qed.

Lemma get_none kw x : ~ In x (map fst kw) -> get kw x = None.
Proof.
  induction kw as [|[y w] r IH]; [reflexivity|]. cbn. intros H.
  destruct (String.eqb_spec x y) as [->|_]; [exfalso; apply H; now left|]. apply IH. intros Hi. apply H. now right.
Qed.

Lemma has_in kw x v : In (x, v) kw -> has kw x = true.
Proof.
  unfold has. induction kw as [|[y w] r IH]; [contradiction|]. cbn. intros [He|Hi].
  - injection He as -> ->. now rewrite String.eqb_refl.
  - destruct (String.eqb x y); [reflexivity|]. now apply IH.
Qed.

Definition pname (p : param) : string := fst (fst p).

(** Keyword-only parameters come last. *)
Fixpoint kw_last (s : sig) : Prop :=
  match s with
  | [] => True
  | (_, ko, _) :: r => (ko = true -> forall p, In p r -> snd (fst p) = true) /\ kw_last r
  end.

Lemma bind_kwonly s : forall pos kw e, (forall p, In p s -> snd (fst p) = true) -> bind_params s pos kw = Ok e -> pos = [].
Proof.
  induction s as [|[[y ko] d] r IH]; intros pos kw e Hs Hb.
  - destruct pos; [reflexivity|discriminate].
  - pose proof (Hs _ (or_introl eq_refl)) as Hk. cbn in Hk. subst ko. cbn in Hb.
    assert (Hr : forall p, In p r -> snd (fst p) = true) by (intros p Hp; apply Hs; now right).
    destruct (get kw y) as [v|]; [|destruct d as [v|]; [|discriminate]];
      (destruct (bind_params r pos kw) as [e'|] eqn:He; [|discriminate]; exact (IH _ _ _ Hr He)).
Qed.

Lemma bind_given s : forall pos kw e x v, kw_last s -> NoDup (map pname s) -> NoDup (map fst kw) ->
  bind_params s pos kw = Ok e -> given s pos kw x v -> get e x = Some v.
Proof.
  induction s as [|[[y ko] d] r IH]; intros pos kw e x v Hkl Hs Hk Hb (i & ko' & d' & Hi & Hg).
  - now destruct i.
  - destruct Hkl as (Hl & Hlr). cbn [map pname fst] in Hs. inversion_clear Hs as [|? ? Hy Hr].
    destruct i as [|i].
    + injection Hi as <- <- <-. cbn [bind_params] in Hb.
      destruct Hg as [(-> & Hp)|[Hin|(Hc & Hno & ->)]].
      * destruct pos as [|w pos]; [discriminate|]. injection Hp as <-.
        destruct (has kw y); [discriminate|]. destruct (bind_params r pos kw); [|discriminate]. injection Hb as <-.
        cbn. now rewrite String.eqb_refl.
      * rewrite (get_in _ _ _ Hk Hin), (has_in _ _ _ Hin) in Hb.
        destruct ko; [|destruct pos as [|w pos]; [|discriminate]];
          destruct (bind_params r _ kw); try discriminate; injection Hb as <-; cbn; now rewrite String.eqb_refl.
      * rewrite (get_none _ _ Hno) in Hb. destruct Hc as [->|Hc].
        -- destruct (bind_params r pos kw); try discriminate; injection Hb as <-; cbn; now rewrite String.eqb_refl.
        -- destruct pos as [|w pos]; [|cbn in Hc; lia].
           destruct ko; destruct (bind_params r [] kw); try discriminate; injection Hb as <-; cbn; now rewrite String.eqb_refl.
    + cbn [nth_error] in Hi.
      assert (Hx : x <> y).
      { intros ->. apply Hy. apply nth_error_In in Hi. apply (in_map pname) in Hi. exact Hi. }
      assert (Hskip : forall w e', get ((y, w) :: e') x = get e' x).
      { intros w e'. cbn. destruct (String.eqb_spec x y); [contradiction|reflexivity]. }
      destruct ko; [|destruct pos as [|w pos]].
      * assert (pos = []) as -> by (apply (bind_kwonly ((y, true, d) :: r) pos kw e);
          [intros p [<-|Hp]; [reflexivity|now apply Hl]|exact Hb]).
        assert (Hg' : given r [] kw x v).
        { exists i, ko', d'. split; [exact Hi|].
          destruct Hg as [(_ & Hp)|[Hin|(Hc & Hno & ->)]]; [discriminate|now right; left|].
          right; right. repeat split; auto. right. cbn. lia. }
        cbn [bind_params] in Hb.
        destruct (get kw y) as [u|]; [|destruct d as [u|]; [|discriminate]];
          (destruct (bind_params r [] kw) as [e'|] eqn:He; [|discriminate]; injection Hb as <-; rewrite Hskip;
           exact (IH _ _ _ _ _ Hlr Hr Hk He Hg')).
      * assert (Hg' : given r [] kw x v).
        { exists i, ko', d'. split; [exact Hi|].
          destruct Hg as [(_ & Hp)|[Hin|(Hc & Hno & ->)]]; [discriminate|now right; left|].
          right; right. repeat split; auto. right. cbn. lia. }
        cbn [bind_params] in Hb.
        destruct (get kw y) as [u|]; [|destruct d as [u|]; [|discriminate]];
          (destruct (bind_params r [] kw) as [e'|] eqn:He; [|discriminate]; injection Hb as <-; rewrite Hskip;
           exact (IH _ _ _ _ _ Hlr Hr Hk He Hg')).
      * assert (Hg' : given r pos kw x v).
        { exists i, ko', d'. split; [exact Hi|].
          destruct Hg as [(Hf & Hp)|[Hin|(Hc & Hno & ->)]]; [left; split; [exact Hf|exact Hp]|now right; left|].
          right; right. repeat split; auto. destruct Hc as [|Hc]; [now left|]. right. cbn in Hc. lia. }
        cbn [bind_params] in Hb. destruct (has kw y); [discriminate|].
        destruct (bind_params r pos kw) as [e'|] eqn:He; [|discriminate]; injection Hb as <-; rewrite Hskip.
        exact (IH _ _ _ _ _ Hlr Hr Hk He Hg').
Qed.

Lemma args_given b s pos kw e x v : kw_last s -> NoDup (map pname s) -> NoDup (map fst kw) ->
  bind_args b s pos kw = Ok e -> given s pos kw x v -> the e x = v.
Proof.
  unfold bind_args. intros Hl Hs Hk Hb Hg. destruct (b || _); [|discriminate].
  unfold the. now rewrite (bind_given _ _ _ _ _ _ Hl Hs Hk Hb Hg).
Qed.

(** Reading an attribute path. *)
Fixpoint read (o : env) (p : list string) : option val :=
  match p with
  | [] => None
  | [x] => get o x
  | x :: r => match get o x with Some (VObj _ o') => read o' r | _ => None end
  end.

Lemma get_split o x v : get o x = Some v -> exists l1 l2, o = l1 ++ (x, v) :: l2 /\ ~ In x (map fst l1).
Proof.
  induction o as [|[y w] r IH]; [discriminate|]. cbn. destruct (String.eqb_spec x y) as [->|Hn].
  - intros H. injection H as ->. exists [], r. split; [reflexivity|]. intros [].
  - intros H. destruct (IH H) as (l1 & l2 & -> & Hi). exists ((y, w) :: l1), l2. split; [reflexivity|].
    intros [He|He]; [now apply Hn|contradiction].
Qed.

Lemma read_reads p : forall o v, read o p = Some v -> reads o p v.
Proof.
  induction p as [|x p IH]; [discriminate|]. intros o v H. destruct p as [|y p].
  - destruct (get_split _ _ _ H) as (l1 & l2 & -> & Hi). now constructor.
  - cbn [read] in H. destruct (get o x) as [w|] eqn:Hg; [|discriminate].
    destruct w as [| | | | | |c o']; try discriminate.
    destruct (get_split _ _ _ Hg) as (l1 & l2 & -> & Hi). apply reads_there; [exact Hi|]. apply IH. exact H.
Qed.

(** Reads are unique. *)
Lemma get_app l1 x v l2 : ~ In x (map fst l1) -> get (l1 ++ (x, v) :: l2) x = Some v.
Proof.
  induction l1 as [|[y w] r IH]; cbn; intros H; [now rewrite String.eqb_refl|].
  destruct (String.eqb_spec x y) as [->|_]; [exfalso; apply H; now left|]. apply IH. intros Hi. apply H. now right.
Qed.

Lemma reads_read o p v : reads o p v -> read o p = Some v.
Proof.
  induction 1 as [l1 x v l2 H|l1 x c o l2 p v H Hr IH].
  - cbn. now apply get_app.
  - destruct p as [|y p]; [inversion Hr|]. cbn [read]. rewrite (get_app _ _ _ _ H). exact IH.
Qed.

(** Every class has distinct parameters, the keyword-only ones last. *)
Lemma sig_ok k : kw_last (sig_of k) /\ NoDup (map pname (sig_of k)).
Proof.
  destruct k; (split;
    [cbn; repeat split; intros; try discriminate;
       repeat match goal with H : _ \/ _ |- _ => destruct H as [<-|H] | H : False |- _ => destruct H end; reflexivity
    |cbn; repeat (constructor; [cbn; intuition discriminate|]); constructor]).
Qed.

Definition varkw (k : kls) : bool := match k with KScore => true | _ => false end.

Lemma the_given k pos kw e x v : NoDup (map fst kw) -> bind_args (varkw k) (sig_of k) pos kw = Ok e ->
  given (sig_of k) pos kw x v -> the e x = v.
Proof. intros. destruct (sig_ok k). eapply args_given; eauto. Qed.

Ltac step :=
  match goal with
  | H : Err _ = Ok _ |- _ => discriminate H
  | H : Ok _ = Ok _ |- _ => injection H as <-
  | H : Base.bind ?r _ = Ok _ |- _ => let E := fresh "E" in destruct r eqn:E; cbn [Base.bind] in H; [|discriminate H]
  | H : (if ?b then _ else _) = Ok _ |- _ => let E := fresh "E" in destruct b eqn:E
  end.

Lemma torch_tensor_same v w : torch_tensor v = Ok w -> w = v.
Proof. unfold torch_tensor. destruct (num v); [|discriminate]. intros H. now injection H. Qed.


Ltac cases Hi := cbn in Hi; repeat (destruct Hi as [Hi|Hi]; [injection Hi as <- <- <-|]); [..|contradiction Hi].

(** A method: its sampling method, which is a new MonteCarlo if none is given. *)
Lemma or_mc_new m p n r : or_montecarlo m p n = Ok r -> m = VNone -> r = VObj "MonteCarlo" [("n_samples", n); ("plate_name", p)].
Proof. intros H ->. cbn in H. now injection H as <-. Qed.

Lemma method_attrs p m o : init_method p m = Ok o -> get o "sampling_method" = Some m /\ get o "plate_name" = Some p.
Proof.
  unfold init_method. destruct m as [| | | | | |c l]; try discriminate. destruct (get l "plate_name"); [|discriminate].
  destruct (py_eq v p); [|discriminate]. intros H. injection H as <-. split; reflexivity.
Qed.

Ltac known :=
  repeat match goal with
  | H : set_in _ _ (VObj _ _) = Ok _ |- _ => cbn [set_in] in H; inversion H; subst; clear H
  | H : set_in _ _ ?a = Ok _ |- _ => is_var a; destruct a; try discriminate H
  | H : init_method _ _ = Ok _ |- _ => let A := fresh "A" in let B := fresh "B" in
        destruct (method_attrs _ _ _ H) as (A & B); clear H
  | H : torch_tensor _ = Ok _ |- _ => apply torch_tensor_same in H; subst
  end.

Ltac inner f H :=
  unfold f in H;
  match type of H with context [bind_args ?b ?s ?p ?k] =>
    let r := eval cbn in (bind_args b s p k) in change (bind_args b s p k) with r in H; cbn [Base.bind] in H end.

Ltac finish Hx Hn :=
  unfold set_attr, temperature_buffers in *; repeat step;
  try match goal with H : or_montecarlo _ _ _ = Ok _ |- _ =>
        pose proof (or_mc_new _ _ _ _ H ltac:(first [exact (Hn _ eq_refl)|reflexivity])) as E'; subst end;
  known; cbn;
  repeat match goal with A : get ?o _ = Some _ |- context [get ?o _] => rewrite A end; cbn; try rewrite Hx; reflexivity.

Lemma settings_reach k pos kw o x p c v : NoDup (map fst kw) -> construct k pos kw = Ok o ->
  In (x, p, c) (settings k) -> ~ In x (lost k) ->
  (forall y, c = Some y -> given (sig_of k) pos kw y VNone) ->
  given (sig_of k) pos kw x v -> reads o p v.
Proof.
  intros Hk Hc Hi Hl Hy Hv.
  assert (He : exists e, bind_args (varkw k) (sig_of k) pos kw = Ok e).
  { destruct k; cbn [construct] in Hc; cbn [varkw sig_of];
      match type of Hc with ?f _ _ = _ => unfold f in Hc end;
      match type of Hc with Base.bind ?r _ = _ => destruct r as [e|]; [exists e; reflexivity|discriminate] end. }
  destruct He as [e He].
  assert (Hx : the e x = v) by (eapply the_given; eauto).
  assert (Hn : forall y, c = Some y -> the e y = VNone) by (intros y ->; eapply the_given; eauto).
  clear Hv Hy. apply read_reads.
  destruct k; cbn [construct] in Hc; cbn [varkw sig_of] in He;
    match type of Hc with ?f _ _ = _ => unfold f in Hc end; rewrite He in Hc; cbn [Base.bind] in Hc; clear He.
  - cases Hi; finish Hx Hn.
  - cases Hi; finish Hx Hn.
  - cases Hi; finish Hx Hn.
  - cbn in Hc. cases Hi; finish Hx Hn.
  - cbn in Hc. cases Hi; finish Hx Hn.
  - cbn in Hc. cases Hi; try (exfalso; apply Hl; cbn; tauto); finish Hx Hn.
  - cbn in Hc. cases Hi; try (exfalso; apply Hl; cbn; tauto); finish Hx Hn.
  - cbn in Hc. cases Hi; try (exfalso; apply Hl; cbn; tauto); finish Hx Hn.
  - cbn in Hc. cases Hi; try (exfalso; apply Hl; cbn; tauto); finish Hx Hn.
  - cbn in Hc. cases Hi; try (exfalso; apply Hl; cbn; tauto); finish Hx Hn.
  - cases Hi; finish Hx Hn.
  - cases Hi; finish Hx Hn.
  - cases Hi; finish Hx Hn.
  - cases Hi; finish Hx Hn.
  - inner init_entmax Hc. cases Hi; finish Hx Hn.
  - inner init_enumerate Hc. cases Hi; finish Hx Hn.
  - cases Hi; finish Hx Hn.
  - cases Hi; finish Hx Hn.
  - inner init_reparam Hc. cases Hi; finish Hx Hn.
  - cases Hi; finish Hx Hn.
  - inner init_relax Hc. cases Hi; finish Hx Hn.
  - cbn -[init_method py_lt] in Hc. cases Hi; finish Hx Hn.
  - cbn -[init_method py_lt] in Hc. cases Hi; finish Hx Hn.
  - cbn -[init_method py_lt] in Hc. cases Hi; try (exfalso; apply Hl; cbn; tauto); finish Hx Hn.
  - cbn -[init_method py_lt] in Hc. cases Hi; finish Hx Hn.
Qed.

(** Every parameter of a call that is accepted has a value. *)
Lemma get_in_inv kw x v : get kw x = Some v -> In (x, v) kw.
Proof.
  induction kw as [|[y w] r IH]; [discriminate|]. cbn. destruct (String.eqb_spec x y) as [->|_].
  - intros H. injection H as ->. now left.
  - intros H. right. now apply IH.
Qed.

Lemma bind_gives s : forall pos kw e x, bind_params s pos kw = Ok e -> kw_last s -> NoDup (map pname s) -> NoDup (map fst kw) ->
  In x (map pname s) -> exists v, given s pos kw x v.
Proof.
  induction s as [|[[y ko] d] r IH]; intros pos kw e x Hb Hkl Hs Hk Hi; [contradiction|].
  destruct Hkl as (Hl & Hlr). cbn [map pname fst] in Hs. inversion_clear Hs as [|? ? Hy Hr].
  assert (Hshift : forall pos' v, (pos' = pos /\ pos = [] \/ exists w, pos = w :: pos' /\ ko = false) -> given r pos' kw x v -> given ((y, ko, d) :: r) pos kw x v).
  { intros pos' v Hp (i & ko' & d' & Hn & Hg). exists (S i), ko', d'. split; [exact Hn|].
    destruct Hg as [(Hf & Hg)|[Hin|(Hc & Hno & Hd)]]; [|now right; left|].
    - destruct Hp as [(-> & ->)|(w & -> & _)]; [destruct i; discriminate|]. left. split; [exact Hf|exact Hg].
    - right; right. repeat split; auto. destruct Hc as [|Hc]; [now left|right].
      destruct Hp as [(-> & ->)|(w & -> & _)]; cbn; cbn in Hc; lia. }
  assert (Hpos : ko = true -> pos = []).
  { intros ->. apply (bind_kwonly ((y, true, d) :: r) pos kw e); [|exact Hb]. intros p [<-|Hp]; [reflexivity|now apply Hl]. }
  cbn [map pname fst] in Hi. cbn [bind_params] in Hb.
  destruct (String.eqb_spec x y) as [->|Hn].
  - destruct ko; [|destruct pos as [|w pos]].
    + destruct (get kw y) as [v|] eqn:Hg.
      * exists v, 0%nat, true, d. split; [reflexivity|]. right; left. now apply get_in_inv.
      * destruct d as [v|]; [|discriminate]. exists v, 0%nat, true, (Some v). split; [reflexivity|]. right; right.
        repeat split; [now left|]. intros Hc. apply in_map_iff in Hc. destruct Hc as ([z w] & <- & Hc).
        cbn in Hg. rewrite (get_in _ _ _ Hk Hc) in Hg. discriminate.
    + destruct (get kw y) as [v|] eqn:Hg.
      * exists v, 0%nat, false, d. split; [reflexivity|]. right; left. now apply get_in_inv.
      * destruct d as [v|]; [|discriminate]. exists v, 0%nat, false, (Some v). split; [reflexivity|]. right; right.
        repeat split; [right; cbn; lia|]. intros Hc. apply in_map_iff in Hc. destruct Hc as ([z w] & <- & Hc).
        cbn in Hg. rewrite (get_in _ _ _ Hk Hc) in Hg. discriminate.
    + exists w, 0%nat, false, d. split; [reflexivity|]. left. split; reflexivity.
  - destruct Hi as [Hi|Hi]; [congruence|].
    destruct ko; [|destruct pos as [|w pos]].
    + pose proof (Hpos eq_refl) as ->.
      destruct (get kw y) as [u|]; [|destruct d as [u|]; [|discriminate]];
        (destruct (bind_params r [] kw) as [e'|] eqn:He; [|discriminate];
         destruct (IH [] kw e' x He Hlr Hr Hk Hi) as [v Hv]; exists v; apply (Hshift []); auto).
    + destruct (get kw y) as [u|]; [|destruct d as [u|]; [|discriminate]];
        (destruct (bind_params r [] kw) as [e'|] eqn:He; [|discriminate];
         destruct (IH [] kw e' x He Hlr Hr Hk Hi) as [v Hv]; exists v; apply (Hshift []); auto).
    + destruct (has kw y); [discriminate|].
      destruct (bind_params r pos kw) as [e'|] eqn:He; [|discriminate].
      destruct (IH pos kw e' x He Hlr Hr Hk Hi) as [v Hv]. exists v. apply (Hshift pos); [right; now exists w|exact Hv].
Qed.

Lemma construct_binds k pos kw o : construct k pos kw = Ok o -> exists e, bind_args (varkw k) (sig_of k) pos kw = Ok e.
Proof.
  intros Hc. destruct k; cbn [construct] in Hc; cbn [varkw sig_of];
    match type of Hc with ?f _ _ = _ => unfold f in Hc end;
    match type of Hc with Base.bind ?r _ = _ => destruct r as [e|]; [exists e; reflexivity|discriminate] end.
Qed.

(** eos is taken for biased_iw. *)
Lemma rao_eos pos kw o v : NoDup (map fst kw) -> construct KRao pos kw = Ok o -> given (sig_of KRao) pos kw "eos" v ->
  reads o ["eos"] VNone /\ reads o ["biased_iw"] v.
Proof.
  intros Hk Hc Hv. destruct (construct_binds _ _ _ _ Hc) as [e He].
  pose proof (the_given KRao pos kw e "eos" v Hk He Hv) as Hx.
  cbn [construct] in Hc. unfold init_rao in Hc. cbn [varkw sig_of] in He. rewrite He in Hc. cbn [Base.bind] in Hc.
  cbn -[py_lt] in Hc. repeat step. split; apply read_reads; cbn; [reflexivity|now rewrite Hx].
Qed.

Lemma mapo_eos pos kw o v : NoDup (map fst kw) -> construct KMapo pos kw = Ok o -> given (sig_of KMapo) pos kw "eos" v ->
  reads o ["eos"] VNone /\ reads o ["biased_iw"] v.
Proof.
  intros Hk Hc Hv. destruct (construct_binds _ _ _ _ Hc) as [e He].
  pose proof (the_given KMapo pos kw e "eos" v Hk He Hv) as Hx.
  cbn [construct] in Hc. unfold init_mapo in Hc. cbn [varkw sig_of] in He. rewrite He in Hc. cbn [Base.bind] in Hc.
  cbn -[py_lt py_add] in Hc. repeat step. split; apply read_reads; cbn; [reflexivity|now rewrite Hx].
Qed.

Lemma mapo_k pos kw o z : NoDup (map fst kw) -> construct KMapo pos kw = Ok o -> given (sig_of KMapo) pos kw "buffer_size" (VInt z) ->
  reads o ["k"] (VInt (z + 1)) /\ reads o ["buffer"] VNone.
Proof.
  intros Hk Hc Hv. destruct (construct_binds _ _ _ _ Hc) as [e He].
  pose proof (the_given KMapo pos kw e _ _ Hk He Hv) as Hx.
  cbn [construct] in Hc. unfold init_mapo in Hc. cbn [varkw sig_of] in He. rewrite He in Hc. cbn [Base.bind] in Hc.
  rewrite Hx in Hc. cbn -[py_lt] in Hc. repeat step. split; apply read_reads; reflexivity.
Qed.

Lemma sum_k pos kw o a b : NoDup (map fst kw) -> construct KSumAndSample pos kw = Ok o ->
  given (sig_of KSumAndSample) pos kw "sum_size" (VInt a) -> given (sig_of KSumAndSample) pos kw "sample_size" (VInt b) ->
  reads o ["k"] (VInt (a + b)).
Proof.
  intros Hk Hc Hv Hw. destruct (construct_binds _ _ _ _ Hc) as [e He].
  pose proof (the_given KSumAndSample pos kw e _ _ Hk He Hv) as Hx.
  pose proof (the_given KSumAndSample pos kw e _ _ Hk He Hw) as Hy.
  cbn [construct] in Hc. unfold init_sum_and_sample in Hc. cbn [varkw sig_of] in He. rewrite He in Hc. cbn [Base.bind] in Hc.
  rewrite Hx, Hy in Hc. cbn -[py_lt] in Hc. repeat step. apply read_reads; reflexivity.
Qed.

(** Lost settings: calls that differ in them only make the same object. *)
Lemma lost_settings k pos kw pos' kw' o o' : In k [KGumbelWOR; KUnorderedGumbel; KSumAndSample] ->
  NoDup (map fst kw) -> NoDup (map fst kw') -> construct k pos kw = Ok o -> construct k pos' kw' = Ok o' ->
  (forall x v, ~ In x (lost k) -> given (sig_of k) pos kw x v -> given (sig_of k) pos' kw' x v) -> o = o'.
Proof.
  intros Hin Hk Hk' Hc Hc' Hsame.
  destruct (construct_binds _ _ _ _ Hc) as [e He]. destruct (construct_binds _ _ _ _ Hc') as [e' He'].
  destruct (sig_ok k) as (Hl & Hs).
  assert (Hthe : forall x, In x (map pname (sig_of k)) -> ~ In x (lost k) -> the e x = the e' x).
  { intros x Hx Hn.
    assert (Hb : bind_params (sig_of k) pos kw = Ok e) by (unfold bind_args in He; destruct (_ || _); [exact He|discriminate]).
    destruct (bind_gives _ _ _ _ x Hb Hl Hs Hk Hx) as [v Hv].
    rewrite (the_given _ _ _ _ _ _ Hk He Hv). symmetry. exact (the_given _ _ _ _ _ _ Hk' He' (Hsame _ _ Hn Hv)). }
  assert (Hq : forall x, existsb (String.eqb x) (map pname (sig_of k)) = true -> existsb (String.eqb x) (lost k) = false -> the e x = the e' x).
  { intros x Hx Hn. apply Hthe.
    - apply existsb_exists in Hx. destruct Hx as (y & Hy & Ey). apply String.eqb_eq in Ey. now subst.
    - intros Hi. rewrite <- not_true_iff_false in Hn. apply Hn. apply existsb_exists. exists x. split; [exact Hi|apply String.eqb_refl]. }
  clear Hthe Hsame.
  destruct Hin as [<-|[<-|[<-|[]]]]; cbn [construct] in Hc, Hc'; cbn [varkw sig_of] in He, He'.
  - unfold init_gumbel_wor in Hc, Hc'. rewrite He in Hc. rewrite He' in Hc'. cbn -[py_lt] in Hc, Hc'.
    rewrite (Hq "plate_name" eq_refl eq_refl), (Hq "k" eq_refl eq_refl), (Hq "eos" eq_refl eq_refl), (Hq "initial_temperature" eq_refl eq_refl) in Hc.
    rewrite Hc in Hc'. now injection Hc'.
  - unfold init_unordered_gumbel in Hc, Hc'. rewrite He in Hc. rewrite He' in Hc'. cbn -[py_lt init_method] in Hc, Hc'.
    rewrite (Hq "plate_name" eq_refl eq_refl), (Hq "k" eq_refl eq_refl), (Hq "eos" eq_refl eq_refl), (Hq "initial_temperature" eq_refl eq_refl) in Hc.
    rewrite Hc in Hc'. now injection Hc'.
  - unfold init_sum_and_sample in Hc, Hc'. rewrite He in Hc. rewrite He' in Hc'. cbn -[py_lt py_add] in Hc, Hc'.
    rewrite (Hq "plate_name" eq_refl eq_refl), (Hq "sum_size" eq_refl eq_refl), (Hq "eos" eq_refl eq_refl), (Hq "sample_size" eq_refl eq_refl) in Hc.
    rewrite Hc in Hc'. now injection Hc'.
Qed.

(** Infer: the score function it uses has no baseline. *)
Lemma score_plain a b c o : init_score [a; b; c] [] = Ok o -> the o "baseline_factory" = VNone.
Proof.
  unfold init_score. cbn -[or_montecarlo init_method]. intros H. repeat step. reflexivity.
Qed.

Lemma infer_no_baseline rs rx pos kw o : init_infer rs rx pos kw = Ok o -> infer_baseline o = VNone.
Proof.
  unfold init_infer. intros H. step. cbn zeta in H.
  match type of H with Base.bind ?r _ = _ => destruct r eqn:Em; [|discriminate]; cbn [Base.bind] in H end.
  match type of H with Base.bind ?r _ = _ => destruct r eqn:Eo; [|discriminate]; cbn [Base.bind] in H end.
  match type of H with Base.bind ?r _ = _ => destruct r eqn:Es; [|discriminate]; cbn [Base.bind] in H end.
  injection H as <-. unfold infer_baseline. cbn. exact (score_plain _ _ _ _ Es).
Qed.

Lemma score_named a b c s o : init_score [a; b; c] [("baseline_factory", VStr s)] = Ok o ->
  (s = "moving_average" -> get o "baseline_factory" = Some (VObj "MovingAverageBaseline" [])) /\
  (s = "batch_average" -> get o "baseline_factory" = Some (VObj "BatchAverageBaseline" [])).
Proof.
  unfold init_score. intros H. split; intros ->; cbn -[or_montecarlo init_method] in H; repeat step; [reflexivity|].
  cbn -[or_montecarlo init_method py_lt] in *.
  match goal with H : match get ?l ?x with _ => _ end = Ok _ |- _ => destruct (get l x); [|discriminate]; repeat step end. reflexivity.
Qed.

Definition sig_ok_infer : kw_last sig_infer /\ NoDup (map pname sig_infer).
Proof.
  split; [cbn; repeat split; intros; discriminate|cbn; repeat (constructor; [cbn; intuition discriminate|]); constructor].
Qed.

Lemma infer_chosen rs rx pos kw o n : NoDup (map fst kw) -> init_infer rs rx pos kw = Ok o -> given sig_infer pos kw "n_samples" n ->
  exists m, get o "_method" = Some m /\
    (rs = true -> exists a, m = VObj "Reparameterization" a) /\
    (rs = false -> rx = true -> exists a, m = VObj "GumbelSoftmax" a) /\
    (rs = false -> rx = false -> exists a, m = VObj "ScoreFunction" a /\
       get a "baseline_factory" = Some (VObj (if py_eq n (VInt 1) then "MovingAverageBaseline" else "BatchAverageBaseline") [])).
Proof.
  unfold init_infer. intros Hk H Hn. 
  destruct (bind_args false sig_infer pos kw) as [e|] eqn:He; [|discriminate]. cbn [Base.bind] in H. cbn zeta in H.
  assert (Hx : the e "n_samples" = n) by (destruct sig_ok_infer; eapply args_given; eauto).
  match type of H with Base.bind ?r _ = _ => destruct r as [m|] eqn:Em; [|discriminate]; cbn [Base.bind] in H end.
  match type of H with Base.bind ?r _ = _ => destruct r eqn:Eo; [|discriminate]; cbn [Base.bind] in H end.
  match type of H with Base.bind ?r _ = _ => destruct r eqn:Es; [|discriminate]; cbn [Base.bind] in H end.
  injection H as <-. exists m. split; [reflexivity|].
  split; [|split]; intros; subst; cbv iota in Em.
  - match type of Em with Base.bind ?r _ = _ => destruct r as [q|]; [|discriminate]; cbn [Base.bind] in Em end.
    injection Em as <-. now exists q.
  - match type of Em with Base.bind ?r _ = _ => destruct r as [q|]; [|discriminate]; cbn [Base.bind] in Em end.
    injection Em as <-. now exists q.
  - match type of Em with Base.bind ?r _ = _ => destruct r as [q|] eqn:Eq; [|discriminate]; cbn [Base.bind] in Em end.
    injection Em as <-. exists q. split; [reflexivity|]. apply score_named in Eq. destruct Eq as (E1 & E2).
    destruct (py_eq (the e "n_samples") (VInt 1)); [now apply E1|now apply E2].
Qed.

(** ScoreFunction's baselines. *)
Lemma py_lt_num a b : py_lt a b = Ok true -> exists x y, num a = Some x /\ num b = Some y /\ (x < y)%Q.
Proof.
  unfold py_lt. destruct (num a) as [x|], (num b) as [y|]; try discriminate. intros H. injection H as H.
  exists x, y. repeat split. apply negb_true_iff in H. apply Qnot_le_lt. intros Hle. apply Qle_bool_iff in Hle. congruence.
Qed.

Lemma score_names pos kw o s : NoDup (map fst kw) -> construct KScore pos kw = Ok o ->
  given (sig_of KScore) pos kw "baseline_factory" (VStr s) ->
  (s = "moving_average" /\ exists a, get o "baseline_factory" = Some (VObj "MovingAverageBaseline" a) /\
     forall x v, In (x, v) a <-> In (x, v) kw /\ ~ In x ["plate_name"; "sampling_method"; "n_samples"; "baseline_factory"]) \/
  (s = "batch_average" /\ get o "baseline_factory" = Some (VObj "BatchAverageBaseline" []) /\
     exists n q, reads o ["sampling_method"; "n_samples"] n /\ num n = Some q /\ (1 < q)%Q) \/
  ((s = "none" \/ s = "None") /\ get o "baseline_factory" = Some VNone).
Proof.
  intros Hk Hc Hv. destruct (construct_binds _ _ _ _ Hc) as [e He].
  pose proof (the_given KScore pos kw e _ _ Hk He Hv) as Hx.
  cbn [construct] in Hc. unfold init_score in Hc. cbn [varkw sig_of] in He. rewrite He in Hc. cbn [Base.bind] in Hc.
  rewrite Hx in Hc. clear He Hx Hv.
  destruct (or_montecarlo _ _ _) as [m|] eqn:Em; [|discriminate]. cbn [Base.bind] in Hc.
  destruct (init_method _ _) as [o'|] eqn:Eo; [|discriminate]. cbn [Base.bind] in Hc.
  destruct (String.eqb_spec s "moving_average") as [->|_].
  { left. split; [reflexivity|]. cbn [Base.bind] in Hc. injection Hc as <-. eexists. split; [reflexivity|].
    intros x v. unfold rest_kw. rewrite filter_In, negb_true_iff. cbn [fst]. split; intros (H1 & H2); (split; [exact H1|]).
    - intros Hi. cbn in Hi. destruct Hi as [<-|[<-|[<-|[<-|[]]]]]; discriminate H2.
    - apply not_true_iff_false. intros Hi. apply H2. unfold known in Hi. apply existsb_exists in Hi. destruct Hi as (p & Hp & Ep). apply String.eqb_eq in Ep. subst x.
      cbn in Hp. destruct Hp as [<-|[<-|[<-|[<-|[]]]]]; cbn; tauto. }
  destruct (String.eqb_spec s "batch_average") as [->|_].
  { right; left. split; [reflexivity|]. destruct (get (attrs_of m) "n_samples") as [n|] eqn:En; [|discriminate].
    destruct (py_lt (VInt 1) n) as [[|]|] eqn:El; cbn [Base.bind] in Hc; try discriminate. injection Hc as <-.
    split; [reflexivity|]. destruct (py_lt_num _ _ El) as (x & y & Hnx & Hny & Hlt). exists n, y.
    split; [|split; [exact Hny|]].
    - destruct (method_attrs _ _ _ Eo) as (Hm & _). apply read_reads. cbn. rewrite Hm.
      destruct m; cbn in En; try discriminate. exact En.
    - cbn in Hnx. injection Hnx as <-. exact Hlt. }
  right; right. destruct (String.eqb_spec s "none") as [->|_]; [|destruct (String.eqb_spec s "None") as [->|_]]; cbn in Hc; try discriminate;
    injection Hc as <-; split; try reflexivity; tauto.
Qed.

(** Calls that fit are accepted. *)
Lemma has_in_inv kw x : has kw x = true -> In x (map fst kw).
Proof.
  unfold has. intros H. destruct (get kw x) as [v|] eqn:E; [|discriminate]. apply get_in_inv in E. apply (in_map fst) in E. exact E.
Qed.

Lemma get_some kw x : In x (map fst kw) -> exists v, get kw x = Some v.
Proof.
  induction kw as [|[y w] r IH]; [contradiction|]. cbn. destruct (String.eqb_spec x y) as [->|Hn]; [now exists w|].
  intros [He|Hi]; [congruence|]. now apply IH.
Qed.

Lemma bind_accepts s : forall pos kw, kw_last s -> (List.length pos <= positional s)%nat ->
  (forall i x ko d, nth_error s i = Some (x, ko, d) -> (i < List.length pos)%nat -> ~ In x (map fst kw)) ->
  (forall i x ko, nth_error s i = Some (x, ko, None) -> (ko = false /\ (i < List.length pos)%nat) \/ In x (map fst kw)) ->
  exists e, bind_params s pos kw = Ok e.
Proof.
  induction s as [|[[y ko] d] r IH]; intros pos kw Hkl Hp Ho Ha.
  - destruct pos; [now exists []|cbn in Hp; lia].
  - destruct Hkl as (Hl & Hlr). cbn [bind_params].
    assert (Hkw : forall i x ko', nth_error r i = Some (x, ko', None) -> pos = [] -> In x (map fst kw)).
    { intros i x ko' Hi ->. destruct (Ha (S i) x ko' Hi) as [(_ & Hc)|Hc]; [cbn in Hc; lia|exact Hc]. }
    assert (Hnil : pos = [] -> exists e, bind_params r pos kw = Ok e).
    { intros ->. apply IH; [exact Hlr|cbn; lia|intros; cbn in *; lia|]. intros i x ko' Hi. right. now apply (Hkw i x ko' Hi). }
    destruct ko.
    + assert (Hz : pos = []).
      { destruct pos as [|w pos]; [reflexivity|]. exfalso.
        assert (Hf : filter (fun p : param => negb (snd (fst p))) r = []).
        { clear - Hl. specialize (Hl eq_refl). induction r as [|p r IHr]; [reflexivity|]. cbn. rewrite (Hl p (or_introl eq_refl)). cbn.
          apply IHr. intros q Hq. apply Hl. now right. }
        change (positional ((y, true, d) :: r)) with (List.length (filter (fun p : param => negb (snd (fst p))) r)) in Hp. rewrite Hf in Hp. cbn in Hp. lia. }
      destruct (Hnil Hz) as [e He]. rewrite He.
      destruct (get kw y) as [v|] eqn:Hg; [eexists; reflexivity|]. destruct d as [v|]; [eexists; reflexivity|].
      destruct (Ha 0%nat y true eq_refl) as [(Hc & _)|Hc]; [discriminate|]. destruct (get_some _ _ Hc) as [v Hv]. congruence.
    + destruct pos as [|w pos].
      * destruct (Hnil eq_refl) as [e He]. rewrite He.
        destruct (get kw y) as [v|] eqn:Hg; [eexists; reflexivity|]. destruct d as [v|]; [eexists; reflexivity|].
        destruct (Ha 0%nat y false eq_refl) as [(_ & Hc)|Hc]; [cbn in Hc; lia|]. destruct (get_some _ _ Hc) as [v Hv]. congruence.
      * assert (Hno : has kw y = false).
        { apply not_true_iff_false. intros Hc. apply has_in_inv in Hc. apply (Ho 0%nat y false d eq_refl); [cbn; lia|exact Hc]. }
        rewrite Hno. destruct (IH pos kw Hlr) as [e He].
        -- unfold positional in *. cbn in Hp. lia.
        -- intros i x ko' d' Hi Hlt. apply (Ho (S i) x ko' d' Hi). cbn. lia.
        -- intros i x ko' Hi. destruct (Ha (S i) x ko' Hi) as [(Hf & Hc)|Hc]; [left; split; [exact Hf|cbn in Hc; lia]|now right].
        -- rewrite He. eexists. reflexivity.
Qed.

Lemma fits_binds k pos kw : fits (sig_of k) pos kw -> exists e, bind_args (varkw k) (sig_of k) pos kw = Ok e.
Proof.
  intros [Hp Hkn Ho Ha]. destruct (sig_ok k) as (Hl & _). destruct (bind_accepts _ _ _ Hl Hp Ho Ha) as [e He].
  exists e. unfold bind_args. rewrite He.
  replace (forallb _ kw) with true; [now rewrite orb_true_r|]. symmetry. apply forallb_forall. intros [x v] Hx.
  destruct (Hkn x (in_map fst _ _ Hx)) as (ko & d & Hin). unfold known. apply existsb_exists. exists (x, ko, d).
  split; [exact Hin|]. cbn. apply String.eqb_refl.
Qed.

Lemma py_lt_int a b : py_lt (VInt a) (VInt b) = Ok (a <? b)%Z.
Proof.
  unfold py_lt. cbn. f_equal. destruct (Z.ltb_spec a b) as [H|H].
  - apply negb_true_iff, not_true_iff_false. intros Hc. apply Qle_bool_iff in Hc. rewrite <- Zle_Qle in Hc. lia.
  - apply negb_false_iff, Qle_bool_iff. rewrite <- Zle_Qle. lia.
Qed.

(** Decoders without replacement take two samples or more. *)
Definition wor_class (k : kls) : Prop := In k [KSwor; KUnorderedSet; KGumbelWOR; KRao].

Lemma wor_accepts k pos kw z : wor_class k -> NoDup (map fst kw) -> fits (sig_of k) pos kw -> given (sig_of k) pos kw "k" (VInt z) ->
  ((2 <= z)%Z -> exists o, construct k pos kw = Ok o) /\ ((z < 2)%Z -> construct k pos kw = Err ValueError).
Proof.
  intros Hw Hk Hf Hg. destruct (fits_binds _ _ _ Hf) as [e He]. pose proof (the_given _ _ _ _ _ _ Hk He Hg) as Hx.
  destruct Hw as [<-|[<-|[<-|[<-|[]]]]]; cbn [varkw sig_of] in He; cbn [construct];
    unfold init_swor, init_unordered_set, init_gumbel_wor, init_rao; rewrite He; cbn -[py_lt];
    rewrite Hx, py_lt_int; split; intros Hz; destruct (Z.ltb_spec z 2); try lia; cbn; try reflexivity; eexists; reflexivity.
Qed.

Lemma plain_accepts k pos kw : In k [KMonteCarlo; KEnumerate; KMCDecoder] -> fits (sig_of k) pos kw -> exists o, construct k pos kw = Ok o.
Proof.
  intros Hw Hf. destruct (fits_binds _ _ _ Hf) as [e He].
  destruct Hw as [<-|[<-|[<-|[]]]]; cbn [varkw sig_of] in He; cbn [construct];
    unfold init_montecarlo, init_enumerate, init_seq; rewrite He; eexists; reflexivity.
Qed.

Lemma method_accepts k pos kw s : In k [KScore; KReparam; KARM; KDisARM] -> NoDup (map fst kw) -> fits (sig_of k) pos kw ->
  given (sig_of k) pos kw "plate_name" (VStr s) -> given (sig_of k) pos kw "sampling_method" VNone ->
  (k = KScore -> given (sig_of k) pos kw "baseline_factory" VNone) -> exists o, construct k pos kw = Ok o.
Proof.
  intros Hw Hk Hf Hs Hm Hb. destruct (fits_binds _ _ _ Hf) as [e He].
  pose proof (the_given _ _ _ _ _ _ Hk He Hs) as Hx. pose proof (the_given _ _ _ _ _ _ Hk He Hm) as Hy.
  destruct Hw as [<-|[<-|[<-|[<-|[]]]]].
  - pose proof (the_given _ _ _ _ _ _ Hk He (Hb eq_refl)) as Hz. cbn [varkw sig_of] in He; cbn [construct]. unfold init_score. rewrite He. cbn.
    rewrite Hx, Hy, Hz. cbn. rewrite String.eqb_refl. cbn. eexists. reflexivity.
  - cbn [varkw sig_of] in He; cbn [construct]. unfold init_reparam. rewrite He. cbn. rewrite Hx, Hy. cbn. rewrite String.eqb_refl. eexists. reflexivity.
  - cbn [varkw sig_of] in He; cbn [construct]. unfold init_arm. rewrite He. cbn. rewrite Hx, Hy. cbn. rewrite String.eqb_refl. eexists. reflexivity.
  - cbn [varkw sig_of] in He; cbn [construct]. unfold init_disarm. rewrite He. cbn. rewrite Hx, Hy. cbn. rewrite String.eqb_refl. eexists. reflexivity.
Qed.

Lemma seq_method_accepts k pos kw s z : In k [KScoreWOR; KUnordered; KUnorderedGumbel] -> NoDup (map fst kw) -> fits (sig_of k) pos kw ->
  given (sig_of k) pos kw "plate_name" (VStr s) -> given (sig_of k) pos kw "k" (VInt z) ->
  ((2 <= z)%Z -> exists o, construct k pos kw = Ok o) /\ ((z < 2)%Z -> construct k pos kw = Err ValueError).
Proof.
  intros Hw Hk Hf Hs Hg. destruct (fits_binds _ _ _ Hf) as [e He].
  pose proof (the_given _ _ _ _ _ _ Hk He Hs) as Hx. pose proof (the_given _ _ _ _ _ _ Hk He Hg) as Hy.
  destruct Hw as [<-|[<-|[<-|[]]]]; cbn [varkw sig_of] in He; cbn [construct];
    unfold init_score_wor, init_unordered, init_unordered_gumbel; rewrite He; cbn -[py_lt init_method];
    rewrite Hx, Hy, py_lt_int; split; intros Hz; destruct (Z.ltb_spec z 2); try lia; cbn; try reflexivity; rewrite String.eqb_refl; eexists; reflexivity.
Qed.
