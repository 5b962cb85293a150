(** Proofs about what the constructors of estimators do to sampling methods. *)
From Coq Require Import List String ZArith QArith Bool Lia.
From Verif Require Import Base Construct SpecConstruct SpecInstall ConstructProofs.
Import ListNotations.
Open Scope string_scope.
Open Scope list_scope.

Lemma or_mc_given c l p n : or_montecarlo (VObj c l) p n = Ok (VObj c l).
Proof. reflexivity. Qed.

Lemma or_mc_obj m p n r f x r' : or_montecarlo m p n = Ok r -> set_in x f r = Ok r' -> exists c l, r = VObj c l /\ r' = VObj c ((x, f) :: l).
Proof. intros _. destruct r; try discriminate. cbn. intros H. injection H as <-. eauto. Qed.

(** Every estimator with a sampling method makes its object from what [or_montecarlo] gives. *)
Definition sampler_of (e : env) (l : list (string * string)) (s : val) : Prop :=
  exists m c a, or_montecarlo (the e "sampling_method") (the e "plate_name") (the e "n_samples") = Ok m /\ m = VObj c a /\
    s = VObj c (rev (map (fun p => (fst p, VFun (snd p))) l) ++ a).

Lemma made_with k pos kw o e : In k takes_sampler -> bind_args (varkw k) (sig_of k) pos kw = Ok e -> construct k pos kw = Ok o ->
  exists s, get o "sampling_method" = Some s /\ sampler_of e (installed k) s.
Proof.
  intros Hin He Hc. unfold sampler_of.
  repeat (destruct Hin as [<-|Hin]); [..|contradiction]; cbn [construct] in Hc; cbn [varkw sig_of] in He.
  - unfold init_score in Hc. rewrite He in Hc. cbn [Base.bind] in Hc. repeat step.
    destruct (method_attrs _ _ _ E0) as (A & _). eexists. split; [exact A|]. unfold init_method in E0. match type of E0 with match ?m with _ => _ end = _ => destruct m as [| | | | | |c l]; try discriminate end. eauto 10.
  - unfold init_reparam in Hc. rewrite He in Hc. cbn [Base.bind] in Hc. repeat step. destruct (or_mc_obj _ _ _ _ _ _ _ E E0) as (c & l & -> & ->).
    destruct (method_attrs _ _ _ Hc) as (A & _). eauto 10.
  - unfold init_gumbel_softmax, temperature_buffers, set_attr in Hc. rewrite He in Hc. cbn [Base.bind] in Hc. repeat step. destruct (or_mc_obj _ _ _ _ _ _ _ E E0) as (c & l & -> & ->).
    destruct (method_attrs _ _ _ E1) as (A & _). eexists. split; [cbn; exact A|]. eauto 10.
  - unfold init_entmax, temperature_buffers, set_attr in Hc. rewrite He in Hc. cbn [Base.bind] in Hc. repeat step; destruct (or_mc_obj _ _ _ _ _ _ _ E E0) as (c & l & -> & ->);
    destruct (method_attrs _ _ _ E1) as (A & _); (eexists; split; [cbn; exact A|]; eauto 10).
  - unfold init_sparsemax in Hc. rewrite He in Hc. cbn [Base.bind] in Hc. inner init_entmax Hc. unfold temperature_buffers, set_attr in Hc. repeat step; destruct (or_mc_obj _ _ _ _ _ _ _ E E0) as (c & l & -> & ->);
    destruct (method_attrs _ _ _ E1) as (A & _); (eexists; split; [cbn; exact A|]; cbn in E; eauto 10).
  - unfold init_arm in Hc. rewrite He in Hc. cbn [Base.bind] in Hc. repeat step. destruct (or_mc_obj _ _ _ _ _ _ _ E E0) as (c & l & -> & ->).
    cbn in E1. injection E1 as <-. destruct (method_attrs _ _ _ Hc) as (A & _). eauto 10.
  - unfold init_disarm in Hc. rewrite He in Hc. cbn [Base.bind] in Hc. repeat step. destruct (or_mc_obj _ _ _ _ _ _ _ E E0) as (c & l & -> & ->).
    destruct (method_attrs _ _ _ Hc) as (A & _). eauto 10.
  - unfold init_lax in Hc. rewrite He in Hc. cbn [Base.bind] in Hc. step. inner init_reparam E. repeat step.
    all: match goal with H1 : or_montecarlo _ _ _ = Ok ?r, H2 : set_in _ _ ?r = Ok _, H3 : init_method _ _ = Ok _ |- _ =>
      destruct (or_mc_obj _ _ _ _ _ _ _ H1 H2) as (c & l & -> & ->); destruct (method_attrs _ _ _ H3) as (A & _); cbn in H1 end;
      (eexists; split; [cbn; exact A|]; eauto 10).
  - unfold init_relax, set_attr in Hc. rewrite He in Hc. cbn [Base.bind] in Hc. repeat step.
    all: match goal with H1 : or_montecarlo _ _ _ = Ok ?r, H2 : set_in _ _ ?r = Ok ?r1, H4 : set_in _ _ ?r1 = Ok _, H3 : init_method _ _ = Ok _ |- _ =>
      destruct (or_mc_obj _ _ _ _ _ _ _ H1 H2) as (c & l & -> & ->); cbn in H4; injection H4 as <-; destruct (method_attrs _ _ _ H3) as (A & _) end;
      (eexists; split; [cbn; exact A|]; eauto 10).
Qed.

Lemma install k pos kw o : In k takes_sampler -> NoDup (map fst kw) -> construct k pos kw = Ok o ->
  exists c a, get o "sampling_method" = Some (VObj c a) /\
    (forall x f, In (x, f) (installed k) -> get a x = Some (VFun f)) /\
    (forall c0 a0, given (sig_of k) pos kw "sampling_method" (VObj c0 a0) -> c = c0 /\ forall x, ~ In x (map fst (installed k)) -> get a x = get a0 x).
Proof.
  intros Hin Hk Hc. destruct (construct_binds _ _ _ _ Hc) as [e He]. destruct (made_with _ _ _ _ _ Hin He Hc) as (s & Hs & m & c & a & Hm & -> & ->).
  exists c, (rev (map (fun p => (fst p, VFun (snd p))) (installed k)) ++ a). split; [exact Hs|]. split.
  - intros x f Hx. destruct k; cbn in Hx; repeat (destruct Hx as [Hx|Hx]; [injection Hx as <- <-; reflexivity|]); contradiction.
  - intros c0 a0 Hg. rewrite (the_given _ _ _ _ _ _ Hk He Hg) in Hm. cbn in Hm. injection Hm as <- <-. split; [reflexivity|].
    intros x Hx. assert (G : forall l, ~ In x (map fst l) -> get (l ++ a0) x = get a0 x).
    { induction l as [|[y w] l IH]; intros H; [reflexivity|]. cbn. cbn in H. destruct (String.eqb_spec x y) as [->|_]; [exfalso; apply H; now left|]. apply IH. tauto. }
    apply G. rewrite map_rev, map_map. intros Hi. apply in_rev in Hi. apply Hx. exact Hi.
Qed.

Lemma other_plate k pos kw s s' c a : In k takes_sampler -> NoDup (map fst kw) -> fits (sig_of k) pos kw ->
  given (sig_of k) pos kw "plate_name" (VStr s) -> given (sig_of k) pos kw "sampling_method" (VObj c a) -> get a "plate_name" = Some (VStr s') -> s <> s' ->
  construct k pos kw = Err ValueError.
Proof.
  intros Hin Hk Hf Hs Hm Ha Hne. destruct (fits_binds _ _ _ Hf) as [e He].
  pose proof (the_given _ _ _ _ _ _ Hk He Hs) as Hx. pose proof (the_given _ _ _ _ _ _ Hk He Hm) as Hy.
  assert (Hq : String.eqb s' s = false) by (apply String.eqb_neq; congruence).
  repeat (destruct Hin as [<-|Hin]); [..|contradiction]; cbn [varkw sig_of] in He; cbn [construct].
  all: unfold init_score, init_reparam, init_gumbel_softmax, init_entmax, init_sparsemax, init_arm, init_disarm, init_lax, init_relax; rewrite He; cbn; rewrite Hx, Hy; cbn; rewrite Ha; cbn; rewrite Hq; reflexivity.
Qed.

(** The control variates of RELAX, REBAR and LAX. *)
Lemma control k pos kw o v d : In k [KRELAX; KLAX] -> NoDup (map fst kw) -> construct k pos kw = Ok o ->
  given (sig_of k) pos kw "c_phi" v -> given (sig_of k) pos kw "in_dim" d ->
  get o "c_phi" = Some (if truthy v then v else VObj "Baseline" [("in_dim", d)]) /\ (truthy v = false -> d <> VNone).
Proof.
  intros Hin Hk Hc Hv Hd. destruct (construct_binds _ _ _ _ Hc) as [e He].
  pose proof (the_given _ _ _ _ _ _ Hk He Hv) as Hx. pose proof (the_given _ _ _ _ _ _ Hk He Hd) as Hy.
  destruct Hin as [<-|[<-|[]]]; cbn [construct] in Hc; cbn [varkw sig_of] in He.
  - unfold init_relax, set_attr in Hc. rewrite He in Hc. cbn [Base.bind] in Hc. rewrite Hx, Hy in Hc. repeat step.
    + split; [reflexivity|congruence].
    + split; [reflexivity|]. intros _ ->. discriminate.
  - unfold init_lax, set_attr in Hc. rewrite He in Hc. cbn [Base.bind] in Hc. rewrite Hx, Hy in Hc.
    destruct (init_reparam _ _); [|discriminate]. cbn [Base.bind] in Hc. destruct (truthy v).
    + cbn in Hc. injection Hc as <-. split; [reflexivity|discriminate].
    + destruct d; cbn in Hc; try discriminate; injection Hc as <-; (split; [reflexivity|discriminate]).
Qed.
Lemma rebar_control pos kw o v : NoDup (map fst kw) -> construct KREBAR pos kw = Ok o -> given (sig_of KREBAR) pos kw "c_phi" v ->
  get o "c_phi" = Some (if truthy v then v else VFun "zero") /\ get o "rebar" = Some (VBool true).
Proof.
  intros Hk Hc Hv. destruct (construct_binds _ _ _ _ Hc) as [e He]. pose proof (the_given _ _ _ _ _ _ Hk He Hv) as Hx.
  cbn [construct] in Hc; cbn [varkw sig_of] in He. unfold init_rebar in Hc. rewrite He in Hc. cbn [Base.bind] in Hc. rewrite Hx in Hc. cbn zeta in Hc.
  inner init_relax Hc. unfold set_attr in Hc. cbn [the get String.eqb Ascii.eqb Bool.eqb] in Hc.
  set (c := if truthy v then v else VFun "zero") in *. assert (T : truthy c = true) by (unfold c; destruct (truthy v) eqn:E; auto).
  destruct (or_montecarlo _ _ _) as [m|]; [|discriminate]. cbn [Base.bind] in Hc.
  destruct (set_in _ _ m) as [m1|]; [|discriminate]. cbn [Base.bind] in Hc.
  destruct (set_in _ _ m1) as [m2|]; [|discriminate]. cbn [Base.bind] in Hc.
  destruct (init_method _ m2) as [o'|]; [|discriminate]. cbn [Base.bind] in Hc.
  change (truthy (the _ "c_phi")) with (truthy c) in Hc. rewrite T in Hc. cbn in Hc. injection Hc as <-. split; reflexivity.
Qed.

(** Which function of the package entmax is used. *)
Lemma entmax_chosen pos kw o a d : NoDup (map fst kw) -> construct KEntmax pos kw = Ok o ->
  given (sig_of KEntmax) pos kw "alpha" a -> given (sig_of KEntmax) pos kw "adaptive" d ->
  exists f, get o "entmax" = Some (VFun f) /\
    (f = "entmax15" <-> truthy d = false /\ exists q, num a = Some q /\ q == 3 # 2) /\
    (f = "sparsemax" <-> truthy d = false /\ exists q, num a = Some q /\ q == 2) /\
    In f ["entmax15"; "sparsemax"; "entmax_bisect"].
Proof.
  intros Hk Hc Hv Hd. destruct (construct_binds _ _ _ _ Hc) as [e He].
  pose proof (the_given _ _ _ _ _ _ Hk He Hv) as Hx. pose proof (the_given _ _ _ _ _ _ Hk He Hd) as Hy.
  cbn [construct] in Hc; cbn [varkw sig_of] in He. unfold init_entmax, set_attr in Hc. rewrite He in Hc. cbn [Base.bind] in Hc. rewrite Hx, Hy in Hc.
  destruct (or_montecarlo _ _ _) as [m|]; [|discriminate]. cbn [Base.bind] in Hc.
  destruct (set_in _ _ m) as [m1|]; [|discriminate]. cbn [Base.bind] in Hc.
  destruct (init_method _ m1) as [o'|]; [|discriminate]. cbn [Base.bind] in Hc.
  destruct (temperature_buffers _ _) as [o1|]; [|discriminate]. cbn [Base.bind] in Hc. cbn zeta in Hc.
  match type of Hc with Base.bind ?r _ = _ => destruct r; [|discriminate] end. cbn [Base.bind] in Hc. injection Hc as <-.
  assert (P : forall r, py_eq a (VFloat r) = true <-> exists q, num a = Some q /\ q == r).
  { intros r. unfold py_eq. destruct a as [|b|z|q|s|s|c l]; cbn; try (split; [discriminate|intros (q' & H & _); discriminate]).
    all: rewrite Qeq_bool_iff; split; [intros H; eexists; split; [reflexivity|exact H]|intros (q' & H & H'); injection H as <-; exact H']. }
  assert (P1 := P (3 # 2)). assert (P2 := P 2). cbn [get]. rewrite String.eqb_refl. eexists. split; [reflexivity|].
  destruct (truthy d); cbn [negb andb].
  - split; [|split]; [split; [discriminate|intros (H & _); discriminate]..|cbn; tauto].
  - destruct (py_eq a (VFloat (3 # 2))) eqn:E1; [|destruct (py_eq a (VFloat 2)) eqn:E2].
    + split; [split; [intros _; split; [reflexivity|now apply P1]|reflexivity]|]. split; [|cbn; tauto]. split; [discriminate|].
      intros (_ & q & Hq & H2). destruct (proj1 P1 eq_refl) as (q' & Hq' & H1). rewrite Hq in Hq'. injection Hq' as <-. rewrite H2 in H1. discriminate.
    + split; [split; [discriminate|]|split; [split; [intros _; split; [reflexivity|now apply P2]|reflexivity]|cbn; tauto]].
      intros (_ & H). apply P1 in H. congruence.
    + split; [split; [discriminate|]|split; [split; [discriminate|]|cbn; tauto]]; intros (_ & H); [apply P1 in H|apply P2 in H]; congruence.
Qed.
Lemma sparsemax_chosen pos kw o : construct KSparsemax pos kw = Ok o -> get o "entmax" = Some (VFun "sparsemax") /\ get o "alpha" = Some (VFloat 2).
Proof.
  intros Hc. destruct (construct_binds _ _ _ _ Hc) as [e He]. cbn [construct] in Hc; cbn [varkw sig_of] in He. unfold init_sparsemax in Hc. rewrite He in Hc. cbn [Base.bind] in Hc.
  inner init_entmax Hc. unfold set_attr in Hc.
  destruct (or_montecarlo _ _ _) as [m|]; [|discriminate]. cbn [Base.bind] in Hc.
  destruct (set_in _ _ m) as [m1|]; [|discriminate]. cbn [Base.bind] in Hc.
  destruct (init_method _ m1) as [o'|]; [|discriminate]. cbn [Base.bind] in Hc.
  destruct (temperature_buffers _ _) as [o1|]; [|discriminate]. cbn in Hc. injection Hc as <-. split; reflexivity.
Qed.

(** SumAndSample takes one value or more in the sum and in the sample. *)
Lemma sum_sizes pos kw a b : NoDup (map fst kw) -> fits (sig_of KSumAndSample) pos kw ->
  given (sig_of KSumAndSample) pos kw "sum_size" (VInt a) -> given (sig_of KSumAndSample) pos kw "sample_size" (VInt b) ->
  ((1 <= a /\ 1 <= b)%Z -> exists o, construct KSumAndSample pos kw = Ok o) /\ ((a < 1 \/ b < 1)%Z -> construct KSumAndSample pos kw = Err ValueError).
Proof.
  intros Hk Hf Ha Hb. destruct (fits_binds _ _ _ Hf) as [e He].
  pose proof (the_given _ _ _ _ _ _ Hk He Ha) as Hx. pose proof (the_given _ _ _ _ _ _ Hk He Hb) as Hy.
  cbn [varkw sig_of] in He; cbn [construct]. unfold init_sum_and_sample. rewrite He. cbn -[py_lt py_add]. rewrite Hx, Hy. cbn -[py_lt].
  rewrite !py_lt_int. split; intros H.
  - destruct (Z.ltb_spec (a + b) 2); [lia|]. cbn. destruct (Z.ltb_spec a 1); [lia|]. destruct (Z.ltb_spec b 1); [lia|]. eexists. reflexivity.
  - destruct (Z.ltb_spec (a + b) 2); cbn; [reflexivity|]. destruct (Z.ltb_spec a 1); [reflexivity|]. destruct (Z.ltb_spec b 1); [reflexivity|lia].
Qed.
