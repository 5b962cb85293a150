(** C96: every estimator samples and weights with its own functions. *)
From Coq Require Import List String ZArith QArith Bool Arith Lia.
From Verif Require Import Base Construct SpecConstruct SpecInstall SharedSampler SpecSharedSampler ConstructProofs InstallProofs SharedSamplerProofs.
Import ListNotations.
Open Scope string_scope.
Open Scope list_scope.
Open Scope nat_scope.

(** C96, the part that holds: after any number of constructions, failed ones included, on sampling methods of their own, the sampling
    method of each estimator that was constructed has the functions of that estimator; everything else of it is as it was. *)
Theorem C96_separate_partial : forall h cs i c o, (forall c, In c cs -> proper h c) -> NoDup (map c_ref cs) ->
  nth_error cs i = Some c -> nth_error (snd (news h cs)) i = Some (Ok o) ->
  exists cls a0 a, nth_error h (c_ref c) = Some (cls, a0) /\ nth_error (fst (news h cs)) (c_ref c) = Some (cls, a) /\
    get o "sampling_method" = Some (VObj cls a) /\
    (forall x f, In (x, f) (installed (c_cls c)) -> get a x = Some (VFun f)) /\
    (forall x, ~ In x (map fst (installed (c_cls c))) -> get a x = get a0 x).
Proof. intros h cs i c o. exact (separate cs h i c o). Qed.
Print Assumptions C96_separate_partial.

(** No construction changes a sampling method that none of the calls was given. *)
Theorem C96_untouched : forall h cs r, ~ In r (map c_ref cs) -> nth_error (fst (news h cs)) r = nth_error h r.
Proof. intros h cs r. exact (news_frame cs h r). Qed.
Print Assumptions C96_untouched.

(** What is not true: of two estimators on one sampling method the first samples and weights with the functions of the second, ... *)
Theorem C96_taken_over_refuted : forall h c1 c2 cs o1 o2 os x f1 f2, proper h c1 -> proper h c2 -> c_ref c1 = c_ref c2 -> ~ In (c_ref c1) (map c_ref cs) ->
  snd (news h (c1 :: c2 :: cs)) = Ok o1 :: Ok o2 :: os -> In (x, f1) (installed (c_cls c1)) -> In (x, f2) (installed (c_cls c2)) -> f1 <> f2 ->
  let h' := fst (news h (c1 :: c2 :: cs)) in uses h' c1 x f2 /\ ~ uses h' c1 x f1.
Proof.
  intros h c1 c2 cs o1 o2 os x f1 f2 H1 H2 Er Hn Ho I1 I2 Hf h'. pose proof (proj1 (shared h c1 c2 cs o1 o2 os x H1 H2 Er Hn Ho) f2 I2) as U.
  split; [exact U|]. intros (cls & a & E & G). destruct U as (cls' & a' & E' & G'). unfold h' in E. rewrite E in E'. injection E' as <- <-. congruence.
Qed.
Print Assumptions C96_taken_over_refuted.

(** ... and the second with those functions of the first that it does not set itself. *)
Theorem C96_left_over_refuted : forall h c1 c2 cs o1 o2 os x f1, proper h c1 -> proper h c2 -> c_ref c1 = c_ref c2 -> ~ In (c_ref c1) (map c_ref cs) ->
  snd (news h (c1 :: c2 :: cs)) = Ok o1 :: Ok o2 :: os -> In (x, f1) (installed (c_cls c1)) -> ~ In x (map fst (installed (c_cls c2))) ->
  uses (fst (news h (c1 :: c2 :: cs))) c2 x f1.
Proof. intros h c1 c2 cs o1 o2 os x f1 H1 H2 Er Hn Ho I1 I2. exact (proj2 (shared h c1 c2 cs o1 o2 os x H1 H2 Er Hn Ho) f1 I1 I2). Qed.
Print Assumptions C96_left_over_refuted.

(** Nor is a sampling method as it was when the construction is rejected because it is for another plate. *)
Theorem C96_rejected_refuted : forall h c cls a s s' x f, proper h c -> nth_error h (c_ref c) = Some (cls, a) ->
  fits (sig_of (c_cls c)) (c_pos c) (("sampling_method", VObj cls a) :: c_kw c) ->
  given (sig_of (c_cls c)) (c_pos c) (("sampling_method", VObj cls a) :: c_kw c) "plate_name" (VStr s) ->
  get a "plate_name" = Some (VStr s') -> s <> s' -> In (x, f) (installed (c_cls c)) ->
  snd (new h c) = Err ValueError /\ uses (fst (new h c)) c x f.
Proof. exact rejected. Qed.
Print Assumptions C96_rejected_refuted.

(** A call with a keyword that the estimator does not know leaves every sampling method alone. *)
Theorem C96_unknown_keyword : forall h c y v, c_cls c <> KScore -> In (y, v) (c_kw c) -> ~ In y (map (fun p => fst (fst p)) (sig_of (c_cls c))) -> fst (new h c) = h.
Proof. exact unknown_kw. Qed.
Print Assumptions C96_unknown_keyword.

(** ARM and ScoreFunction on two sampling methods, and then on one: ScoreFunction draws the antithetic samples of ARM. *)
Definition w_obj (p : string) : string * env := ("MonteCarlo", [("n_samples", VInt 4); ("plate_name", VStr p)]).
Definition w_arm (r : nat) (p : string) : call := mkCall KARM r [VStr p] [].
Definition w_disarm (r : nat) (p : string) : call := mkCall KDisARM r [VStr p] [].
Definition w_score (r : nat) (p : string) : call := mkCall KScore r [VStr p] [("baseline_factory", VStr "batch_average")].
Lemma w_proper h r p : r < List.length h -> proper h (w_arm r p) /\ proper h (w_score r p) /\ proper h (w_disarm r p).
Proof. intros H. unfold proper; cbn; repeat split; auto 12; repeat constructor; cbn; intuition discriminate. Qed.
Example C96_witness : let h := [w_obj "x"; w_obj "x"] in
  (forall r, r < 2 -> proper h (w_arm r "x") /\ proper h (w_score r "x") /\ proper h (w_disarm r "x")) /\
  (exists o1 o2, snd (news h [w_arm 0 "x"; w_score 1 "x"]) = [Ok o1; Ok o2] /\ NoDup (map c_ref [w_arm 0 "x"; w_score 1 "x"])) /\
  (exists o1 o2, snd (news h [w_arm 0 "x"; w_score 0 "x"]) = [Ok o1; Ok o2] /\ uses (fst (news h [w_arm 0 "x"; w_score 0 "x"])) (w_score 0 "x") "mc_sample" "sample_arm") /\
  (exists o1 o2, snd (news h [w_arm 0 "x"; w_disarm 0 "x"]) = [Ok o1; Ok o2] /\ uses (fst (news h [w_arm 0 "x"; w_disarm 0 "x"])) (w_arm 0 "x") "mc_sample" "sample_disarm") /\
  (snd (new h (w_arm 0 "y")) = Err ValueError /\ uses (fst (new h (w_arm 0 "y"))) (w_arm 0 "y") "mc_sample" "sample_arm").
Proof.
  cbv zeta. split; [intros r Hr; now apply w_proper|]. split.
  { eexists _, _. split; [vm_compute; reflexivity|]. cbn. repeat constructor; cbn; intuition discriminate. }
  split; [eexists _, _; split; [vm_compute; reflexivity|eexists _, _; split; vm_compute; reflexivity]|].
  split; [eexists _, _; split; [vm_compute; reflexivity|eexists _, _; split; vm_compute; reflexivity]|].
  split; [vm_compute; reflexivity|eexists _, _; split; vm_compute; reflexivity].
Qed.
