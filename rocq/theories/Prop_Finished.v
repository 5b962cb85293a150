(** C89: whether all sequences have ended. *)
From Coq Require Import String List Arith Bool Lia.
From Verif Require Import Base Torch Plates Wrap SeqPlates Names Finished SpecTensor SpecWrap SpecFinished FinishedProofs.
Import ListNotations.
Open Scope string_scope.
Open Scope nat_scope.
Open Scope list_scope.

(** C89. After a variable without event dimensions, of which as many samples were drawn as the method keeps, all_finished is true
    exactly if every sample, for every element of the other plates, is the token eos. Missing for the full claim: fewer samples than
    k (see C89_fewer_refuted), variables with event dimensions (C89_events_refuted), the token 0 and a method that has not sampled
    (C89_unset_refuted). *)
Theorem C89_all_finished_partial : forall veq anc_unwrap k eos (a : stensor nat) old base, callable veq [a] -> s_event_shape a = [k] -> 0 < eos ->
  exists f b, mark veq anc_unwrap (Some eos) (DrawnStorch a) old base = Ok f /\ all_finished veq anc_unwrap k (Some eos) f (base + 2) = Ok b /\
    (b = true <-> all_ended eos a).
Proof. intros veq au k [|e] a old base HC He H0; [lia|]. exact (storch_all veq au k e a old base HC He). Qed.
Print Assumptions C89_all_finished_partial.

(** With fewer samples than k, as after a first variable with few options, the answer is always no. *)
Theorem C89_fewer_refuted : forall veq anc_unwrap k eos (a : stensor nat) old base n, callable veq [a] -> s_event_shape a = [n] -> n < k -> 0 < eos ->
  exists f, mark veq anc_unwrap (Some eos) (DrawnStorch a) old base = Ok f /\ all_finished veq anc_unwrap k (Some eos) f (base + 2) = Ok false.
Proof. intros veq au k [|e] a old base n HC He Hn H0; [lia|]. exact (storch_short veq au k e a old base [] n HC He ltac:(constructor) Hn). Qed.
Print Assumptions C89_fewer_refuted.

(** With event dimensions the last of these is counted and not the samples: the answer is yes exactly if each row along it has k
    times the token. So it is no for all samples if that dimension is smaller than k, and if it is larger it can be yes although no
    sequence has ended, and is no if all have. *)
Theorem C89_events_refuted : forall veq anc_unwrap k eos (a : stensor nat) old base ev m, callable veq [a] -> s_event_shape a = ev ++ [m] -> 0 < eos ->
  exists f b, mark veq anc_unwrap (Some eos) (DrawnStorch a) old base = Ok f /\ all_finished veq anc_unwrap k (Some eos) f (base + 2) = Ok b /\
    (b = true <-> forall s i, in_range s (splates a) -> valid i ev -> occurrences eos m (fun j => den a s (i ++ [j])) = k) /\
    (Forall (fun n => 1 <= n) ev -> m <> k -> all_ended eos a -> b = false).
Proof.
  intros veq au k [|e] a old base ev m HC He H0; [lia|]. destruct (storch_finished veq au k e a old base ev m HC He) as [f [b [F1 [F2 F3]]]].
  exists f, b. split; [exact F1|]. split; [exact F2|]. split; [exact F3|]. intros Hp Hm Ha. destruct b; auto. exfalso. apply Hm.
  destruct F3 as [F3 _]. specialize (F3 eq_refl). destruct (some_valid ev Hp) as [i Hi]. pose proof (proj1 HC) as Hw. inversion Hw as [|? ? Hw' _]; subst.
  assert (R : in_range (fun _ => 0) (splates a)) by (intros p Hq; pose proof (wf_pos a Hw' p Hq); lia).
  rewrite <- (F3 _ i R Hi). symmetry. apply occ_full. intros j Hj. apply Ha; auto. rewrite He. now apply valid_snoc.
Qed.
Print Assumptions C89_events_refuted.

(** The samples of ancestral sampling are torch tensors with the samples in the first dimension (they are marked before the method
    raises, see C43_ancestral_refuted): the answer is right without plates and events, and otherwise about the last dimension. *)
Theorem C89_ancestral_partial : forall veq anc_unwrap k eos (t : ten nat) old base, 0 < eos ->
  (shape t = [k] -> exists f b, mark veq anc_unwrap (Some eos) (DrawnTorch t) old base = Ok f /\
     all_finished veq anc_unwrap k (Some eos) f (base + 2) = Ok b /\ (b = true <-> all_ended_torch eos t)) /\
  (forall q m, shape t = k :: q ++ [m] -> Forall (fun n => 1 <= n) (k :: q) -> m < k ->
     exists f, mark veq anc_unwrap (Some eos) (DrawnTorch t) old base = Ok f /\ all_finished veq anc_unwrap k (Some eos) f (base + 2) = Ok false).
Proof.
  intros veq au k [|e] t old base H0; [lia|]. split; [exact (torch_all veq au k e t old base)|].
  intros q m Hs Hp Hm. exact (torch_short veq au k e t old base (k :: q) m Hs Hp Hm).
Qed.
Print Assumptions C89_ancestral_partial.

(** Asking raises if the token is 0, and before the first variable is sampled. *)
Theorem C89_unset_refuted : forall veq anc_unwrap k base,
  (forall d old f, mark veq anc_unwrap (Some 0) d old base = Ok old /\ all_finished veq anc_unwrap k (Some 0) f base = Err RuntimeError) /\
  (forall eos, 0 < eos -> get_amt_finished veq anc_unwrap (Some eos) None base = Ok AZero /\
     all_finished veq anc_unwrap k (Some eos) None base = Err AttributeError) /\
  (forall f, all_finished veq anc_unwrap k None f base = Err RuntimeError).
Proof. intros veq au k base. split; [split; reflexivity|]. split; [|reflexivity]. intros [|e] H; [lia|]. split; reflexivity. Qed.
Print Assumptions C89_unset_refuted.

(** Two batch elements with three samples each. *)
Section Witness.
Let pb : plate nat := mkPlate PlainPlate "b" 2 (WTorch (tscalar 1)) [].
Let ended : stensor nat := mkS 1 (mkten [2; 3] (fun _ => 5)) [pb] 1 [3] [] false.
Let running : stensor nat := mkS 1 (mkten [2; 3] (fun i => nth 1 i 0 + 3)) [pb] 1 [3] [] false.
Let vectors : stensor nat := mkS 1 (mkten [2; 3; 5] (fun i => if nth 2 i 0 <? 3 then 5 else 0)) [pb] 1 [3; 5] [] false.
Let no_anc : plate nat -> stensor nat -> res (stensor nat) := fun _ _ => Err NotImplementedError.
Let ask k a := do f <- mark Nat.eqb no_anc (Some 5) (DrawnStorch a) None 10; all_finished Nat.eqb no_anc k (Some 5) f 12.
Ltac one := split; [repeat constructor; cbn; try (intros p Hp; intuition (subst; cbn; lia)); intuition congruence|
  split; [intros p q Hp Hq E; cbn in Hp, Hq; intuition (subst; cbn in *; auto)|intros p Hp; cbn in Hp; intuition (subst; reflexivity)]].

Example C89_witness : callable Nat.eqb [ended] /\ callable Nat.eqb [running] /\ s_event_shape running = [3] /\
  ask 3 ended = Ok true /\ ask 3 running = Ok false.
Proof. split; [one|]. split; [one|]. repeat split; reflexivity. Qed.
Example C89_fewer_witness : callable Nat.eqb [ended] /\ all_ended 5 ended /\ ask 4 ended = Ok false.
Proof. split; [one|]. split; [intros s e Hs He; reflexivity|reflexivity]. Qed.
Example C89_events_witness : callable Nat.eqb [vectors] /\ s_event_shape vectors = [3] ++ [5] /\ ~ all_ended 5 vectors /\ ask 3 vectors = Ok true.
Proof.
  split; [one|]. split; [reflexivity|]. split; [|reflexivity]. intros H. specialize (H (fun _ => 0) [0; 4]).
  discriminate H; [intros p [<-|[]]; cbn; lia|repeat constructor].
Qed.
Example C89_ancestral_witness : shape (mkten [3; 2] (fun _ => 5)) = 3 :: [] ++ [2] /\ 2 < 3 /\ all_ended_torch 5 (mkten [3; 2] (fun _ => 5)).
Proof. split; [reflexivity|]. split; [lia|]. intros i Hi. reflexivity. Qed.
End Witness.
