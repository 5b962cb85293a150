(** C74: the plates of variables sampled in a sequence; C52 for ancestral sampling. *)
From Coq Require Import String List Arith Bool Reals Lra Lia.
From Verif Require Import Base Torch Plates Wrap Inference Sampling SeqPlates SpecTensor SpecWrap SpecReduce SpecSampling SpecSeqPlates SeqPlatesProofs.
Import ListNotations.
Open Scope string_scope.
Open Scope nat_scope.
Open Scope list_scope.

(** C74, in part: the sample of a decoder without replacement has the plates of the parameters and of the variables before it, and
    the new sampling plate, each at its dimension. Missing: plates with one sample, and one sample (below). [t] are the values
    taken from the support, [prev_plates] the plates of the joint log-probabilities so far. *)
Theorem C74_without_replacement_partial : forall (V : Type) (veq : V -> V -> bool) (recip : nat -> V) name k vi prev prev_plates params id base t amt ev,
  Forall wf (param_tensors params) -> agree veq (flat_map splates (param_tensors params) ++ prev_plates) ->
  (forall u p, In u (param_tensors params) -> In p (splates u) -> pname p = name -> pn p <= k /\ exists v o, pcls p = Ancestral v o /\ v <= vi) ->
  NoDup (map pname prev_plates) -> ~ In name (map pname prev_plates) -> 1 < amt -> follows vi amt prev ->
  let ps := union (wide (other_plates name (all_plates (param_tensors params)))) (wide prev_plates) in
  shape t = map pn ps ++ amt :: ev ->
  exists x p, seq_sample veq recip DWithoutReplacement name k vi prev (fun plates => iter_decode veq name t prev_plates plates base) params [] [] id = Ok (x, p) /\
    pname p = name /\ pn p = amt /\ pcls p = Ancestral vi false /\ pparents p = ps /\
    wf x /\ splates x = ps ++ [p] /\ s_event_shape x = ev /\ s_stochastic x = true /\
    NoDup (sparents x) /\ (forall i, In i (sparents x) <-> In i (map sid (param_tensors params))) /\
    forall s e, den x s e = el t (map (fun q => s (pname q)) ps ++ s name :: e).
Proof. exact (@iter_sample_spec). Qed.
Print Assumptions C74_without_replacement_partial.

(** C74, in part: the sample of MCDecoder, when the distribution does not depend on earlier variables of the sequence. *)
Theorem C74_ancestral_partial : forall (V : Type) (veq : V -> V -> bool) (recip : nat -> V) name k vi prev mc params id t ev,
  Forall wf (param_tensors params) -> agree veq (flat_map splates (param_tensors params)) ->
  (forall u, In u (param_tensors params) -> ~ In name (map pname (splates u))) ->
  1 < k -> follows vi k prev -> mc k = Ok t -> shape t = k :: map pn (wide (all_plates (param_tensors params))) ++ ev ->
  exists x p, seq_sample veq recip DAncestral name k vi prev (mc_decode name k mc) params [] [] id = Ok (x, p) /\
    pname p = name /\ pn p = k /\ pcls p = Ancestral vi false /\ pparents p = all_plates (param_tensors params) /\
    wf x /\ splates x = p :: all_plates (param_tensors params) /\ s_event_shape x = ev /\ s_stochastic x = true /\
    NoDup (sparents x) /\ (forall i, In i (sparents x) <-> In i (map sid (param_tensors params))) /\
    forall s e, den x s e = el t (s name :: map (fun q => s (pname q)) (wide (all_plates (param_tensors params))) ++ e).
Proof. exact (@independent_spec). Qed.
Print Assumptions C74_ancestral_partial.

(** C74 is false for ancestral sampling of a variable that depends on an earlier one of the sequence: it is always rejected,
    whatever the decoder would do. *)
Theorem C74_dependent_refuted : forall (V : Type) (veq : V -> V -> bool) (recip : nat -> V) name k vi prev decode (params : list (@param V)) parents0 plates0 id,
  (exists u, In u (param_tensors params) /\ In name (map pname (splates u))) ->
  seq_sample veq recip DAncestral name k vi prev decode params parents0 plates0 id = Err ValueError.
Proof. exact (@dependent_raises). Qed.
Print Assumptions C74_dependent_refuted.

(** C74 is false for plates with one sample: decoders without replacement drop them. *)
Theorem C74_narrow_refuted : forall (V : Type) (veq : V -> V -> bool) (recip : nat -> V) name k vi prev prev_plates params id base t x p,
  seq_sample veq recip DWithoutReplacement name k vi prev (fun plates => iter_decode veq name t prev_plates plates base) params [] [] id = Ok (x, p) ->
  forall q, In q (splates x) -> q = p \/ 1 < pn q.
Proof. exact (@narrow_lost). Qed.
Print Assumptions C74_narrow_refuted.

(** C74 is false for one sample: its dimension of size one is not the dimension of a plate, so that the event gets a dimension too
    many. MCDecoder raises if there are other plates. *)
Theorem C74_single_refuted : forall (V : Type) (veq : V -> V -> bool) (recip : nat -> V) name vi prev params id ev,
  Forall wf (param_tensors params) -> follows vi 1 prev ->
  (forall mc t, agree veq (flat_map splates (param_tensors params)) -> (forall u, In u (param_tensors params) -> ~ In name (map pname (splates u))) ->
     mc 1 = Ok t -> shape t = 1 :: map pn (wide (all_plates (param_tensors params))) ++ ev ->
     let r := seq_sample veq recip DAncestral name 1 vi prev (mc_decode name 1 mc) params [] [] id in
     (wide (all_plates (param_tensors params)) <> [] -> r = Err ValueError) /\
     (wide (all_plates (param_tensors params)) = [] -> exists x p, r = Ok (x, p) /\ s_event_shape x = 1 :: ev)) /\
  (forall k prev_plates t base, agree veq (flat_map splates (param_tensors params) ++ prev_plates) ->
     (forall u p, In u (param_tensors params) -> In p (splates u) -> pname p = name -> pn p <= k /\ exists v o, pcls p = Ancestral v o /\ v <= vi) ->
     NoDup (map pname prev_plates) -> ~ In name (map pname prev_plates) ->
     shape t = map pn (union (wide (other_plates name (all_plates (param_tensors params)))) (wide prev_plates)) ++ 1 :: ev ->
     exists x p, seq_sample veq recip DWithoutReplacement name k vi prev (fun plates => iter_decode veq name t prev_plates plates base) params [] [] id = Ok (x, p) /\
       s_event_shape x = 1 :: ev).
Proof.
  intros V veq recip name vi prev params id ev Hwf Hf. split.
  - intros mc t HA Hn Hm Hs. exact (single_spec veq recip name vi prev mc params id t ev Hwf HA Hn Hf Hm Hs).
  - intros k pp t base HA H3 H4 H5 Hs. exact (iter_single_spec veq recip name k vi prev pp params id base t ev Hwf HA H3 H4 H5 Hf Hs).
Qed.
Print Assumptions C74_single_refuted.

(** A decoder without replacement rejects parameters whose plate of that name does not come from an earlier variable of its
    sequence, or has more samples than it keeps. *)
Theorem C74_rejected : forall (V : Type) (veq : V -> V -> bool) recip name k vi prev decode params id,
  Forall wf (param_tensors params) -> agree veq (flat_map splates (param_tensors params)) ->
  (exists u, In u (param_tensors params) /\ In name (map pname (splates u))) ->
  (forall u p, In u (param_tensors params) -> In p (splates u) -> pname p = name ->
     pcls p = PlainPlate \/ k < pn p \/ exists v o, pcls p = Ancestral v o /\ vi < v) ->
  seq_sample veq recip DWithoutReplacement name k vi prev decode params [] [] id = Err ValueError.
Proof. exact (fun V veq recip => foreign_raises veq recip). Qed.
Print Assumptions C74_rejected.

(** C52 is false for MCDecoder: the joint log-probability is that of the last variable alone. *)
Theorem C52_ancestral_refuted : forall ss s0, fold_right Rplus 0%R ss <> 0%R ->
  fold_left (fun j s => joint_step j None Rplus s) (ss ++ [s0]) None = Some s0 /\ s0 <> fold_right Rplus 0%R (ss ++ [s0]).
Proof.
  intros ss s0 H. split; [apply joint_last|]. rewrite fold_right_app. simpl. rewrite Rplus_0_r.
  assert (E : forall l x, fold_right Rplus x l = (fold_right Rplus 0 l + x)%R) by (induction l as [|y l IH]; intros x; simpl; [lra|rewrite IH; lra]).
  rewrite E. lra.
Qed.
Print Assumptions C52_ancestral_refuted.

(** A batch plate b of size 2 and a second variable with 3 samples after a first one with 2, on which it depends. *)
Section Witness.
Let pb : plate nat := mkPlate PlainPlate "b" 2 (WTorch (tscalar 1)) [].
Let pz : plate nat := mkPlate (Ancestral 0 false) "z" 2 (WTorch (tscalar 1)) [pb].
Let logits : stensor nat := mkS 1 (mkten [2; 2; 4] (fun i => nth 2 i 0)) [pb; pz] 2 [4] [] false.
Let alone : stensor nat := mkS 1 (mkten [2; 4] (fun i => nth 1 i 0)) [pb] 1 [4] [] false.
Let values : ten nat := mkten [2; 3] (fun i => 10 * nth 0 i 0 + nth 1 i 0).

Example C74_witness :
  wf logits /\ agree Nat.eqb ([pb; pz] ++ [pb]) /\ (pn pz <= 3 /\ pcls pz = Ancestral 0 false) /\ follows 1 3 (Some pz) /\
  shape values = map pn (union (wide (other_plates "z" (all_plates [logits]))) (wide [pb])) ++ 3 :: [] /\
  exists x p, seq_sample Nat.eqb (fun n => n) DWithoutReplacement "z" 3 1 (Some pz) (fun plates => iter_decode Nat.eqb "z" values [pb] plates 7)
    [ParS logits true] [] [] 9 = Ok (x, p) /\ splates x = [pb; p] /\ sparents x = [1] /\ den x (fun n => if String.eqb n "b" then 1 else 2) [] = 12.
Proof.
  split; [constructor; try reflexivity; [simpl; repeat constructor; simpl; intuition discriminate|intros r [<-|[<-|[]]]; simpl; lia]|].
  split. { intros p q Hp Hq E. simpl in Hp, Hq. intuition (subst; simpl in *; try discriminate; auto). }
  split; [simpl; auto|]. split; [split; [simpl; lia|exists 0, false; split; [reflexivity|lia]]|]. split; [reflexivity|].
  eexists _, _. split; [reflexivity|]. repeat split.
Qed.
Example C74_ancestral_witness :
  wf alone /\ follows 1 3 (Some pz) /\ shape (mkten [3; 2] (fun i => 10 * nth 0 i 0 + nth 1 i 0)) = 3 :: map pn (wide (all_plates [alone])) ++ [] /\
  exists x p, seq_sample Nat.eqb (fun n => n) DAncestral "z" 3 1 (Some pz) (mc_decode "z" 3 (fun _ => Ok (mkten [3; 2] (fun i => 10 * nth 0 i 0 + nth 1 i 0))))
    [ParS alone true] [] [] 9 = Ok (x, p) /\ splates x = [p; pb].
Proof.
  split; [constructor; try reflexivity; [simpl; repeat constructor; simpl; intuition discriminate|intros r [<-|[]]; simpl; lia]|].
  split; [split; [simpl; lia|exists 0, false; split; [reflexivity|lia]]|]. split; [reflexivity|]. eexists _, _. split; reflexivity.
Qed.
Example C74_dependent_witness : In logits (param_tensors [ParS logits true]) /\ In "z" (map pname (splates logits)).
Proof. simpl. auto. Qed.
Example C74_rejected_witness : wf logits /\ agree Nat.eqb [pb; pz] /\
  forall p, In p (splates logits) -> pname p = "z" -> pcls p = PlainPlate \/ 1 < pn p \/ exists v o, pcls p = Ancestral v o /\ 0 < v.
Proof.
  split; [constructor; try reflexivity; [simpl; repeat constructor; simpl; intuition discriminate|intros r [<-|[<-|[]]]; simpl; lia]|].
  split. { intros p q Hp Hq E. simpl in Hp, Hq. intuition (subst; simpl in *; try discriminate; auto). }
  intros p [<-|[<-|[]]] E; [discriminate E|right; left; simpl; lia].
Qed.
Example C74_single_witness : follows 0 1 (@None (plate nat)) /\ wide (all_plates [alone]) <> [].
Proof. split; [reflexivity|discriminate]. Qed.
End Witness.
Example C52_ancestral_witness : fold_right Rplus 0%R [(-1)%R; (-2)%R] <> 0%R.
Proof. simpl. lra. Qed.
