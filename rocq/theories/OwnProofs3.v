(** What a moving average is updated with (C99). *)
From Coq Require Import String List Arith Bool ZArith Lia Permutation Ring.
From Verif Require Import Base Torch Plates Wrap OrderPlates Scalar Reduce Graph Surrogate SpecTensor SpecWrap
  SpecOrder SpecReduce SpecGraph SpecSurrogate SurrogateProofs SurrogateProofs3 MovingProofs SpecOwn OwnProofs.
Import ListNotations.

Section Kept.
Context {V : Type}.
Variable veq : V -> V -> bool.
Variable anc_unwrap : plate V -> stensor V -> res (stensor V).
Variable o : sops V.
Variable o_exp : V -> V.
Hypothesis Hring : is_ring o.

Theorem kept_spec : forall (nodes : nat -> @snode V (averages V)) FP c p base n lp d L acc L' acc' sg sg1,
  plates_ok veq FP -> over FP (nd_t (nodes c)) -> over FP (nd_t (nodes p)) -> s_event_shape (nd_t (nodes c)) = [] -> no_gaps (wide (splates (nd_t (nodes c)))) ->
  nd_sto (nodes p) = Some (n, lp, true, Some (score_method veq anc_unwrap o o_exp (Some (moving_average veq anc_unwrap o d)))) ->
  foreign (nd_t (nodes c)) (splates (nd_t (nodes p))) = [] -> averageable veq (nd_t (nodes c)) ->
  add_parent veq anc_unwrap o o_exp nodes c base (L, acc, sg) p = Ok (L', acc', sg1) ->
  let key := slot (nd_name (nodes p)) (nd_name (nodes c)) in
  shape (sg key) = [] ->
  (forall k, k <> key -> sg1 k = sg k) /\ shape (sg1 key) = [] /\ el (sg1 key) [] = decayed o d (el (sg key) []) [average o (nd_t (nodes c))].
Proof.
  intros nodes FP c p base n lp d L acc L' acc' sg sg1 [Hs Ha Hfi] Hc Hp Ec Hg Em Hf [A1 A2 A3 A4 A5 A6] H key Hk.
  destruct (averaged_spec veq anc_unwrap o Hring FP Hs Ha Hfi (nd_t (nodes c)) (nd_t (nodes p)) base Hc Hp Ec Hg) as [red [rc [R1 [R2 [_ [_ [_ [_ R7]]]]]]]].
  destruct (R7 Hf) as [-> ->].
  unfold add_parent in H. rewrite Em in H. cbn [score_method me_pathwise me_estimator bind] in H. rewrite R1 in H. cbn [bind] in H. rewrite R2 in H. cbn [bind] in H.
  destruct (new_parent _ _ _ _) as [np|]; [|discriminate]. cbn [bind] in H. unfold score_estimator in H. destruct (sm_log_prob _ _ _) as [l|]; [|discriminate]. cbn [bind] in H.
  match type of H with context [bind (if ?b then ?x else ?y) _] => destruct (if b then x else y) as [l'|]; [|discriminate] end. cbn [bind sm_name] in H.
  change (reduced_name (nd_name (nodes c)) (@nil (plate V))) with (nd_name (nodes c)) in H. fold (slot (nd_name (nodes p)) (nd_name (nodes c))) in H. fold key in H.
  destruct (moving_average_spec veq anc_unwrap o Hring (nd_t (nodes c)) d (mkSample np (nd_name (nodes p)) n lp) key sg base A1 A2 A3 A4 A5 A6 Hk) as [z [Z1 [Z2 Z3]]].
  rewrite Z1 in H. cbn [bind] in H.
  destruct (magic_box _ _ _ _ _ _) as [mb|]; [|discriminate]. cbn [bind] in H. destruct (torch_op2 _ _ _ _ _ mb _) as [dd|]; [|discriminate]. cbn [bind] in H.
  destruct (torch_op2 _ _ _ _ dd _ _) as [cv|]; [|discriminate]. cbn [bind] in H. destruct (add_terms _ _ _ _ _ _ _ _) as [[L2 acc2]|]; [|discriminate]. cbn [bind] in H. injection H as <- <- <-.
  cbv beta. rewrite String.eqb_refl. split; [|split; [exact Z2|]].
  - intros k Hn. destruct (String.eqb_spec k key); [contradiction|reflexivity].
  - rewrite Z3, (decayed_cons o Hring), (decayed_nil o Hring). reflexivity.
Qed.

(** Two costs of the same name. *)
Theorem same_name_spec : forall (nodes : nat -> @snode V (averages V)) FP1 FP2 c1 c2 p base n lp d L1 acc1 L1' acc1' L2 acc2 L2' acc2' sg sg1 sg2,
  plates_ok veq FP1 -> over FP1 (nd_t (nodes c1)) -> over FP1 (nd_t (nodes p)) -> s_event_shape (nd_t (nodes c1)) = [] -> no_gaps (wide (splates (nd_t (nodes c1)))) ->
  plates_ok veq FP2 -> over FP2 (nd_t (nodes c2)) -> over FP2 (nd_t (nodes p)) -> s_event_shape (nd_t (nodes c2)) = [] -> no_gaps (wide (splates (nd_t (nodes c2)))) ->
  nd_sto (nodes p) = Some (n, lp, true, Some (score_method veq anc_unwrap o o_exp (Some (moving_average veq anc_unwrap o d)))) ->
  foreign (nd_t (nodes c1)) (splates (nd_t (nodes p))) = [] -> averageable veq (nd_t (nodes c1)) ->
  foreign (nd_t (nodes c2)) (splates (nd_t (nodes p))) = [] -> averageable veq (nd_t (nodes c2)) ->
  nd_name (nodes c1) = nd_name (nodes c2) ->
  add_parent veq anc_unwrap o o_exp nodes c1 base (L1, acc1, sg) p = Ok (L1', acc1', sg1) ->
  add_parent veq anc_unwrap o o_exp nodes c2 base (L2, acc2, sg1) p = Ok (L2', acc2', sg2) ->
  let key := slot (nd_name (nodes p)) (nd_name (nodes c2)) in
  shape (sg key) = [] ->
  el (sg2 key) [] = decayed o d (el (sg key) []) [average o (nd_t (nodes c1)); average o (nd_t (nodes c2))].
Proof.
  intros nodes FP1 FP2 c1 c2 p base n lp d L1 acc1 L1' acc1' L2 acc2 L2' acc2' sg sg1 sg2 P1 P2 P3 P4 P5 Q1 Q2 Q3 Q4 Q5 Em F1 A1 F2 A2 En H1 H2 key Hs.
  unfold key in *. destruct (kept_spec nodes FP1 c1 p base n lp d L1 acc1 L1' acc1' sg sg1 P1 P2 P3 P4 P5 Em F1 A1 H1) as [_ [S1 E1]]; [now rewrite En|].
  rewrite En in S1, E1. destruct (kept_spec nodes FP2 c2 p base n lp d L2 acc2 L2' acc2' sg1 sg2 Q1 Q2 Q3 Q4 Q5 Em F2 A2 H2 S1) as [_ [_ E2]].
  rewrite E2, E1, !(decayed_cons o Hring), !(decayed_nil o Hring). reflexivity.
Qed.
End Kept.
