(** The moving-average baseline over a sequence of calls (C25). *)
From Coq Require Import String List Arith Bool ZArith Lia Permutation Ring.
From Verif Require Import Base Torch Plates Wrap OrderPlates Scalar Reduce Graph Surrogate SpecTensor SpecWrap SpecOrder SpecReduce SpecGraph
  SpecSurrogate ReduceProofs ReduceProofs2 SurrogateProofs SurrogateProofs2 SurrogateProofs3.
Import ListNotations.

Section Moving.
Context {V : Type}.
Variable veq : V -> V -> bool.
Variable anc_unwrap : plate V -> stensor V -> res (stensor V).
Variable o : sops V.
Hypothesis Hring : is_ring o.
Let Hring' : ring_theory (o_zero o) (o_one o) (o_add o) (o_mul o) (o_sub o) (o_opp o) (@eq V) := Hring.
Add Ring o_ring : Hring'.
Variable d : V.

(** A sequence of calls of compute_baseline (storch/method/baseline.py:25-34): sample, cost, the attribute name of the
    baseline object it is made on (storch/method/method.py:567-570). *)
Fixpoint calls (cs : list (@sample V * stensor V * string)) (sg : averages V) (base : nat) : res (averages V) :=
  match cs with
  | [] => Ok sg
  | (x, c, key) :: r => do (b, sg) <- moving_average veq anc_unwrap o d x c key sg base; calls r sg base
  end.
Definition with_key (key : string) (cs : list (@sample V * stensor V * string)) : list V :=
  map (fun c => average o (snd (fst c))) (filter (fun c => String.eqb (snd c) key) cs).

Lemma decayed_cons : forall m c cs, decayed o d m (c :: cs) = decayed o d (o_add o (o_mul o d m) (o_mul o (o_sub o (o_one o) d) c)) cs.
Proof.
  intros m c cs. unfold decayed. cbn [length combine seq map]. rewrite osum_cons. cbn [fst snd opow].
  replace (S (length cs) - 1 - 0) with (length cs) by lia.
  assert (E : osum o (map (fun ic => o_mul o (o_mul o (o_sub o (o_one o) d) (opow o d (S (length cs) - 1 - fst ic))) (snd ic)) (combine (seq 1 (length cs)) cs)) =
              osum o (map (fun ic => o_mul o (o_mul o (o_sub o (o_one o) d) (opow o d (length cs - 1 - fst ic))) (snd ic)) (combine (seq 0 (length cs)) cs))).
  { rewrite <- seq_shift. generalize (length cs). intros n. generalize (seq 0 n). intros l. f_equal. revert cs. induction l as [|i l IH]; intros cs; [reflexivity|].
    destruct cs as [|x cs]; [reflexivity|]. cbn [map combine]. f_equal; [|apply IH]. cbn [fst snd]. replace (S n - 1 - S i) with (n - 1 - i) by lia. reflexivity. }
  rewrite E. ring.
Qed.
Lemma decayed_nil : forall m, decayed o d m [] = m.
Proof. intros m. unfold decayed. simpl. ring. Qed.

Theorem calls_spec : forall cs sg base, (forall c, In c cs -> averageable veq (snd (fst c))) -> (forall k, shape (sg k) = []) ->
  exists sg', calls cs sg base = Ok sg' /\ forall k, shape (sg' k) = [] /\ el (sg' k) [] = decayed o d (el (sg k) []) (with_key k cs).
Proof.
  induction cs as [|[[x c] key] cs IH]; intros sg base Hc Hs.
  - exists sg. split; [reflexivity|]. intros k. split; [apply Hs|]. now rewrite decayed_nil.
  - destruct (Hc _ (or_introl eq_refl)) as [A1 A2 A3 A4 A5 A6]. cbn [fst snd] in *.
    destruct (moving_average_spec veq anc_unwrap o Hring c d x key sg base A1 A2 A3 A4 A5 A6 (Hs key)) as [z [Z1 [Z2 Z3]]].
    cbn [calls]. rewrite Z1. cbn [bind].
    destruct (IH (fun k => if String.eqb k key then z else sg k) base) as [sg' [E H]].
    { intros y Hy. apply Hc. now right. } { intros k. destruct (String.eqb k key); auto. }
    exists sg'. split; [exact E|]. intros k. destruct (H k) as [H1 H2]. split; [exact H1|]. rewrite H2. unfold with_key. cbn [filter snd].
    rewrite (String.eqb_sym key k). destruct (String.eqb_spec k key) as [-> |N]; [|reflexivity]. cbn [map fst snd]. rewrite decayed_cons, Z3. reflexivity.
Qed.

(** What the next call returns. *)
Theorem baseline_spec : forall cs x c key sg base, averageable veq c -> (forall c, In c cs -> averageable veq (snd (fst c))) ->
  (forall k, shape (sg k) = []) ->
  exists sg' z sg'', calls cs sg base = Ok sg' /\ moving_average veq anc_unwrap o d x c key sg' base = Ok (PRaw z, sg'') /\
    shape z = [] /\ el z [] = decayed o d (el (sg key) []) (with_key key cs ++ [average o c]).
Proof.
  intros cs x c key sg base Hc Hcs Hs. destruct (calls_spec cs sg base Hcs Hs) as [sg' [E H]].
  destruct Hc as [A1 A2 A3 A4 A5 A6]. destruct (H key) as [H1 H2].
  destruct (moving_average_spec veq anc_unwrap o Hring c d x key sg' base A1 A2 A3 A4 A5 A6 H1) as [z [Z1 [Z2 Z3]]].
  exists sg', z. eexists. split; [exact E|]. split; [exact Z1|]. split; [exact Z2|]. rewrite Z3, H2. fold (average o c).
  generalize (el (sg key) []) (with_key key cs) (average o c). intros m l a. revert m. induction l as [|y l IH]; intros m.
  - cbn [app]. now rewrite decayed_cons, !decayed_nil.
  - cbn [app]. rewrite !decayed_cons. apply IH.
Qed.

(** A decayed average stays within the bounds of its start and its costs. *)
Theorem decayed_between : forall le, ordered o le -> le (o_zero o) d -> le (o_zero o) (o_sub o (o_one o) d) ->
  forall cs m lo hi, (forall c, In c (m :: cs) -> le (o_zero o) (o_sub o c lo) /\ le (o_zero o) (o_sub o hi c)) ->
  le (o_zero o) (o_sub o (decayed o d m cs) lo) /\ le (o_zero o) (o_sub o hi (decayed o d m cs)).
Proof.
  intros le Ho Hd Hd' cs. induction cs as [|c cs IH]; intros m lo hi H.
  - rewrite decayed_nil. apply H. now left.
  - rewrite decayed_cons. apply IH. intros x [<-|Hx]; [|apply H; now do 2 right].
    destruct (H m (or_introl eq_refl)) as [M1 M2]. destruct (H c (or_intror (or_introl eq_refl))) as [C1 C2]. split.
    + replace (o_sub o (o_add o (o_mul o d m) (o_mul o (o_sub o (o_one o) d) c)) lo)
        with (o_add o (o_mul o d (o_sub o m lo)) (o_mul o (o_sub o (o_one o) d) (o_sub o c lo))) by ring.
      apply (le_add _ _ Ho); apply (le_mul _ _ Ho); auto.
    + replace (o_sub o hi (o_add o (o_mul o d m) (o_mul o (o_sub o (o_one o) d) c)))
        with (o_add o (o_mul o d (o_sub o hi m)) (o_mul o (o_sub o (o_one o) d) (o_sub o hi c))) by ring.
      apply (le_add _ _ Ho); apply (le_mul _ _ Ho); auto.
Qed.
End Moving.
