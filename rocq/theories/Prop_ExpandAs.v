(** C92: right_expand_as on storch tensors. *)
From Coq Require Import String List Arith Bool ZArith Lia.
From Verif Require Import Base Torch Plates Wrap Util ExpandAs SpecTensor SpecWrap ExpandAsProofs.
Import ListNotations.
Open Scope string_scope.
Open Scope list_scope.

(** C92 if the first tensor has all the plates of the second one that have more than one sample: for every sample the result is the first
    tensor, repeated along the further event dimensions of the second. *)
Theorem C92_covered_partial : forall (V : Type) veq anc_unwrap (a b : stensor V) base, callable veq [a; b] ->
  (forall p, In p (wide (splates b)) -> has (splates a) (pname p) = true) ->
  let rest := skipn (s_event_dims a) (s_event_shape b) in
  exists r, st_right_expand_as veq anc_unwrap (PT a) (PT b) base = Ok (PT r) /\ splates r = all_plates [a; b] /\ s_event_shape r = s_event_shape a ++ rest /\
    wf r /\ sparents r = [sid a; sid b] /\ s_stochastic r = false /\
    forall s e e', in_range s (all_plates [a; b]) -> valid e (s_event_shape a) -> valid e' rest -> den r s (e ++ e') = den a s e.
Proof. exact @expand_covered. Qed.
Print Assumptions C92_covered_partial.

(** C92 is false otherwise: the size -1 keeps the single sample at the plate that the first tensor lacks, and the result is rejected. *)
Theorem C92_lacking_refuted : forall (V : Type) veq anc_unwrap (a b : stensor V) base, callable veq [a; b] ->
  forall p, In p (wide (splates b)) -> has (splates a) (pname p) = false ->
  st_right_expand_as veq anc_unwrap (PT a) (PT b) base = Err ValueError.
Proof. exact @expand_lacking. Qed.
Print Assumptions C92_lacking_refuted.

(** Torch tensors are repeated as they are (C91). *)
Theorem C92_torch : forall (V : Type) veq anc_unwrap (t e : ten V) base,
  st_right_expand_as veq anc_unwrap (PRaw t) (PRaw e) base = do u <- right_expand_as t e; Ok (PRaw u).
Proof. exact @expand_torch. Qed.
Print Assumptions C92_torch.

(** Two samples of x, three of y: [x_a] has events of shape 4 and both plates, [x_b] events of shape 4 x 2 and the plate y, which
    comes first in it. *)
Definition x_x : plate nat := mkPlate PlainPlate "x" 2 (WTorch (tscalar 1)) [].
Definition x_y : plate nat := mkPlate PlainPlate "y" 3 (WTorch (tscalar 1)) [].
Definition x_a : stensor nat := mkS 1 (mkten [2; 3; 4] (fun i => 100 * nth 0 i 0 + 10 * nth 1 i 0 + nth 2 i 0)) [x_x; x_y] 2 [4] [] false.
Definition x_b : stensor nat := mkS 2 (mkten [3; 4; 2] (fun i => 7)) [x_y] 1 [4; 2] [] false.
Definition x_anc : plate nat -> stensor nat -> res (stensor nat) := fun _ a => Ok a.
Ltac callable_tac := split; [repeat constructor; cbn; try (intros p Hp; intuition (subst; cbn; lia)); intuition congruence|
  split; [intros p q Hp Hq E; cbn in Hp, Hq; intuition (subst; cbn in *; try discriminate; auto)|intros p Hp; cbn in Hp; intuition (subst; reflexivity)]].
Example C92_witness : callable Nat.eqb [x_a; x_b] /\ callable Nat.eqb [x_b; x_a] /\
  (forall p, In p (wide (splates x_b)) -> has (splates x_a) (pname p) = true) /\
  (exists r, st_right_expand_as Nat.eqb x_anc (PT x_a) (PT x_b) 50 = Ok (PT r) /\ shape (st r) = [2; 3; 4; 2] /\ el (st r) [1; 2; 3; 1] = 123) /\
  (In x_x (wide (splates x_a)) /\ has (splates x_b) "x" = false /\ st_right_expand_as Nat.eqb x_anc (PT x_b) (PT x_a) 50 = Err ValueError).
Proof.
  split; [callable_tac|]. split; [callable_tac|]. split; [intros p [<-|[]]; reflexivity|]. split.
  - eexists. split; [reflexivity|]. split; reflexivity.
  - split; [now left|]. split; reflexivity.
Qed.
