(** C84 and C85: functions that never return. *)
From Coq Require Import String List Arith Bool Lia.
From Verif Require Import Base Torch Plates SpecTensor Unfinished.
Import ListNotations.
Open Scope string_scope.
Open Scope nat_scope.
Open Scope list_scope.

(** C84 is false: split returns for no tensor, plate and slices, whatever the part of it that is not reached does. For a plate
    of the tensor with several samples and slices, or a number of slices, the reason is the missing method of lists. *)
Theorem C84_split_refuted : forall (V A : Type) (rest : list (nat * nat) -> nat -> list (plate V) -> res A) (a : stensor V) p amt slices,
  (forall r, split rest a p amt slices <> Ok r) /\
  (In p (wide (splates a)) -> (exists k, amt = Some (S k)) \/ (exists s l, slices = Some (s :: l)) -> split rest a p amt slices = Err AttributeError).
Proof.
  intros V A rest a p amt slices.
  assert (F : forall l i, In p l -> exists j, find_dim (pname p) l i = Ok j).
  { induction l as [|q l IH]; intros i Hi; [contradiction|]. destruct Hi as [H|H].
    - subst q. exists i. cbn. now rewrite String.eqb_refl.
    - cbn. destruct (String.eqb (pname q) (pname p)); [now exists i|now apply IH]. }
  unfold split. split.
  - intros r. destruct (slices_of (pn p) amt slices); [|discriminate]. cbn [bind]. destruct (get_plate_dim_index a (pname p)); discriminate.
  - intros Hp Hs. assert (E : exists sl, slices_of (pn p) amt slices = Ok sl).
    { destruct Hs as [[k ->]|[s [l ->]]]; [|now exists (s :: l)]. destruct slices as [[|s l]|]; cbn; eexists; reflexivity. }
    destruct E as [sl ->]. cbn [bind]. destruct (F _ 0 Hp) as [j Hj]. unfold get_plate_dim_index, multi_dim_plates, mdp. unfold wide in Hj. rewrite Hj. reflexivity.
Qed.
Print Assumptions C84_split_refuted.

(** Without slices, or with an empty list of them, split fails before that: with TypeError when no number of slices is given either,
    and by a division by zero (UserExn 0) for zero slices. *)
Theorem C84_no_slices_refuted : forall (V A : Type) (rest : list (nat * nat) -> nat -> list (plate V) -> res A) (a : stensor V) p slices,
  slices = None \/ slices = Some [] ->
  split rest a p None slices = Err TypeError /\ split rest a p (Some 0) slices = Err (UserExn 0).
Proof. intros V A rest a p slices [-> | ->]; split; reflexivity. Qed.
Print Assumptions C84_no_slices_refuted.

Example C84_witness : let p := mkPlate PlainPlate "z" 4 (WTorch (tscalar 1)) [] in
  let a := mkS 0 (mkten [4] (fun i => hd 0 i)) [p] 1 [] [] false in
  In p (wide (splates a)) /\ split (fun l _ _ => Ok l) a p (Some 2) None = Err AttributeError.
Proof. split; [now left|reflexivity]. Qed.

(** C85 is false: SumAndSample returns no samples, whatever the sizes, the log-probabilities and topk are. With as many options as
    are summed over it returns None, with fewer two results where three are expected, and with more it asks topk for more options
    than there are. *)
Theorem C85_select_refuted : forall (P : Type) (d : P) topk sum_size sample_size pert joint, length pert = length joint -> 1 <= sum_size -> 1 <= sample_size ->
  sum_and_sample_step d topk sum_size sample_size pert joint =
    Err (if length joint <? sum_size then ValueError else if length joint =? sum_size then TypeError else RuntimeError).
Proof.
  intros P d topk s k pert joint E Hs Hk. unfold sum_and_sample_step, sum_and_sample, torch_topk.
  replace ((s <? 1) || (k <? 1)) with false by (symmetry; apply orb_false_iff; split; apply Nat.ltb_ge; lia).
  replace (length joint <? Nat.min s (length joint)) with false by (symmetry; apply Nat.ltb_ge; lia). cbn [bind]. rewrite E.
  destruct (Nat.ltb_spec (length joint) s) as [H|H].
  - replace (Nat.min s (length joint) <? s) with true by (symmetry; apply Nat.ltb_lt; lia). reflexivity.
  - replace (Nat.min s (length joint) <? s) with false by (symmetry; apply Nat.ltb_ge; lia).
    destruct (Nat.eqb_spec (length joint) s) as [Es|Es].
    + replace (length joint <? Nat.min k (length joint - s) + length joint) with false by (symmetry; apply Nat.ltb_ge; lia). reflexivity.
    + replace (length joint <? Nat.min k (length joint - s) + length joint) with true by (symmetry; apply Nat.ltb_lt; lia). reflexivity.
Qed.
Print Assumptions C85_select_refuted.

Example C85_witness : sum_and_sample_step 0 (fun _ k => seq 0 k) 2 1 [5; 6; 7] [1; 2; 3] = Err RuntimeError.
Proof. reflexivity. Qed.
