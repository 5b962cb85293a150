(** C42: unique and undo_unique. *)
From Coq Require Import String List Arith Bool Lia.
From Verif Require Import Base Torch Plates ListLemmas IndexLemmas SpecTensor Unique SpecUnique UniqueProofs UniqueReduce UniqueReduceProofs UniqueProofs2.
Import ListNotations.
Open Scope string_scope.
Open Scope nat_scope.
Open Scope list_scope.

(** What holds of C42: for a tensor with one plate dimension and events, [unique] keeps every different value once, and the
    inverse indices lead back to the values of the tensor; [torch_unique] is any function that does what torch.unique
    promises. Missing for the full claim: undo_unique never returns (below), and unique rejects the other tensors. *)
Theorem C42_unique_partial : forall (V : Type) (veq : V -> V -> bool) torch_unique, finds_unique torch_unique ->
  forall id name (a : stensor V) P, wf a -> wide (splates a) = [P] -> s_event_shape a <> [] -> (forall d, In d (s_event_shape a) -> 0 < d) ->
  exists u m inv, unique veq torch_unique id name (Some 0) (ordinary a) = Ok u /\ shape (st (us u)) = [m; lprod (s_event_shape a)] /\
    u_plates u = [UUniq ("uq_plate_" ++ name) m [UPlain P] inv (map UPlain (splates a))] /\ shape inv = [pn P] /\
    (forall i e, i < pn P -> valid e (s_event_shape a) ->
       el inv [i] < m /\ el (st (us u)) [el inv [i]; ravel (s_event_shape a) e] = el (st a) (i :: e)) /\
    (forall p q, p < m -> q < m -> p <> q -> exists e, valid e (s_event_shape a) /\
       el (st (us u)) [p; ravel (s_event_shape a) e] <> el (st (us u)) [q; ravel (s_event_shape a) e]).
Proof. exact (fun V veq tu H => @unique_spec V veq tu H). Qed.
Print Assumptions C42_unique_partial.

(** C42 is false: undo_unique never returns a tensor when there is something to undo, as UniquePlate.undo_unique leaves the
    plate on its result. *)
Theorem C42_undo_refuted : forall (V : Type) (veq : V -> V -> bool) fuel (a r : @utensor V), is_unique a = true ->
  undo_unique veq fuel a <> Some (Ok r).
Proof. exact (fun V veq fuel a r => @undo_never V veq fuel a r). Qed.
Print Assumptions C42_undo_refuted.

(** On every result of unique, for every event_dim and whatever torch.unique does, it raises. *)
Theorem C42_raises_refuted : forall (V : Type) (veq : V -> V -> bool) torch_unique id name d (a u : @utensor V),
  unique veq torch_unique id name d a = Ok u -> exists fuel e, undo_unique veq fuel u = Some (Err e).
Proof. exact (fun V veq tu => @unique_undo_raises V veq tu). Qed.
Print Assumptions C42_raises_refuted.

(** Two plate dimensions, or plate dimensions without events, are rejected by unique. *)
Theorem C42_plates_refuted : forall (V : Type) (veq : V -> V -> bool) torch_unique, finds_unique torch_unique ->
  forall id name (a : stensor V) P Q r, wf a -> wide (splates a) = P :: Q :: r -> s_event_shape a <> [] ->
  (forall d, In d (s_event_shape a) -> 0 < d) -> unique veq torch_unique id name (Some 0) (ordinary a) = Err ValueError.
Proof. exact (fun V veq tu H => @unique_two V veq tu H). Qed.
Print Assumptions C42_plates_refuted.
Theorem C42_scalar_refuted : forall (V : Type) (veq : V -> V -> bool) torch_unique id name (a : stensor V) P r d, wf a ->
  wide (splates a) = P :: r -> s_event_shape a = [] -> unique veq torch_unique id name d (ordinary a) = Err IndexError.
Proof. exact (fun V veq tu => @unique_no_event V veq tu). Qed.
Print Assumptions C42_scalar_refuted.

(** A function that does what torch.unique promises: the first of equal rows stays. *)
Definition row_eq (t : ten nat) (i j : nat) : bool := forallb (fun r => el t (i :: r) =? el t (j :: r)) (indices (tl (shape t))).
Definition first_of (t : ten nat) (i : nat) : bool := negb (existsb (fun j => row_eq t j i) (seq 0 i)).
Definition reps (t : ten nat) : list nat := filter (first_of t) (seq 0 (hd 0 (shape t))).
Fixpoint position (f : nat -> bool) (l : list nat) : nat := match l with [] => 0 | x :: l => if f x then 0 else S (position f l) end.
Definition first_rows (d : option nat) (t : ten nat) : res (ten nat * ten nat) :=
  Ok (mkten (length (reps t) :: tl (shape t)) (fun i => el t (nth (hd 0 i) (reps t) 0 :: tl i)),
      mkten [hd 0 (shape t)] (fun i => position (fun p => row_eq t p (hd 0 i)) (reps t))).

Lemma position_spec : forall f l x, In x l -> f x = true -> position f l < length l /\ f (nth (position f l) l 0) = true.
Proof.
  intros f l x. induction l as [|y l IH]; intros H Hf; [destruct H|]. simpl. destruct (f y) eqn:E; [simpl; split; [lia|exact E]|].
  destruct H as [->|H]; [congruence|]. destruct (IH H Hf). simpl. split; [lia|assumption].
Qed.
Lemma row_eq_spec : forall t i j, row_eq t i j = true <-> forall r, valid r (tl (shape t)) -> el t (i :: r) = el t (j :: r).
Proof.
  intros t i j. unfold row_eq. rewrite forallb_forall. split.
  - intros H r Hr. apply Nat.eqb_eq, H. now apply in_indices.
  - intros H r Hr. apply Nat.eqb_eq, H. now apply in_indices.
Qed.
Lemma row_neq_spec : forall t i j, row_eq t i j = false -> exists r, valid r (tl (shape t)) /\ el t (i :: r) <> el t (j :: r).
Proof.
  intros t i j H. unfold row_eq in H. assert (X : forall l, forallb (fun r => el t (i :: r) =? el t (j :: r)) l = false -> exists r, In r l /\ el t (i :: r) <> el t (j :: r)).
  { induction l as [|r l IH]; simpl; [discriminate|]. destruct (el t (i :: r) =? el t (j :: r)) eqn:E; simpl.
    - intros Hl. destruct (IH Hl) as [q [Q1 Q2]]. eauto.
    - intros _. exists r. apply Nat.eqb_neq in E. auto. }
  destruct (X _ H) as [r [R1 R2]]. exists r. split; auto. now apply in_indices.
Qed.
Lemma has_rep : forall t i, i < hd 0 (shape t) -> exists j, In j (reps t) /\ row_eq t j i = true.
Proof.
  intros t i. induction (lt_wf i) as [i _ IH]. intros Hi. destruct (first_of t i) eqn:E.
  - exists i. split; [apply filter_In; split; auto; apply in_seq; lia|]. now apply row_eq_spec.
  - unfold first_of in E. apply negb_false_iff, existsb_exists in E. destruct E as [j [Hj E]]. apply in_seq in Hj.
    destruct (IH j) as [k [K1 K2]]; [lia|lia|]. exists k. split; auto. apply row_eq_spec. intros r Hr.
    rewrite (proj1 (row_eq_spec t k j) K2 r Hr). now apply row_eq_spec.
Qed.
Lemma first_rows_unique : finds_unique first_rows.
Proof.
  intros t Hs Hpos. unfold first_rows. eexists _, _. split; [reflexivity|].
  assert (HR : forall p, p < length (reps t) -> nth p (reps t) 0 < hd 0 (shape t) /\ first_of t (nth p (reps t) 0) = true).
  { intros p Hp. assert (In (nth p (reps t) 0) (reps t)) by now apply nth_In. apply filter_In in H. destruct H as [H1 H2]. apply in_seq in H1. split; [lia|auto]. }
  assert (HN : NoDup (reps t)) by apply NoDup_filter, seq_NoDup.
  assert (HD : forall p q, p < length (reps t) -> q < length (reps t) -> nth p (reps t) 0 < nth q (reps t) 0 ->
    row_eq t (nth p (reps t) 0) (nth q (reps t) 0) = false).
  { intros p q Hp Hq Hlt. destruct (HR q Hq) as [_ Hf]. unfold first_of in Hf. apply negb_true_iff in Hf.
    destruct (row_eq t (nth p (reps t) 0) (nth q (reps t) 0)) eqn:E; auto. rewrite <- Hf. symmetry. apply existsb_exists.
    exists (nth p (reps t) 0). split; [apply in_seq; lia|exact E]. }
  constructor; cbn [shape el hd tl].
  - destruct (shape t) as [|n r]; [congruence|]. now exists n, (length (reps t)), r.
  - intros i r Hr. destruct (shape t) as [|n sh] eqn:Es; [inversion Hr|]. inversion Hr as [|? ? ? ? H1 H2]; subst.
    destruct (has_rep t i) as [j [J1 J2]]; [rewrite Es; exact H1|].
    destruct (position_spec (fun p => row_eq t p i) (reps t) j J1 J2) as [K1 K2].
    split; [constructor; auto|]. apply (proj1 (row_eq_spec t _ i) K2). rewrite Es. exact H2.
  - intros p Hp. destruct (HR p Hp) as [R1 R2]. exists (nth p (reps t) 0). split; [exact R1|].
    destruct (position_spec (fun q => row_eq t q (nth p (reps t) 0)) (reps t) (nth p (reps t) 0)) as [K1 K2]; [now apply nth_In|now apply row_eq_spec|].
    set (q := position _ _) in *. destruct (Nat.eq_dec q p) as [->|Hne]; [reflexivity|]. exfalso.
    assert (nth q (reps t) 0 <> nth p (reps t) 0) by (intros E; apply Hne; apply (NoDup_nth (reps t) 0); auto).
    destruct (Nat.lt_ge_cases (nth q (reps t) 0) (nth p (reps t) 0)) as [H1|H1].
    + rewrite (HD q p) in K2; auto; discriminate.
    + assert (X := HD p q Hp K1 ltac:(lia)). assert (Y : row_eq t (nth p (reps t) 0) (nth q (reps t) 0) = true); [|congruence].
      apply row_eq_spec. intros r Hr. symmetry. now apply row_eq_spec.
  - intros p q Hp Hq Hne. assert (nth p (reps t) 0 <> nth q (reps t) 0) by (intros E; apply Hne; apply (NoDup_nth (reps t) 0); auto).
    destruct (Nat.lt_ge_cases (nth p (reps t) 0) (nth q (reps t) 0)) as [H1|H1].
    + exact (row_neq_spec _ _ _ (HD p q Hp Hq H1)).
    + destruct (row_neq_spec _ _ _ (HD q p Hq Hp ltac:(lia))) as [r [R1 R2]]. exists r. split; auto.
Qed.

(** Three samples of a variable with two components, of which the first and the last are equal. *)
Definition uq_plate3 : plate nat := mkPlate PlainPlate "z" 3 (WTorch (tscalar 1)) [].
Definition uq_example : stensor nat := mkS 0 (mkten [3; 2] (fun i => match i with [1; k] => k + 5 | [_; k] => k | _ => 0 end)) [uq_plate3] 1 [2] [] false.
Example C42_witness : finds_unique first_rows /\ wf uq_example /\ wide (splates uq_example) = [uq_plate3] /\ s_event_shape uq_example <> [] /\
  (forall d, In d (s_event_shape uq_example) -> 0 < d) /\
  (exists u, unique Nat.eqb first_rows 1 "x" (Some 0) (ordinary uq_example) = Ok u /\ is_unique u = true /\
     map (el (st (us u))) [[0; 0]; [0; 1]; [1; 0]; [1; 1]] = [0; 1; 5; 6] /\ undo_unique Nat.eqb 5 u = Some (Err ValueError)).
Proof.
  split; [exact first_rows_unique|]. split; [constructor; simpl; auto|].
  - repeat constructor. intros [].
  - intros p [<-|[]]. simpl. lia.
  - split; [reflexivity|]. split; [discriminate|]. split; [intros d [<-|[]]; lia|]. eexists. split; [reflexivity|]. split; [reflexivity|]. split; reflexivity.
Qed.

(** What UniquePlate.undo_unique gets right, when it returns: for a tensor whose only plate is the unique one, sample [i] of the plate that was
    shrunk gets the elements of the unique element it came from. *)
Theorem C42_select_partial : forall (V : Type) (veq : V -> V -> bool) id id' t ps s m P inv ip n (a b : @utensor V), 1 < m -> shape inv = [n] ->
  u_tensor id t ps [UUniq s m [UPlain P] inv ip] = Ok a -> plate_undo veq id' (UUniq s m [UPlain P] inv ip) a = Ok b ->
  forall i e, valid (i :: e) (shape (st (us b))) -> el (st (us b)) (i :: e) = el t (el inv [i] :: e).
Proof. exact (fun V veq => @select_spec V veq). Qed.
Print Assumptions C42_select_partial.
(** It returns when the first event dimension happens to have the number of unique elements: here three samples of two, with events of size two. *)
Example C42_select_witness : let U := UUniq "uq_plate_x" 2 [UPlain uq_plate3] (mkten [3] (fun i => nth (nth 0 i 0) [0; 1; 0] 0)) [UPlain uq_plate3] in
  exists a b, u_tensor 1 (mkten [2; 2] (fun i => ravel [2; 2] i)) [0] [U] = Ok a /\ plate_undo Nat.eqb 2 U a = Ok b /\
  shape (st (us b)) = [3; 2] /\ el (st (us b)) [1; 0] = 2 /\ el (st (us b)) [2; 1] = 1.
Proof. cbv zeta. do 2 eexists. repeat split; reflexivity. Qed.

(** With another plate after it, C42 fails in a different way: the unique elements are looked up along that plate. *)
Theorem C42_other_plate_refuted : forall (V : Type) (veq : V -> V -> bool) id id' t ps s m P inv q Y n (a : @utensor V), 1 < m -> 1 < pn Y -> shape inv = [n] ->
  s <> pname P -> pname Y <> pname P -> u_tensor id t ps [UUniq s m [UPlain P] inv [UPlain q]; UPlain Y] = Ok a ->
  (exists i, i < n /\ pn Y <= el inv [i]) -> plate_undo veq id' (UUniq s m [UPlain P] inv [UPlain q]) a = Err IndexError.
Proof. exact (fun V veq => @other_plate V veq). Qed.
Print Assumptions C42_other_plate_refuted.
Definition uq_plate2 : plate nat := mkPlate PlainPlate "y" 2 (WTorch (tscalar 1)) [].
Example C42_other_plate_witness : exists a, u_tensor 1 (mkten [3; 2] (fun i => ravel [3; 2] i)) [0]
  [UUniq "uq_plate_x" 3 [UPlain uq_plate3] (mkten [3] (fun i => nth 0 i 0)) [UPlain uq_plate3]; UPlain uq_plate2] = Ok a /\
  plate_undo Nat.eqb 2 (UUniq "uq_plate_x" 3 [UPlain uq_plate3] (mkten [3] (fun i => nth 0 i 0)) [UPlain uq_plate3]) a = Err IndexError.
Proof. eexists. split; reflexivity. Qed.

(** The plates of a tensor are accepted by a wrapped call unless one of them has shrunk, at any depth, a plate == to one of them. *)
Theorem C42_collect_exact : forall (V : Type) (veq : V -> V -> bool) (l : list (@uplate V)),
  (u_collect veq l = Err ValueError <-> exists u p q, In u l /\ In p l /\ shrunk u q /\ same_uplate veq p q) /\
  (u_collect veq l = Ok tt <-> ~ exists u p q, In u l /\ In p l /\ shrunk u q /\ same_uplate veq p q).
Proof.
  intros V veq l. split; [apply collect_exact|]. rewrite <- collect_exact.
  destruct (collect_cases veq l) as [E|E]; rewrite E; split; congruence.
Qed.
Print Assumptions C42_collect_exact.
Example C42_collect_witness : let U := fun n sh => @UUniq nat "uq_plate_x" n sh (mkten [3] (fun i => nth 0 i 0)) [] in
  u_collect Nat.eqb [U 2 []; UUniq "uq_plate_u" 2 [U 2 []] (mkten [2] (fun i => nth 0 i 0)) []] = Err ValueError /\
  u_collect Nat.eqb [U 3 []; UUniq "uq_plate_u" 2 [U 2 []] (mkten [2] (fun i => nth 0 i 0)) []] = Ok tt.
Proof. split; reflexivity. Qed.

(** A tensor that has a plate next to a unique plate that shrank it, at any depth, is rejected. *)
Theorem C42_mixed_rejected : forall (V : Type) (veq : V -> V -> bool) torch_unique id name d (a : @utensor V) u p, In u (u_plates a) -> In (UPlain p) (u_plates a) ->
  shrunk u (UPlain p) -> peq veq p p = true -> unique veq torch_unique id name d a = Err ValueError.
Proof. exact (fun V veq tu => @mixed_rejected V veq tu). Qed.
Print Assumptions C42_mixed_rejected.
Example C42_mixed_witness : let U := UUniq "uq_plate_x" 2 [UPlain uq_plate3] (mkten [3] (fun i => nth 0 i 0)) [UPlain uq_plate3] in
  shrunk (UUniq "uq_plate_u" 2 [U] (mkten [2] (fun i => nth 0 i 0)) [U]) (UPlain uq_plate3) /\ peq Nat.eqb uq_plate3 uq_plate3 = true.
Proof. split; [|reflexivity]. eapply Sh_deep; [now left|]. apply Sh_here. now left. Qed.

(** UniquePlate.reduce, which reduce_plates and with it backward call, never returns a tensor either. It first undoes the unique plate, which
    stays on the result; reducing the plates it stands for then collects both, which is rejected ... *)
Theorem C42_reduce_refuted : forall (V : Type) (veq : V -> V -> bool) order plain_reduce, (forall l r, order l = Ok r -> incl r l /\ (l <> [] -> r <> [])) ->
  forall s n sh inv ip (a : @utensor V), In (UUniq s n sh inv ip) (u_plates a) -> sh <> [] -> (forall q, In (UPlain q) sh -> peq veq q q = true) ->
  forall fuel, exists e, any_reduce veq order plain_reduce (S (S fuel)) (UUniq s n sh inv ip) a = Some (Err e).
Proof. exact (fun V veq order red H => @reduce_fails V veq order red H). Qed.
Print Assumptions C42_reduce_refuted.
(** ... and if it stands for no plate, undoing it mostly raises; otherwise reduce_plates reduces all plates of the result: the unique plate again. *)
Theorem C42_reduce_alone_refuted : forall (V : Type) (veq : V -> V -> bool) order plain_reduce, (forall l r, order l = Ok r -> incl r l /\ (l <> [] -> r <> [])) ->
  forall fuel s n inv ip (a r : @utensor V), u_plates a = [UUniq s n [] inv ip] -> any_reduce veq order plain_reduce fuel (UUniq s n [] inv ip) a <> Some (Ok r).
Proof. exact (fun V veq order red H => @reduce_endless V veq order red H). Qed.
Print Assumptions C42_reduce_alone_refuted.
(** The tensor of C42_select_witness, where the unique plate can be undone; and one without other plates, where it cannot. *)
Example C42_reduce_witness : let U := UUniq "uq_plate_x" 2 [UPlain uq_plate3] (mkten [3] (fun i => nth (nth 0 i 0) [0; 1; 0] 0)) [UPlain uq_plate3] in
  let E := @UUniq nat "uq_plate_x" 2 [] (mkten [2] (fun i => nth 0 i 0)) [] in
  (forall l r : list (@uplate nat), Ok l = Ok r -> incl r l /\ (l <> [] -> r <> [])) /\
  (exists a b, u_tensor 1 (mkten [2; 2] (fun i => ravel [2; 2] i)) [0] [U] = Ok a /\ plate_undo Nat.eqb 0 U a = Ok b /\
     any_reduce Nat.eqb (fun l => Ok l) (fun _ t => Ok t) 2 U a = Some (Err ValueError)) /\
  (exists a, u_tensor 1 (mkten [2; 2] (fun i => ravel [2; 2] i)) [0] [E] = Ok a /\ any_reduce Nat.eqb (fun l => Ok l) (fun _ t => Ok t) 1 E a = Some (Err RuntimeError)).
Proof.
  cbv zeta. split; [intros l r H; injection H as ->; split; [apply incl_refl|auto]|].
  split; [eexists _, _; split; [reflexivity|split; [reflexivity|reflexivity]]|].
  eexists. split; [reflexivity|]. vm_compute. reflexivity.
Qed.
