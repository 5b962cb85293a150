(** C90, C91: reduce_mean, and the functions that repeat a tensor along new dimensions. *)
From Coq Require Import List Arith Bool ZArith Lia.
From Verif Require Import Base Torch Util SpecUtil UtilProofs.
Import ListNotations.

(** C90 for distinct dimensions, counted from the front: reduce_mean keeps these in their order, and an element of the result is the mean of
    all elements whose index agrees with it on them. *)
Theorem C90_mean_partial : forall (V : Type) (mean : list V -> V) (t : ten V) keep,
  NoDup keep -> (forall d, In d keep -> d < ndim t) -> length keep < ndim t ->
  exists u, reduce_mean mean t (map Z.of_nat keep) = Ok u /\ shape u = part (kept (ndim t) keep) (shape t) /\
    forall i, valid i (shape t) -> el u (part (kept (ndim t) keep) i) = mean (map (el t) (filter (agree keep i) (indices (shape t)))).
Proof. exact @mean_kept. Qed.
Print Assumptions C90_mean_partial.

(** As many dimensions as there are: the tensor itself, which is right if they are distinct. *)
Theorem C90_all_kept : forall (V : Type) (mean : list V -> V) (t : ten V) keep,
  NoDup keep -> (forall d, In d keep -> d < ndim t) -> length keep = ndim t ->
  reduce_mean mean t (map Z.of_nat keep) = Ok t /\ kept (ndim t) keep = seq 0 (ndim t).
Proof.
  intros V mean t keep Hn Hr Hl. split; [apply mean_as_many; now rewrite map_length|]. unfold kept.
  assert (I : incl (seq 0 (ndim t)) keep).
  { apply NoDup_length_incl; auto; [rewrite seq_length; lia|]. intros d Hd. apply in_seq. specialize (Hr d Hd). lia. }
  assert (X : forall l, incl l keep -> filter (fun d => existsb (Nat.eqb d) keep) l = l).
  { induction l as [|d l IH]; intros H; auto. cbn. replace (existsb (Nat.eqb d) keep) with true.
    - f_equal. apply IH. intros x Hx. apply H. now right.
    - symmetry. apply existsb_in, H. now left. }
  now apply X.
Qed.
Print Assumptions C90_all_kept.

(** C90 is false when dimensions are repeated: if there are as many entries as dimensions, nothing is averaged although some
    dimension is not among them. *)
Theorem C90_repeated_refuted : forall (V : Type) (mean : list V -> V) (t : ten V) d, d < ndim t -> 2 <= ndim t ->
  reduce_mean mean t (repeat (Z.of_nat d) (ndim t)) = Ok t /\ exists d', d' < ndim t /\ ~ In (Z.of_nat d') (repeat (Z.of_nat d) (ndim t)).
Proof.
  intros V mean t d Hd H2. split; [apply mean_as_many; apply repeat_length|]. exists (if d =? 0 then 1 else 0). split; [destruct (d =? 0); lia|].
  intros H. apply repeat_spec in H. destruct (Nat.eqb_spec d 0); lia.
Qed.
Print Assumptions C90_repeated_refuted.

(** C90 is also false for dimensions counted from the end, which torch accepts: with another number of entries than dimensions,
    a negative, too large or repeated dimension raises ValueError. *)
Theorem C90_negative_refuted : forall (V : Type) (mean : list V -> V) (t : ten V) keep, length keep <> ndim t ->
  ~ NoDup keep \/ (exists z, In z keep /\ ~ (0 <= z < Z.of_nat (ndim t))%Z) -> reduce_mean mean t keep = Err ValueError.
Proof. exact @mean_rejected. Qed.
Print Assumptions C90_negative_refuted.

(** A 2 x 3 x 2 tensor of which dimensions 2 and 0 are kept (the mean is a sum here). *)
Definition ex_t : ten nat := mkten [2; 3; 2] (fun i => 100 * nth 0 i 0 + 10 * nth 1 i 0 + nth 2 i 0).
Example C90_witness : NoDup [2; 0] /\ (forall d, In d [2; 0] -> d < ndim ex_t) /\ length [2; 0] < ndim ex_t /\
  match reduce_mean list_sum ex_t [2; 0]%Z with Ok u => shape u = [2; 2] /\ el u [1; 1] = 333 | Err _ => False end /\
  reduce_mean list_sum ex_t [-1]%Z = Err ValueError /\ reduce_mean list_sum ex_t [0; 0; 0]%Z = Ok ex_t.
Proof.
  split; [repeat constructor; cbn; intuition lia|]. split; [cbn; intuition lia|]. split; [cbn; lia|]. split; [split; reflexivity|]. split; reflexivity.
Qed.

(** C91 for a tensor with at most as many dimensions: right_expand_as repeats it along the last dimensions of the other tensor,
    left_expand_as along the first ones. *)
Theorem C91_right : forall (V : Type) (t e : ten V), ndim t <= ndim e ->
  exists u, right_expand_as t e = Ok u /\ shape u = shape t ++ skipn (ndim t) (shape e) /\
    forall i j, valid i (shape t) -> valid j (skipn (ndim t) (shape e)) -> el u (i ++ j) = el t i.
Proof. exact @right_fits. Qed.
Print Assumptions C91_right.
Theorem C91_left_partial : forall (V : Type) (t e : ten V), ndim t <= ndim e ->
  exists u, left_expand_as t e = Ok u /\ shape u = firstn (ndim e - ndim t) (shape e) ++ shape t /\
    forall i j, valid i (firstn (ndim e - ndim t) (shape e)) -> valid j (shape t) -> el u (i ++ j) = el t j.
Proof. exact @left_fits. Qed.
Print Assumptions C91_left_partial.
(** With more dimensions than the other tensor right_expand_as returns the tensor as it is. *)
Theorem C91_right_more : forall (V : Type) (t e : ten V), ndim e < ndim t -> exists u, right_expand_as t e = Ok u /\ teq u t.
Proof. exact @right_same. Qed.
Print Assumptions C91_right_more.

(** C91 is false for left_expand_as then: the slice [:diff] with a negative diff counts from the end, so that the result has new
    dimensions whenever the other tensor has more than half as many dimensions as the tensor. *)
Theorem C91_left_refuted : forall (V : Type) (t e : ten V), ndim e < ndim t ->
  (exists u, left_expand_as t e = Ok u /\ shape u = firstn (2 * ndim e - ndim t) (shape e) ++ shape t /\
    forall i j, valid i (firstn (2 * ndim e - ndim t) (shape e)) -> valid j (shape t) -> el u (i ++ j) = el t j) /\
  (ndim t < 2 * ndim e -> forall u, left_expand_as t e = Ok u -> ndim t < ndim u).
Proof.
  intros V t e H. destruct (left_larger t e H) as [u [E [S K]]]. split; [now exists u|]. intros H2 v Ev. rewrite E in Ev. injection Ev as <-.
  unfold ndim at 2. rewrite S, app_length, firstn_length. unfold ndim in *. lia.
Qed.
Print Assumptions C91_left_refuted.

Example C91_witness : let a := mkten [2; 3] (fun i => 10 * nth 0 i 0 + nth 1 i 0) in
  (ndim a <= ndim ex_t /\ ndim a < ndim ex_t /\ ndim ex_t < 2 * ndim a) /\
  match right_expand_as a ex_t with Ok u => shape u = [2; 3; 2] /\ el u [1; 2; 1] = 12 | Err _ => False end /\
  match left_expand_as a ex_t with Ok u => shape u = [2; 2; 3] /\ el u [1; 1; 2] = 12 | Err _ => False end /\
  match left_expand_as ex_t a with Ok u => shape u = [2; 2; 3; 2] | Err _ => False end.
Proof. cbn. repeat split; lia. Qed.
