(** Specification vocabulary for relaxed samples. *)
From Coq Require Import Reals List Arith Bool.
Import ListNotations.
Local Open Scope R_scope.

(** The one-hot vector of length [n] for option [b]. *)
Definition one_hot (n b : nat) : list R := map (fun i => if Nat.eqb i b then 1 else 0) (seq 0 n).
(** Strictly positive numbers with sum one: a point inside the simplex. *)
Definition inside_simplex (l : list R) : Prop := (forall x, In x l -> 0 < x) /\ fold_right Rplus 0 l = 1.
(** Option [b] is strictly the largest. *)
Definition strictly_largest (l : list R) (b : nat) : Prop :=
  (b < length l)%nat /\ forall i, (i < length l)%nat -> i <> b -> nth i l 0 < nth b l 0.

(** Random numbers are indexed by the option they belong to; the row of the first [n] of them. *)
Definition noise_row (n : nat) (u : list nat -> R) : list R := map (fun j => u [j]) (seq 0 n).
(** The indices of the random numbers of the options other than [b]. *)
Definition others (n b : nat) : list (list nat) := map (fun j => [j]) (filter (fun j => negb (Nat.eqb j b)) (seq 0 n)).
(** Whether entry [b] is larger than every other entry. *)
Definition largest_at (z : list R) (b : nat) : bool :=
  forallb (fun i => orb (Nat.eqb i b) (if Rlt_dec (nth i z 0) (nth b z 0) then true else false)) (seq 0 (length z)).
