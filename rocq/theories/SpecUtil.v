(** Specification vocabulary for reduce_mean. *)
From Coq Require Import List Arith Bool.
Import ListNotations.

(** The dimensions below [n] that are kept, in increasing order. *)
Definition kept (n : nat) (keep : list nat) : list nat := filter (fun d => existsb (Nat.eqb d) keep) (seq 0 n).
(** The part of an index (or of a shape) that belongs to the dimensions [ds]. *)
Definition part (ds idx : list nat) : list nat := map (fun d => nth d idx 0) ds.
(** Two indices agree on the dimensions [keep]. *)
Definition agree (keep i j : list nat) : bool := forallb (fun d => nth d i 0 =? nth d j 0) keep.
