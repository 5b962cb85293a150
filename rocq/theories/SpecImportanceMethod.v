(** Specification vocabulary for programs that sample from proposals. *)
From Coq Require Import String List Arith Bool.
From Verif Require Import Base Torch Plates Scalar SpecTensor SpecReduce SpecProgram.
Import ListNotations.

Section Spec.
Context {V X : Type}.
Notation plate := (plate V).

(** The program that draws every variable from its proposal, of which the log-probability is [lq]. *)
Definition proposed (pg : program V X) (lq : nat -> assignment -> @path X -> V) : program V X :=
  mkProgram (pg_vars pg) (pg_plates pg) (pg_deps pg) (pg_support pg) lq.

(** The names and sizes of plates. *)
Definition sizes_of (l : list plate) : list (string * nat) := map (fun p => (pname p, pn p)) l.

(** Division of numbers: 1/n, n and quotients of exponentials, which are never zero. *)
Record divides (o : sops V) (o_exp : V -> V) (o_div : V -> V -> V) (o_num recip : nat -> V) : Prop := {
  dv_ratio : forall n x y, 1 <= n -> o_mul o (o_exp y) (o_div (o_exp x) (o_mul o (o_num n) (o_exp y))) = o_mul o (recip n) (o_exp x);
  dv_det : forall n, o_det o (recip n) = recip n;
  dv_sum : forall n, 1 <= n -> osum o (repeat (recip n) n) = o_one o
}.

(** The detached ratio of the probabilities of target and proposal over the number of samples. *)
Definition ratio (o : sops V) (o_exp : V -> V) (o_div : V -> V -> V) (o_num : nat -> V) (n : nat) (lp lq : V) : V :=
  o_det o (o_div (o_exp lp) (o_mul o (o_num n) (o_exp lq))).

(** Every variable of [T] has a plate of its own, [own a], with [cnt a] samples; these are all plates, [FP]. The plates [FPw] of a run have these names
    and sizes, and their weights are the ratios on the path. *)
Record ratio_weights (W : nat -> assignment -> V) (FP FPw : list plate) (T : list nat) (own : nat -> string) (cnt : nat -> nat) : Prop := {
  rw_sizes : sizes_of FPw = sizes_of FP;
  rw_own : NoDup T /\ NoDup (map pname FP) /\ forall nm k, In (nm, k) (sizes_of FP) <-> exists a, In a T /\ own a = nm /\ cnt a = k;
  rw_distinct : forall a b, In a T -> In b T -> own a = own b -> a = b;
  rw_weight : forall a p s, In a T -> In p FPw -> pname p = own a -> in_range s FPw -> weight_at FPw p s = W a s
}.

(** The average over all choices of samples. *)
Definition average_over (o : sops V) (recip : nat -> V) (FP : list plate) (f : assignment -> V) : V :=
  sum_over o FP (fun s => o_mul o (oprod o (map (fun p => recip (pn p)) FP)) (f s)) (fun _ => 0).

(** The expectation of [f] over [n] independent draws of one of [m] options, of which option [k] has the probability [q k]. *)
Fixpoint mean_draws (o : sops V) (m : nat) (q : nat -> V) (n : nat) (f : list nat -> V) : V :=
  match n with
  | 0 => f []
  | S n => osum o (map (fun k => o_mul o (q k) (mean_draws o m q n (fun l => f (k :: l)))) (seq 0 m))
  end.
End Spec.
