(** The state of the methods across backward calls: Method._update_parameters (storch/method/method.py:222-225), the
    annealing of temperatures, and the update loop of backward (storch/inference.py:232-253). *)
From Coq Require Import List Arith Bool Reals.
From Verif Require Import Base Graph.
Import ListNotations.

(** The buffers of GumbelSoftmax, GumbelEntmax and GumbelSparseMax (storch/method/method.py:374-376, 426-428) and the
    counter of Method.__init__ (41). *)
Record mstate : Type := mkM { iterations : nat; temperature : R; annealing_rate : R; min_temperature : R }.

(** update_parameters of GumbelSoftmax and GumbelEntmax (storch/method/method.py:399-403, 473-477), with exact numbers. *)
Definition anneal (m : mstate) : mstate :=
  if Rlt_dec (min_temperature m) (temperature m)
  then mkM (iterations m) ((1 - annealing_rate m) * temperature m) (annealing_rate m) (min_temperature m)
  else m.

(** Method._update_parameters (storch/method/method.py:222-225); the estimation pairs are not used by these methods. *)
Definition update_parameters (m : mstate) : mstate :=
  anneal (mkM (S (iterations m)) (temperature m) (annealing_rate m) (min_temperature m)).

(** The sets of nodes collected by backward (storch/inference.py:235-246): all stochastic tensors met on the walks from
    the costs, each once. [None]: the fuel of a walk did not suffice. *)
Fixpoint stochastic_nodes (fuel : nat) (h : heap) (stoch : nat -> bool) (costs : list nat) (acc : list nat) : option (list nat) :=
  match costs with
  | [] => Some acc
  | c :: r =>
      match walk_parents fuel h true false false false c with
      | None => None
      | Some l => stochastic_nodes fuel h stoch r
                    (fold_left (fun acc n => if stoch n && negb (mem n acc) then acc ++ [n] else acc) l acc)
      end
  end.

(** The update loop (storch/inference.py:250-253): [method n] is the method of node [n], if any. The iteration order of
    the Python set is not specified; here the nodes come in the order they were met. *)
Fixpoint update_loop (method : nat -> option nat) (nodes : list nat) (ms : nat -> mstate) : nat -> mstate :=
  match nodes with
  | [] => ms
  | n :: r => update_loop method r (match method n with
                                    | Some m => set_at ms m (update_parameters (ms m))
                                    | None => ms
                                    end)
  end.

(** The effect of backward on the methods (storch/inference.py:235-253). *)
Definition backward_methods (fuel : nat) (h : heap) (stoch : nat -> bool) (method : nat -> option nat) (costs : list nat)
  (update : bool) (ms : nat -> mstate) : option (nat -> mstate) :=
  match stochastic_nodes fuel h stoch costs [] with
  | None => None
  | Some l => Some (if update then update_loop method l ms else ms)
  end.
