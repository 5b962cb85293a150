(** Walking PyTorch's autograd graph to find out which tensors an output was computed from. *)
From Coq Require Import String List Arith Bool Lia.
From Verif Require Import Base Graph.
Import ListNotations.

(** PyTorch's side: every autograd function has a tuple [next_functions] (an entry may be [None]) and, for
    AccumulateGrad functions, an attribute [variable]. A tensor is its identity and its [grad_fn]. *)
Record autograd := mkAutograd { next_functions : nat -> list (option nat); variable : nat -> option nat }.
Record tref := mkT { t_id : nat; t_grad_fn : option nat }.

(** [_walk_backward_graph] (storch/util.py:91-100); [out] holds what has been yielded, latest first, which is also the
    set [visited]. *)
Fixpoint walk_backward (fuel : nat) (g : autograd) (to_visit : list (option nat)) (out : list nat) : option (list nat) :=
  match fuel with
  | 0 => None
  | S k =>
    match to_visit with
    | [] => Some (rev out)
    | None :: q => walk_backward k g q out
    | Some n :: q =>
      if mem n out then walk_backward k g q out
      else walk_backward k g (q ++ next_functions g n) (n :: out)
    end
  end.

(** The condition in the search loop (storch/util.py:149-153). *)
Definition hits (g : autograd) (p : nat) (input : tref) : bool :=
  match variable g p with
  | Some v => if v =? t_id input then true
              else match t_grad_fn input with Some f => p =? f | None => false end
  | None => match t_grad_fn input with Some f => p =? f | None => false end
  end.

(** The first entry of [to_search] that is hit (storch/util.py:147-154): its position and its input number. *)
Fixpoint first_hit (g : autograd) (p : nat) (to_search : list (nat * tref)) : option (nat * nat) :=
  match to_search with
  | [] => None
  | (i, input) :: r => if hits g p input then Some (0, i) else option_map (fun ji => (S (fst ji), snd ji)) (first_hit g p r)
  end.

(** The loop over the autograd functions (storch/util.py:145-161): [if found_i:] is false for input number 0. *)
Fixpoint search (g : autograd) (ps : list nat) (to_search : list (nat * tref)) (has_paths : list bool) : list bool :=
  match ps with
  | [] => has_paths
  | p :: r =>
    match first_hit g p to_search with
    | Some (j, S i) =>
      let has_paths' := upd (S i) true has_paths in
      if forallb (fun b => b) has_paths' then has_paths' else search g r (remove_at j to_search) has_paths'
    | _ => search g r to_search has_paths
    end
  end.

(** The Python result: a list of Booleans, or the value [False]. *)
Inductive paths := Paths (l : list bool) | NoList.

(** Marking the inputs that are the output itself, and the list [to_search] (storch/util.py:136-144). *)
Definition same_as (output : tref) (inputs : list tref) : list bool := map (fun i => t_id output =? t_id i) inputs.
Definition to_search (output : tref) (inputs : list tref) : list (nat * tref) :=
  filter (fun ni => negb (t_id output =? t_id (snd ni))) (combine (seq 0 (length inputs)) inputs).

(** [has_backwards_path] for an output that is not a StochasticTensor (storch/util.py:113-161). *)
Definition has_backwards_path (fuel : nat) (g : autograd) (output : tref) (inputs : list tref) : option paths :=
  match t_grad_fn output with
  | None => Some (Paths (map (fun _ => false) inputs))
  | Some f =>
    match to_search output inputs with
    | [] => Some NoList
    | ts => option_map (fun ps => Paths (search g ps ts (same_as output inputs))) (walk_backward fuel g [Some f] [])
    end
  end.

(** The branch for a StochasticTensor with a [grad_fn] (storch/util.py:129-135): the results for the distribution
    parameters that require gradients are joined with [or]; [zip] raises TypeError on [False]. The fuel is an error
    value. *)
Definition has_backwards_path_stochastic (fuel : nat) (g : autograd) (params inputs : list tref) : res (list bool) :=
  foldM (fun acc param =>
           match has_backwards_path fuel g param inputs with
           | None => Err (UserExn 0)
           | Some NoList => Err TypeError
           | Some (Paths l) => Ok (map (fun ab => fst ab || snd ab) (combine acc l))
           end) params (map (fun _ => false) inputs).
