(** The stochastic computation graph: construction of tensors, walks over it, the topological sort used for printing,
    and the cleaning of the graph after a backward call. Tensors are numbered by creation; only the links, the
    [_cleaned] flag and the registries of inference.py are kept. *)
From Coq Require Import String List Arith Bool Lia.
From Verif Require Import Base.
Import ListNotations.

(** An edge as stored in [_parents] and [_children]: the other tensor and the differentiability flag
    (storch/tensor.py:226, the annotation [List[Tuple[Tensor, bool]]]). *)
Definition edge := (nat * bool)%type.

(** The attributes [_parents], [_children] and [_cleaned] of all tensors created so far (storch/tensor.py:226-237).
    [h_size] tensors exist; tensor [i] is the [i]-th created. *)
Record heap := mkHeap {
  h_size : nat;
  h_parents : nat -> list edge;
  h_children : nat -> list edge;
  h_cleaned : nat -> bool }.

(** No tensor has been created yet. *)
Definition empty_heap : heap := mkHeap 0 (fun _ => []) (fun _ => []) (fun _ => false).

(** Attribute assignment [x.attr = v] on tensor [i] (Python semantics). *)
Definition set_at {A} (f : nat -> A) (i : nat) (v : A) : nat -> A := fun j => if j =? i then v else f j.

(** [p._children.append((self, differentiable_link))] and [self._parents.append((p, differentiable_link))]
    (storch/tensor.py:230-236: the body of the loop over [parents]; the link flag is always [False]). *)
Definition link (new : nat) (h : heap) (p : nat) : heap :=
  mkHeap (h_size h) (set_at (h_parents h) new (h_parents h new ++ [(p, false)]))
         (set_at (h_children h) p (h_children h p ++ [(new, false)])) (h_cleaned h).

(** The graph part of [Tensor.__init__] (storch/tensor.py:226-237): [self._parents = []], one link per element of
    [parents], then [self._children = []] and [self._cleaned = False]. *)
Definition construct (parents : list nat) (h : heap) : heap :=
  let n := h_size h in
  let h0 := mkHeap (S n) (set_at (h_parents h) n []) (h_children h) (h_cleaned h) in
  let h1 := fold_left (link n) parents h0 in
  mkHeap (h_size h1) (h_parents h1) (set_at (h_children h1) n []) (set_at (h_cleaned h1) n false).

(** Membership test by identity: [v.is_in(visited)] (storch/tensor.py:553-557). *)
Definition mem (x : nat) (l : list nat) : bool := existsb (Nat.eqb x) l.

(** The loop of [_walk_backwards] with [depth_first=True] (storch/tensor.py:341-349). The top of the Python stack [S] is
    the head of [stack]; [acc] holds the yielded tensors, latest first. [walk_fn] is left at its default, the
    identity. [None] means that the fuel did not suffice. *)
Fixpoint dfs (fuel : nat) (expand : nat -> list edge) (only_diff rep : bool) (stack visited acc : list nat)
  : option (list nat) :=
  match fuel with
  | 0 => None
  | S k =>
    match stack with
    | [] => Some (rev acc)
    | v :: r =>
      if rep || negb (mem v visited)
      then dfs k expand only_diff rep
               (rev (map fst (filter (fun e => snd e || negb only_diff) (expand v))) ++ r) (v :: visited) (v :: acc)
      else dfs k expand only_diff rep r visited acc
    end
  end.

(** The inner [for] loop of the breadth first branch (storch/tensor.py:360-365): extends the queue and [visited]. *)
Definition bfs_push (only_diff rep : bool) (qv : list nat * list nat) (e : edge) : list nat * list nat :=
  let '(w, d) := e in
  if (rep || negb (mem w (snd qv))) && (d || negb only_diff) then (fst qv ++ [w], w :: snd qv) else qv.

(** The breadth first loop (storch/tensor.py:350-365); [out] holds the visited tensors, latest first. *)
Fixpoint bfs (fuel : nat) (expand : nat -> list edge) (only_diff rep : bool) (queue visited out : list nat)
  : option (list nat) :=
  match fuel with
  | 0 => None
  | S k =>
    match queue with
    | [] => Some (rev out)
    | v :: q =>
      let '(q', visited') := fold_left (bfs_push only_diff rep) (expand v) (q, visited) in
      bfs k expand only_diff rep q' visited' (v :: out)
    end
  end.

(** [_walk_backwards] (storch/tensor.py:330-369): [reverse] only has an effect on the breadth first walk. *)
Definition walk (fuel : nat) (expand : nat -> list edge) (depth_first reverse only_diff rep : bool) (self : nat)
  : option (list nat) :=
  if depth_first then dfs fuel expand only_diff rep [self] [] []
  else match bfs fuel expand only_diff rep [self] [self] [] with
       | Some l => Some (if reverse then rev l else l)
       | None => None
       end.

(** [walk_parents] and [walk_children] (storch/tensor.py:371-430). *)
Definition walk_parents (fuel : nat) (h : heap) := walk fuel (h_parents h).
Definition walk_children (fuel : nat) (h : heap) := walk fuel (h_children h).

(** [has_differentiable_path] (storch/util.py:164-168): looks for [output] among the tensors reached from [input] over
    differentiable links. *)
Definition has_differentiable_path (fuel : nat) (h : heap) (output input : nat) : option bool :=
  option_map (mem output) (walk_children fuel h true false true false input).

(** The order in which [surrogate_loss] meets the ancestors of a cost (storch/inference.py:132). *)
Definition surrogate_order (fuel : nat) (h : heap) (c : nat) : option (list nat) :=
  walk_parents fuel h false true false false c.

(** [del children[c]] where [c] is the position of [n], or [-1] when [n] is not in the list
    (storch/util.py:194-199); an empty list raises IndexError. *)
Definition del_child (n : nat) (children : list nat) : res (list nat) :=
  match indexb Nat.eqb n children with
  | Some i => Ok (remove_at i children)
  | None => match children with [] => Err IndexError | _ => Ok (removelast children) end
  end.

(** The body of the loop over [n._parents] (storch/util.py:187-201). [edges] maps a tensor to the list of its children
    that have not been handled yet, once it has been met. *)
Definition topo_parent (h : heap) (n : nat) (st : list nat * (nat -> option (list nat))) (e : edge)
  : res (list nat * (nat -> option (list nat))) :=
  let '(s, edges) := st in
  let p := fst e in
  let children := match edges p with Some l => l | None => map fst (h_children h p) end in
  do rest <- del_child n children;
  Ok (match rest with [] => p :: s | _ => s end, set_at edges p (Some rest)).

(** The [while s] loop (storch/util.py:184-201); the end of the Python list [s] is the head of [s]. The fuel is made an
    error value ([UserExn 0]). *)
Fixpoint topo_loop (fuel : nat) (h : heap) (s : list nat) (edges : nat -> option (list nat)) (l : list nat)
  : res (list nat) :=
  match fuel with
  | 0 => Err (UserExn 0)
  | S k =>
    match s with
    | [] => Ok (rev l)
    | n :: r =>
      do st <- foldM (topo_parent h n) (h_parents h n) (r, edges);
      topo_loop k h (fst st) (snd st) (n :: l)
    end
  end.

(** [topological_sort] (storch/util.py:171-202). [is_cost] tells which tensors are cost nodes. *)
Definition topological_sort (fuel : nat) (h : heap) (is_cost : nat -> bool) (costs : list nat) : res (list nat) :=
  if existsb (fun c => negb (is_cost c) || negb (match h_children h c with [] => true | _ => false end)) costs
  then Err ValueError
  else topo_loop fuel h (rev costs) (fun _ => None) [].

(** Setting the flag and the two final assignments of [_clean] (storch/tensor.py:438, 443-444). *)
Definition mark_cleaned (n : nat) (h : heap) : heap :=
  mkHeap (h_size h) (h_parents h) (h_children h) (set_at (h_cleaned h) n true).
Definition drop_links (n : nat) (h : heap) : heap :=
  mkHeap (h_size h) (set_at (h_parents h) n []) (set_at (h_children h) n []) (h_cleaned h).

(** [Tensor._clean] (storch/tensor.py:432-444). The recursion is bounded by [fuel]; [None] means it did not suffice
    (Python's own recursion limit is not modelled). The extra work of [StochasticTensor._clean]
    (storch/tensor.py:862-873), dropping gradients and hooks, does not touch the links and is left out. *)
Fixpoint clean (fuel : nat) (n : nat) (h : heap) : option heap :=
  match fuel with
  | 0 => None
  | S k =>
    if h_cleaned h n then Some h
    else
      let all := fix all (l : list edge) (h : heap) : option heap :=
        match l with
        | [] => Some h
        | e :: r => match clean k (fst e) h with Some h' => all r h' | None => None end
        end in
      match all (h_children h n) (mark_cleaned n h) with
      | Some h1 =>
        match all (h_parents h1 n) h1 with
        | Some h2 => Some (drop_links n h2)
        | None => None
        end
      | None => None
      end
  end.

(** The module-level registries [_cost_tensors] and [_sampling_methods] (storch/inference.py:8-9) next to the graph;
    [g_resets m] counts how often [reset] has been called on method [m]. *)
Record gstate := mkG { g_heap : heap; g_costs : list nat; g_methods : list nat; g_resets : nat -> nat }.

(** Registration of a method when it is sampled from (storch/method/method.py:176-178). *)
Definition register_method (m : nat) (g : gstate) : gstate :=
  if mem m (g_methods g) then g else mkG (g_heap g) (g_costs g) (g_methods g ++ [m]) (g_resets g).

(** Registration of a cost that has been constructed (storch/inference.py:99-101, with gradients enabled): a new
    tensor whose only parent is [c]. *)
Definition register_cost (c : nat) (g : gstate) : gstate :=
  mkG (construct [c] (g_heap g)) (g_costs g ++ [h_size (g_heap g)]) (g_methods g) (g_resets g).

(** The loop [for c in _cost_tensors: c._clean()] (storch/inference.py:266-267). *)
Fixpoint clean_all (fuel : nat) (l : list nat) (h : heap) : option heap :=
  match l with
  | [] => Some h
  | c :: r => match clean fuel c h with Some h' => clean_all fuel r h' | None => None end
  end.

(** [reset] (storch/inference.py:263-272). *)
Definition reset (fuel : nat) (g : gstate) : option gstate :=
  match clean_all fuel (g_costs g) (g_heap g) with
  | Some h => Some (mkG h [] [] (fold_left (fun r m => set_at r m (S (r m))) (g_methods g) (g_resets g)))
  | None => None
  end.

(** The graph effects of [surrogate_loss] for one processed stochastic node (storch/inference.py:166-181): a tensor
    without parents is created, then it takes over the parent list of [parent], becomes a child of each of these, and
    takes over the child list of [parent]. Python shares the list objects by reference afterwards, so that later
    appends to one show up in the other; here they are copied. *)
Definition fake_parent (parent : nat) (h : heap) : heap :=
  let h0 := construct [] h in
  let n := h_size h in
  let h1 := mkHeap (h_size h0) (set_at (h_parents h0) n (h_parents h0 parent)) (h_children h0) (h_cleaned h0) in
  let h2 := fold_left (fun h e => mkHeap (h_size h) (h_parents h)
                         (set_at (h_children h) (fst e) (h_children h (fst e) ++ [(n, snd e)])) (h_cleaned h))
                      (h_parents h1 n) h1 in
  mkHeap (h_size h2) (h_parents h2) (set_at (h_children h2) n (h_children h2 parent)) (h_cleaned h2).

(** The end of [backward] without [create_graph] (storch/inference.py:255-258): [SL._clean()], then [reset()]. *)
Definition backward_cleanup (fuel : nat) (sl : nat) (g : gstate) : option gstate :=
  match clean fuel sl (g_heap g) with
  | Some h => reset fuel (mkG h (g_costs g) (g_methods g) (g_resets g))
  | None => None
  end.

(** [Reparameterization.is_pathwise], [GumbelSoftmax.is_pathwise] and [GumbelSparseMax.is_pathwise]
    (storch/method/method.py:325-333, 389-397, 461-471); [check] is [storch.CHECK_DIFFERENTIABLE_PATH]
    (storch/__init__.py:31, [False] by default). The fuel of the walk is an error value. *)
Definition reparam_is_pathwise (fuel : nat) (check : bool) (h : heap) (tensor cost : nat) : res bool :=
  if negb check then Ok true
  else match has_differentiable_path fuel h cost tensor with
       | None => Err (UserExn 0)
       | Some true => Ok true
       | Some false => Err ValueError
       end.

(** [Infer.is_pathwise] (storch/method/method.py:300-306). *)
Definition infer_is_pathwise (fuel : nat) (h : heap) (tensor cost : nat) : res bool :=
  match has_differentiable_path fuel h cost tensor with
  | None => Err (UserExn 0)
  | Some b => Ok b
  end.
