(** Functions on storch tensors that look at the dimensions of their arguments: indexing (storch/tensor.py:322-324), torch.broadcast_tensors,
    with which torch.distributions combines parameters (storch/__init__.py:41-54), storch.cat (storch/storch.py:258-267) and storch.gather
    (storch/storch.py:100-104). *)
From Coq Require Import String List Arith Bool ZArith.
From Verif Require Import Base Torch Plates Wrap Ancestral.
Import ListNotations.

(** An element of an index: a number, ":", "lo:hi", None and "...". Tensors and steps in indices are not modelled. *)
Inductive idx_item : Type := IInt (i : Z) | IAll | IRange (lo hi : nat) | INone | IEllipsis.
Definition consumes (x : idx_item) : bool := match x with IInt _ | IAll | IRange _ _ => true | _ => false end.
Definition is_ellipsis (x : idx_item) : bool := match x with IEllipsis => true | _ => false end.
(** The number of dimensions an index addresses. *)
Definition consumed (l : list idx_item) : nat := List.length (filter consumes l).

(** torch.Tensor.__getitem__ without "...": the shape of the result and the index of the argument for an index of the result. *)
Fixpoint index_dims (l : list idx_item) (shp : list nat) : res (list nat * (list nat -> list nat)) :=
  match l with
  | [] => Ok (shp, fun i => i)
  | INone :: r => do (s, g) <- index_dims r shp; Ok (1 :: s, fun i => g (tl i))
  | IEllipsis :: _ => Err IndexError
  | x :: r =>
      match shp with
      | [] => Err IndexError
      | n :: shp =>
          match x with
          | IInt z =>
              let k := if (z <? 0)%Z then (z + Z.of_nat n)%Z else z in
              if ((0 <=? k) && (k <? Z.of_nat n))%Z
              then do (s, g) <- index_dims r shp; Ok (s, fun i => Z.to_nat k :: g i)
              else Err IndexError
          | IRange lo hi =>
              do (s, g) <- index_dims r shp;
              Ok (Nat.min hi n - Nat.min lo n :: s, fun i => Nat.min lo n + hd 0 i :: g (tl i))
          | _ => do (s, g) <- index_dims r shp; Ok (n :: s, fun i => hd 0 i :: g (tl i))
          end
      end
  end.
(** "..." stands for as many ":" as needed; only one is allowed. *)
Fixpoint fill_ellipsis (k : nat) (l : list idx_item) : list idx_item :=
  match l with
  | [] => []
  | IEllipsis :: r => repeat IAll k ++ r
  | x :: r => x :: fill_ellipsis k r
  end.
Definition torch_index {A} (l : list idx_item) (t : ten A) : res (ten A) :=
  if ndim t <? consumed l then Err IndexError
  else do (s, g) <- index_dims (fill_ellipsis (ndim t - consumed l) l) (shape t); Ok (mkten s (fun i => el t (g i))).

(** torch.broadcast_tensors: RuntimeError if the shapes do not fit. *)
Definition broadcast_tensors {A} (ts : list (ten A)) : res (list (ten A)) :=
  do s <- foldM (fun s t => match bshape s (shape t) with Some r => Ok r | None => Err RuntimeError end) ts [];
  mapM (expand s) ts.

(** torch.cat(ts, dim): the same number of dimensions and the same sizes except in the dimension [dim]; RuntimeError for no tensors (ValueError
    in the newest versions). Old versions of torch skip tensors of shape [0]; this is not modelled. *)
Definition norm_dim (rank : nat) (z : Z) : res nat :=
  let k := if (z <? 0)%Z then (z + Z.of_nat rank)%Z else z in
  if ((0 <=? k) && (k <? Z.of_nat rank))%Z then Ok (Z.to_nat k) else Err IndexError.
Fixpoint cat_at {A} (d : A) (ts : list (ten A)) (k j : nat) (i : list nat) : A :=
  match ts with
  | [] => d
  | t :: r => let n := nth k (shape t) 0 in if j <? n then el t (set_at k j i) else cat_at d r k (j - n) i
  end.
Definition torch_cat {A} (ts : list (ten A)) (dim : Z) : res (ten A) :=
  match ts with
  | [] => Err RuntimeError
  | t :: _ =>
      do k <- norm_dim (ndim t) dim;
      if forallb (fun u => (ndim u =? ndim t) && list_eqb (remove_at k (shape u)) (remove_at k (shape t))) ts
      then Ok (mkten (set_at k (list_sum (map (fun u => nth k (shape u) 0) ts)) (shape t)) (fun i => cat_at (el t i) ts k (nth k i 0) i))
      else Err RuntimeError
  end.

Section TensorFns.
Context {V : Type}.
Variable veq : V -> V -> bool.
Variable anc_unwrap : plate V -> stensor V -> res (stensor V).

(** Tensor.__getitem__ (storch/tensor.py:322-324), wrapped by deterministic(l_broadcast=False). *)
Definition getitem_opts : wopts := mkW true true false false false None None.
Definition getitem (a : stensor V) (index : list idx_item) (base : nat) : res (pyval V) :=
  handle_deterministic veq anc_unwrap top_ctx (torch_fn1 (torch_index index)) [PT a] [] [] getitem_opts base.

(** torch.broadcast_tensors on storch and torch tensors (storch/tensor.py:268): a tuple of tensors. *)
Definition broadcast_fn (args : list (pyval V)) (kwargs : list (string * pyval V)) : res (pyval V) :=
  match raws args, kwargs with
  | Some ts, [] => do us <- broadcast_tensors ts; Ok (PTuple (map (@PRaw V) us))
  | _, _ => Err TypeError
  end.
Definition st_broadcast (args : list (pyval V)) (base : nat) : res (pyval V) :=
  handle_deterministic veq anc_unwrap top_ctx broadcast_fn args [] [] default_opts base.

(** storch.cat(ts, dim) (storch/storch.py:258-267), wrapped by deterministic(expand_plates=True). The number [dim] passes through the wrapper. *)
Definition cat_opts : wopts := mkW true true true true false None None.
Definition cat_fn (dim : Z) (args : list (pyval V)) (kwargs : list (string * pyval V)) : res (pyval V) :=
  match args, kwargs with
  | [PList l], [] => match raws l with Some ts => do t <- torch_cat ts dim; Ok (PRaw t) | None => Err TypeError end
  | _, _ => Err TypeError
  end.
Definition st_cat (ts : list (pyval V)) (dim : Z) (base : nat) : res (pyval V) :=
  handle_deterministic veq anc_unwrap top_ctx (cat_fn dim) [PList ts] [] [] cat_opts base.

(** storch.gather(input, dim, index) (storch/storch.py:100-104): the wrapper passes the dimension of the plate called [dim] on as the keyword
    "dim". [toi] reads an element of the index tensor. *)
Variable toi : V -> nat.
Definition gather_opts (dim : string) : wopts := mkW true true true true false (Some dim) None.
Definition gather_call (args : list (pyval V)) (kwargs : list (string * pyval V)) : res (pyval V) :=
  match args, kwargs with
  | [PRaw t], [("index"%string, PRaw i); ("dim"%string, PInt d)] => do r <- torch_gather toi d t i; Ok (PRaw r)
  | _, _ => Err TypeError
  end.
Definition st_gather (input : stensor V) (dim : string) (index : stensor V) (base : nat) : res (pyval V) :=
  handle_deterministic veq anc_unwrap top_ctx gather_call [PT input] [("index"%string, PT index)] [] (gather_opts dim) base.
End TensorFns.
