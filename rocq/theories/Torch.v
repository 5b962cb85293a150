(** A model of the part of torch.Tensor that storch relies on.
    A tensor is a shape and a function from index lists to elements; only indices within the shape matter.
    Errors PyTorch raises for bad shapes are [Err]. dtype, device, strides and storage sharing are not modelled. *)
From Coq Require Import List Arith Bool Lia.
From Verif Require Import Base.
Import ListNotations.

Record ten (A : Type) : Type := mkten { shape : list nat; el : list nat -> A }.
Arguments mkten {A} _ _.
Arguments shape {A} _.
Arguments el {A} _ _.

(** An index list addresses an element: right length and within bounds. *)
Definition valid (idx shp : list nat) : Prop := Forall2 lt idx shp.

(** Same shape, same elements. *)
Definition teq {A} (t u : ten A) : Prop := shape t = shape u /\ forall idx, valid idx (shape t) -> el t idx = el u idx.

Definition ndim {A} (t : ten A) : nat := length (shape t).

(** All valid index lists in row-major order. *)
Fixpoint indices (shp : list nat) : list (list nat) :=
  match shp with
  | [] => [[]]
  | n :: r => flat_map (fun i => map (cons i) (indices r)) (seq 0 n)
  end.

(** torch.Tensor.transpose(i, j): IndexError if a dimension is out of range. *)
Definition transpose {A} (i j : nat) (t : ten A) : res (ten A) :=
  if (i <? ndim t) && (j <? ndim t)
  then Ok (mkten (swapl i j (shape t)) (fun idx => el t (swapl i j idx)))
  else Err IndexError.

(** torch.Tensor.unsqueeze(i): a new dimension of size one at position i. *)
Definition unsqueeze {A} (i : nat) (t : ten A) : res (ten A) :=
  if i <=? ndim t
  then Ok (mkten (insert_at i 1 (shape t)) (fun idx => el t (remove_at i idx)))
  else Err IndexError.

(** [t[(...,) + (None,) * k]]: k new trailing dimensions of size one. *)
Definition unsqueeze_right {A} (k : nat) (t : ten A) : ten A :=
  mkten (shape t ++ repeat 1 k) (fun idx => el t (firstn (ndim t) idx)).

(** squeeze of dimension 0 when it has size one (otherwise PyTorch leaves the tensor unchanged). *)
Definition squeeze0 {A} (t : ten A) : ten A :=
  match shape t with
  | 1 :: r => mkten r (fun idx => el t (0 :: idx))
  | _ => t
  end.

(** Broadcasting looks at dimensions from the right; a dimension of size one is repeated. *)
Fixpoint bshape_rev (s1 s2 : list nat) : option (list nat) :=
  match s1, s2 with
  | [], _ => Some s2
  | _, [] => Some s1
  | a :: r1, b :: r2 =>
      match bshape_rev r1 r2 with
      | None => None
      | Some r => if a =? b then Some (a :: r)
                  else if a =? 1 then Some (b :: r)
                  else if b =? 1 then Some (a :: r)
                  else None
      end
  end.
Definition bshape (s1 s2 : list nat) : option (list nat) := option_map (@rev nat) (bshape_rev (rev s1) (rev s2)).

(** The index into an operand of shape [shp] for an index of the broadcast result. *)
Fixpoint zip_clip (shp idx : list nat) : list nat :=
  match shp, idx with
  | d :: r, i :: s => (if d =? 1 then 0 else i) :: zip_clip r s
  | _, _ => []
  end.
Definition bidx (shp idx : list nat) : list nat := zip_clip shp (skipn (length idx - length shp) idx).

(** An elementwise binary torch function; RuntimeError if the shapes cannot be broadcast. *)
Definition elementwise2 {A B C} (f : A -> B -> C) (t : ten A) (u : ten B) : res (ten C) :=
  match bshape (shape t) (shape u) with
  | Some s => Ok (mkten s (fun idx => f (el t (bidx (shape t) idx)) (el u (bidx (shape u) idx))))
  | None => Err RuntimeError
  end.

Definition tmap {A B} (f : A -> B) (t : ten A) : ten B := mkten (shape t) (fun idx => f (el t idx)).

(** t.expand(shp): RuntimeError unless every dimension of t is one or agrees. *)
Fixpoint expandable_rev (s target : list nat) : bool :=
  match s, target with
  | [], _ => true
  | _ :: _, [] => false
  | a :: r, b :: q => ((a =? b) || (a =? 1)) && expandable_rev r q
  end.
Definition expand {A} (shp : list nat) (t : ten A) : res (ten A) :=
  if expandable_rev (rev (shape t)) (rev shp)
  then Ok (mkten shp (fun idx => el t (bidx (shape t) idx)))
  else Err RuntimeError.

(** Row-major position of an index, and back. *)
Fixpoint ravel (shp idx : list nat) : nat :=
  match shp, idx with
  | _ :: r, i :: s => i * lprod r + ravel r s
  | _, _ => 0
  end.
Fixpoint unravel (shp : list nat) (k : nat) : list nat :=
  match shp with
  | [] => []
  | _ :: r => (k / lprod r) :: unravel r (k mod lprod r)
  end.

(** t.reshape(shp) with all sizes given: RuntimeError unless the number of elements agrees. *)
Definition reshape {A} (shp : list nat) (t : ten A) : res (ten A) :=
  if lprod shp =? lprod (shape t)
  then Ok (mkten shp (fun idx => el t (unravel (shape t) (ravel shp idx))))
  else Err RuntimeError.

(** t.reshape((-1,) + rest): the first size is inferred; RuntimeError if it is ambiguous or does not divide. *)
Definition reshape_infer {A} (rest : list nat) (t : ten A) : res (ten A) :=
  if lprod rest =? 0 then Err RuntimeError
  else if (lprod (shape t)) mod (lprod rest) =? 0
       then reshape ((lprod (shape t) / lprod rest) :: rest) t
       else Err RuntimeError.

(** Reductions over a set of dimensions, given as a mask over the dimensions (true = reduced). *)
Fixpoint select (b : bool) (mask : list bool) (l : list nat) : list nat :=
  match mask, l with
  | m :: ms, x :: xs => if Bool.eqb m b then x :: select b ms xs else select b ms xs
  | _, _ => []
  end.
(** Interleave the index of the kept dimensions with the index of the reduced ones. *)
Fixpoint merge (mask : list bool) (kept red : list nat) : list nat :=
  match mask with
  | [] => []
  | true :: ms => match red with r :: rs => r :: merge ms kept rs | [] => [] end
  | false :: ms => match kept with k :: ks => k :: merge ms ks red | [] => [] end
  end.
Definition dims_mask (rank : nat) (dims : list nat) : list bool :=
  map (fun d => existsb (Nat.eqb d) dims) (seq 0 rank).

(** A torch reduction (sum, mean, logsumexp, ...) applying [red] to the list of reduced elements, row-major.
    Dimensions out of range raise IndexError, a repeated dimension RuntimeError.
    As in torch.sum, an empty tuple of dimensions reduces everything. *)
Definition reduce_dims {A B} (red : list A -> B) (dims : list nat) (t : ten A) : res (ten B) :=
  if negb (forallb (fun d => d <? ndim t) dims) then Err IndexError
  else if negb (Nat.eqb (length (nodup Nat.eq_dec dims)) (length dims)) then Err RuntimeError
  else let mask := match dims with [] => repeat true (ndim t) | _ => dims_mask (ndim t) dims end in
       Ok (mkten (select false mask (shape t))
             (fun idx => red (map (fun r => el t (merge mask idx r)) (indices (select true mask (shape t)))))).

(** A scalar tensor and a tensor of rank one. *)
Definition tscalar {A} (a : A) : ten A := mkten [] (fun _ => a).
Definition tvec {A} (d : A) (l : list A) : ten A := mkten [length l] (fun idx => nth (hd 0 idx) l d).
