(** Indexing as torch and numpy document it, element by element, without the model of torch.Tensor.__getitem__. *)
From Coq Require Import List Arith ZArith.
From Verif Require Import Base Torch TensorFns.
Import ListNotations.
Open Scope nat_scope.
Open Scope list_scope.

(** The number [z] names the place [k] of [n] places; negative numbers count from the end. *)
Definition names_place (z : Z) (n k : nat) : Prop := k < n /\ (Z.of_nat k = z \/ Z.of_nat k = z + Z.of_nat n)%Z.
(** [indexed b items shp s]: indexing a tensor of shape [shp] gives one of shape [s]. After "..." ([b] is true) every dimension is addressed;
    otherwise the dimensions that are left are kept. "lo:hi" keeps the places k of n with lo <= k < hi. *)
Inductive indexed : bool -> list idx_item -> list nat -> list nat -> Prop :=
| ix_rest : forall shp, indexed false [] shp shp
| ix_end : indexed true [] [] []
| ix_none : forall b r shp s, indexed b r shp s -> indexed b (INone :: r) shp (1 :: s)
| ix_int : forall b z k r n shp s, names_place z n k -> indexed b r shp s -> indexed b (IInt z :: r) (n :: shp) s
| ix_all : forall b r n shp s, indexed b r shp s -> indexed b (IAll :: r) (n :: shp) (n :: s)
| ix_range : forall b lo hi m r n shp s, (forall k, lo <= k -> (k < lo + m <-> k < hi /\ k < n)) -> indexed b r shp s -> indexed b (IRange lo hi :: r) (n :: shp) (m :: s)
| ix_dots : forall q r shp s, indexed true r shp s -> indexed false (IEllipsis :: r) (q ++ shp) (q ++ s).
(** [picks b items shp e j]: the element of the result at [e] is the element of the tensor at [j]. *)
Inductive picks : bool -> list idx_item -> list nat -> list nat -> list nat -> Prop :=
| pk_rest : forall shp e, valid e shp -> picks false [] shp e e
| pk_end : picks true [] [] [] []
| pk_none : forall b r shp e j, picks b r shp e j -> picks b (INone :: r) shp (0 :: e) j
| pk_int : forall b z k r n shp e j, names_place z n k -> picks b r shp e j -> picks b (IInt z :: r) (n :: shp) e (k :: j)
| pk_all : forall b r n shp k e j, k < n -> picks b r shp e j -> picks b (IAll :: r) (n :: shp) (k :: e) (k :: j)
| pk_range : forall b lo hi r n shp k e j, lo + k < hi -> lo + k < n -> picks b r shp e j -> picks b (IRange lo hi :: r) (n :: shp) (k :: e) (lo + k :: j)
| pk_dots : forall q r shp x e j, valid x q -> picks true r shp e j -> picks false (IEllipsis :: r) (q ++ shp) (x ++ e) (x ++ j).
