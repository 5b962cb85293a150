(** What torch.unique(dim=0) promises. *)
From Coq Require Import List Arith.
From Verif Require Import Base Torch Plates SpecTensor Unique.
Import ListNotations.

(** The rows of [u] are the different rows of [t]; row [i] of [t] is row [inv i] of [u]. *)
Record unique_rows {V} (t u : ten V) (inv : ten nat) : Prop := {
  ur_shape : exists n m r, shape t = n :: r /\ shape u = m :: r /\ shape inv = [n];
  ur_row : forall i r, valid (i :: r) (shape t) -> valid (el inv [i] :: r) (shape u) /\ el u (el inv [i] :: r) = el t (i :: r);
  ur_used : forall p, p < hd 0 (shape u) -> exists i, i < hd 0 (shape t) /\ el inv [i] = p;
  ur_distinct : forall p q, p < hd 0 (shape u) -> q < hd 0 (shape u) -> p <> q ->
    exists r, valid r (tl (shape u)) /\ el u (p :: r) <> el u (q :: r)
}.
Definition finds_unique {V} (f : option nat -> ten V -> res (ten V * ten nat)) : Prop :=
  forall t, shape t <> [] -> (forall d, In d (shape t) -> 0 < d) -> exists u inv, f (Some 0) t = Ok (u, inv) /\ unique_rows t u inv.

(** A tensor without unique plates, as a tensor of the unique model. *)
Definition ordinary {V} (a : stensor V) : utensor := mkU a (map UPlain (splates a)).

(** [u] has shrunk [p], itself or through a unique plate it has shrunk. *)
Inductive shrunk {V} : @uplate V -> @uplate V -> Prop :=
| Sh_here : forall s n sh inv ip p, In p sh -> shrunk (UUniq s n sh inv ip) p
| Sh_deep : forall s n sh inv ip q p, In q sh -> shrunk q p -> shrunk (UUniq s n sh inv ip) p.

(** The plates that == identifies. Two unique plates need the same name and the same size; a plate and a unique plate need
    in addition that the weight of the plate is a torch tensor, and an ancestral plate is never equal to a unique one. *)
Inductive same_uplate {V} (veq : V -> V -> bool) : @uplate V -> @uplate V -> Prop :=
| SU_plain : forall p q, peq veq p q = true -> same_uplate veq (UPlain p) (UPlain q)
| SU_uniq : forall s n sh inv ip sh' inv' ip', same_uplate veq (UUniq s n sh inv ip) (UUniq s n sh' inv' ip')
| SU_left : forall p w sh inv ip, pcls p = PlainPlate -> pweight p = WTorch w -> same_uplate veq (UPlain p) (UUniq (pname p) (pn p) sh inv ip)
| SU_right : forall p w sh inv ip, pweight p = WTorch w -> same_uplate veq (UUniq (pname p) (pn p) sh inv ip) (UPlain p).
