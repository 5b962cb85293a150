(** Plates of unique elements: storch/unique.py. *)
From Coq Require Import String List Arith Bool Lia.
From Verif Require Import Base Torch Plates.
Import ListNotations.

(** torch.flatten(t, start_dim): the dimensions from [d] on become one; a scalar becomes a vector of one element.
    IndexError if [d] is no dimension. *)
Definition flatten_from {A} (d : nat) (t : ten A) : res (ten A) :=
  match shape t with
  | [] => if d =? 0 then Ok (mkten [1] (fun _ => el t [])) else Err IndexError
  | _ => if d <? ndim t
         then Ok (mkten (firstn d (shape t) ++ [lprod (skipn d (shape t))])
                        (fun i => el t (firstn d i ++ unravel (skipn d (shape t)) (nth d i 0))))
         else Err IndexError
  end.
(** torch.index_select(t, dim=0, index): IndexError unless [index] is a vector (or a number) of positions in range. *)
Definition index_select0 {A} (t : ten A) (index : ten nat) : res (ten A) :=
  match shape t with
  | [] => Err IndexError
  | n :: r =>
      match shape index with
      | [] => if el index [] <? n then Ok (mkten (1 :: r) (fun i => el t (el index [] :: tl i))) else Err IndexError
      | [m] => if forallb (fun j => el index [j] <? n) (seq 0 m)
               then Ok (mkten (m :: r) (fun i => el t (el index [hd 0 i] :: tl i))) else Err IndexError
      | _ => Err IndexError
      end
  end.

Section UniqueModel.
Context {V : Type}.
Variable veq : V -> V -> bool.
(** torch.unique(t, return_inverse=True, dim=dim); [None] is dim=None. *)
Variable torch_unique : option nat -> ten V -> res (ten V * ten nat).
Notation plate := (plate V).
Notation stensor := (stensor V).

(** A plate, or a UniquePlate (storch/unique.py:17-28) with its shrunken plates and the inverse indices: the tensor and the
    plates of inv_indexing. *)
Inductive uplate : Type :=
| UPlain (p : plate)
| UUniq (name : string) (n : nat) (shrunken : list uplate) (inv : ten nat) (inv_plates : list uplate).
Definition uname (p : uplate) : string := match p with UPlain p => pname p | UUniq s _ _ _ _ => s end.
Definition un (p : uplate) : nat := match p with UPlain p => pn p | UUniq _ n _ _ _ => n end.
(** isinstance(plate, UniquePlate). *)
Definition is_uq (p : uplate) : bool := match p with UPlain _ => false | UUniq _ _ _ _ _ => true end.

(** Plate.__eq__ (storch/tensor.py:39-58) when one of the plates is a UniquePlate: its weight is None (28), so the weight of
    the other may not be a storch tensor. AncestralPlate.__eq__ (storch/sampling/seq.py:44-46) is False for a UniquePlate. *)
Definition ueq (p q : uplate) : bool :=
  match p, q with
  | UPlain a, UPlain b => peq veq a b
  | UPlain a, UUniq s n _ _ _ =>
      match pcls a with
      | Ancestral _ _ => false
      | PlainPlate => String.eqb (pname a) s && (pn a =? n) && match pweight a with WTorch _ => true | _ => false end
      end
  | UUniq s n _ _ _, UPlain b =>
      String.eqb s (pname b) && (n =? pn b) && match pweight b with WTorch _ => true | _ => false end
  | UUniq s n _ _ _, UUniq s' n' _ _ _ => String.eqb s s' && (n =? n')
  end.
(** UniquePlate.has_shrunken (storch/unique.py:45-51). *)
Fixpoint has_shrunken (self p : uplate) : bool :=
  match self with
  | UPlain _ => false
  | UUniq _ _ sh _ _ => existsb (fun q => ueq p q || has_shrunken q p) sh
  end.
(** The plates a wrapped call collects from one tensor (storch/wrappers.py:204-212): the names within a tensor are
    distinct, so only UniquePlate.on_collecting_args (storch/unique.py:36-43) can object. *)
Definition u_collect (l : list uplate) : res unit :=
  if existsb (fun p => is_uq p && existsb (has_shrunken p) l) l then Err ValueError else Ok tt.

(** A storch tensor with such plates. The constructor only looks at names and sizes, so its model is used with an ordinary
    plate in the place of a UniquePlate. *)
Record utensor : Type := mkU { us : stensor; u_plates : list uplate }.
Definition as_plate (t : ten V) (p : uplate) : plate :=
  match p with UPlain p => p | UUniq s n _ _ _ => mkPlate PlainPlate s n (WTorch t) [] end.
Definition u_tensor (id : nat) (t : ten V) (parents : list nat) (plates : list uplate) : res utensor :=
  do a <- mk_tensor id t parents (map (as_plate t) plates) false; Ok (mkU a plates).
(** Tensor.multi_dim_plates (storch/tensor.py:544-545). *)
Definition u_multi (l : list uplate) : list uplate := filter (fun p => 1 <? un p) l.

(** unique (storch/unique.py:78-95). The name of the tensor may not be None. *)
Definition unique (id : nat) (name : string) (event_dim : option nat) (a : utensor) : res utensor :=
  do _ <- u_collect (u_plates a);
  do fl <- flatten_from (s_plate_dims (us a)) (st (us a));
  do (uniq, inv) <- torch_unique event_dim fl;
  do _ <- check_plates (shape inv) (map (as_plate fl) (u_plates a)) [] 0;
  match shape uniq with
  | [] => Err IndexError
  | n :: _ => u_tensor id uniq [sid (us a)] [UUniq ("uq_plate_" ++ name) n (u_multi (u_plates a)) inv (u_plates a)]
  end.

(** UniquePlate.undo_unique (storch/unique.py:53-75). Inside ignore_wrapping, operations on storch tensors return torch
    tensors (storch/wrappers.py:380-381). *)
Definition plate_undo (id : nat) (p : uplate) (a : utensor) : res utensor :=
  match p with
  | UPlain _ => Err AttributeError
  | UUniq name _ shrunken inv inv_plates =>
      do i <- get_plate_dim_index (us a) name;
      do _ <- u_collect (u_plates a);
      do sw <- transpose i (s_plate_dims (us a) - 1) (st (us a));
      do _ <- u_collect inv_plates;
      do fl <- index_select0 sw inv;
      do sel <- reshape (map un shrunken ++ skipn 1 (shape fl)) fl;
      u_tensor id sel [sid (us a)] (shrunken ++ u_plates a)
  end.
(** is_unique (storch/unique.py:106-110). *)
Definition is_unique (a : utensor) : bool := existsb is_uq (u_plates a).
(** undo_unique (storch/unique.py:98-103); [None] when the loop has not ended after [fuel] rounds. The identities of the
    results are not told apart. *)
Definition undo_round (a : utensor) : res utensor :=
  foldM (fun b p => if is_uq p then plate_undo 0 p b else Ok b) (u_plates a) a.
Fixpoint undo_unique (fuel : nat) (a : utensor) : option (res utensor) :=
  if is_unique a then
    match fuel with
    | 0 => None
    | S fuel => match undo_round a with
                | Ok b => undo_unique fuel b
                | Err e => Some (Err e)
                end
    end
  else Some (Ok a).
End UniqueModel.
