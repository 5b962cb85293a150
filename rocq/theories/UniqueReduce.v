(** UniquePlate.reduce (storch/unique.py:30-34), what storch.reduce_plates calls for a unique plate (storch/storch.py:124-128). *)
From Coq Require Import String List Arith Bool.
From Verif Require Import Base Torch Plates Unique.
Import ListNotations.

Section UniqueReduceModel.
Context {V : Type}.
Variable veq : V -> V -> bool.
(** order_plates(plates, reverse=True) (storch/storch.py:143-177), modelled for ordinary plates in OrderPlates.v. *)
Variable order : list (@uplate V) -> res (list (@uplate V)).
(** Plate.reduce (storch/tensor.py:74-101), modelled for tensors with ordinary plates in Reduce.v. In each of its cases a wrapped call gets the
    tensor as an argument and collects its plates; [plain_reduce] is everything after the first collection. An error before that one, for a
    plate that the tensor lacks, is left out. *)
Variable plain_reduce : plate V -> @utensor V -> res (@utensor V).

(** The plates to reduce: "if not plates: return tensor, tensor.plates" (storch/storch.py:87-88). *)
Definition to_reduce (shrunken : list (@uplate V)) (b : @utensor V) : list (@uplate V) :=
  match shrunken with [] => u_plates b | _ => shrunken end.

(** "for plate in ...: tensor = plate.reduce(tensor, ...)" (storch/storch.py:125-126); [None] when a call has not returned. *)
Fixpoint each (f : @uplate V -> @utensor V -> option (res (@utensor V))) (l : list (@uplate V)) (b : @utensor V) : option (res (@utensor V)) :=
  match l with
  | [] => Some (Ok b)
  | p :: r => match f p b with Some (Ok b') => each f r b' | x => x end
  end.

(** plate.reduce(tensor); [None] when the recursion is deeper than [fuel]. *)
Fixpoint any_reduce (fuel : nat) (p : @uplate V) (a : @utensor V) : option (res (@utensor V)) :=
  match fuel with
  | 0 => None
  | S fuel =>
      match p with
      | UPlain q => Some (do _ <- u_collect veq (u_plates a); plain_reduce q a)
      | UUniq _ _ shrunken _ _ =>
          match plate_undo veq 0 p a with
          | Err e => Some (Err e)
          | Ok b => match order (to_reduce shrunken b) with
                    | Err e => Some (Err e)
                    | Ok l => each (any_reduce fuel) l b
                    end
          end
      end
  end.
End UniqueReduceModel.
