(** Topological ordering of plates: storch/storch.py:131-177. *)
From Coq Require Import String List Arith Bool Lia.
From Verif Require Import Base Torch Plates.
Import ListNotations.

Section OrderModel.
Context {V : Type}.
Variable veq : V -> V -> bool.

(** _isroot (storch/storch.py:131-140). *)
Fixpoint isroot (plates : list (plate V)) (p : plate V) : bool :=
  match p with
  | mkPlate _ _ _ _ parents =>
      (fix go (l : list (plate V)) : bool :=
         match l with
         | [] => true
         | q :: r => if pin veq q plates then false
                     else if isroot plates q then go r else false
         end) parents
  end.

(** Python dictionaries from names to lists of plates, in insertion order: d.get(k) and d[k] = v. *)
Definition pdict : Type := list (string * list (plate V)).
Fixpoint dget (k : string) (d : pdict) : option (list (plate V)) :=
  match d with
  | [] => None
  | (k', v) :: r => if String.eqb k k' then Some v else dget k r
  end.
Fixpoint dset (k : string) (v : list (plate V)) (d : pdict) : pdict :=
  match d with
  | [] => [(k, v)]
  | (k', v') :: r => if String.eqb k k' then (k, v) :: r else (k', v') :: dset k v r
  end.

(** "for _p in p.parents: ..." (storch/storch.py:156-162). *)
Definition add_out (p : plate V) (out : pdict) (q : plate V) : pdict :=
  match dget (pname q) out with
  | Some l => dset (pname q) (l ++ [p]) out
  | None => dset (pname q) [] out
  end.

(** The initialisation loop (storch/storch.py:148-162): roots in list order, in_edges and out_edges. *)
Definition roots_of (plates : list (plate V)) : list (plate V) := filter (isroot plates) plates.
Definition in_edges_of (plates : list (plate V)) : pdict :=
  fold_left (fun d p => dset (pname p) (pparents p) d) plates [].
Definition out_edges_of (plates : list (plate V)) : pdict :=
  fold_left (fun d p => fold_left (add_out p) (pparents p) d) plates
            (fold_left (fun d p => dset (pname p) [] d) plates []).

(** remaining_edges.remove(n): the first equal entry; ValueError if there is none. *)
Fixpoint premove (n : plate V) (l : list (plate V)) : res (list (plate V)) :=
  match l with
  | [] => Err ValueError
  | q :: r => if peq veq q n then Ok r else do r' <- premove n r; Ok (q :: r')
  end.

(** The body of "for m in out_edges[n.name]" (storch/storch.py:167-171). The end of the Python list [roots] is the head
    of [fst s]. *)
Definition visit (n : plate V) (s : list (plate V) * pdict) (m : plate V) : res (list (plate V) * pdict) :=
  match dget (pname m) (snd s) with
  | None => Err KeyError
  | Some rem =>
      do rem' <- premove n rem;
      let d := dset (pname m) rem' (snd s) in
      Ok (match rem' with [] => m :: fst s | _ => fst s end, d)
  end.

(** "while roots" (storch/storch.py:163-171). The number of iterations is bounded by the number of plates plus the number
    of edges (proved sufficient for the inputs considered); running out of it is an error of its own. *)
Definition out_of_fuel : exn := UserExn 0.
Fixpoint kahn (fuel : nat) (plates : list (plate V)) (out : pdict) (roots sorted : list (plate V)) (ins : pdict)
  : res (list (plate V) * pdict) :=
  match roots with
  | [] => Ok (sorted, ins)
  | n :: rest =>
      match fuel with
      | 0 => Err out_of_fuel
      | S fuel' =>
          let sorted := if pin veq n plates then sorted ++ [n] else sorted in
          match dget (pname n) out with
          | None => Err KeyError
          | Some ms => do (roots', ins') <- foldM (visit n) ms (rest, ins);
                       kahn fuel' plates out roots' sorted ins'
          end
      end
  end.

(** order_plates (storch/storch.py:143-177). *)
Definition order_fuel (plates : list (plate V)) : nat :=
  length plates + list_sum (map (fun p => length (pparents p)) plates).
Definition order_plates (plates : list (plate V)) (reverse : bool) : res (list (plate V)) :=
  do (sorted, ins) <- kahn (order_fuel plates) plates (out_edges_of plates) (rev (roots_of plates)) [] (in_edges_of plates);
  if existsb (fun kv => existsb (fun p => pin veq p plates) (snd kv)) ins then Err ValueError
  else Ok (if reverse then rev sorted else sorted).

End OrderModel.
