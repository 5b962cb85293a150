(** Enumerate.sample (storch/sampling/expect.py:11-76) for a distribution of one-hot vectors (OneHotCategorical), whose event shape is [[e]]: as
    in Enumerate.v, with another dimension at the end of every tensor. *)
From Coq Require Import List Arith Bool.
From Verif Require Import Base Torch Enumerate.
Import ListNotations.

(** Value number [v] of the support, a row of the identity matrix. *)
Definition hot (e v : nat) : list nat := map (fun j => if j =? v then 1 else 0) (seq 0 e).

(** Lines 29-60: the number of samples, and the vector at the index of the enumeration and the index in the batch. The sizes leave out the event
    (34-36). squeeze() and unsqueeze(1) give the support the shape [[e; 1; e]], so that torch.cat of [c] of its rows has the shape [[c; e]] (54-58), which
    is broadcast to the batch shape and the event. new_zeros fills in zeros (50-52). *)
Definition enumerate_hot (e budget nplates : nat) (batch : list nat) : res (nat * (nat -> list nat -> list nat)) :=
  let sizes := skipn nplates batch in
  let '(amt, cp) := count_sizes e sizes in
  let c := match cp with Some c => c | None => 0 end in
  if budget <? amt then Err ValueError
  else if e =? 1 then Err IndexError
  else
    let ts := tuples e c in
    let rows := map (fun t => map (hot e) t) ts in
    match rows with
    | [] => Ok (amt, fun _ _ => repeat 0 e)
    | _ => if negb (row_fits batch c) then Err RuntimeError
           else if amt <? length rows then Err IndexError
           else Ok (amt, fun i idx => match nth_error rows i with
                                      | Some [r] => r
                                      | Some t => nth (last idx 0) t (repeat 0 e)
                                      | None => repeat 0 e
                                      end)
    end.
