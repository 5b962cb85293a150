(** Enumeration of the support: Enumerate.sample and Enumerate.weighting_function (storch/sampling/expect.py:11-87), used by
    method.Expect (storch/method/method.py:578-580). Distributions without event shape; the support is represented by the
    indices 0 .. e-1 of its values, 0 being the value that [new_zeros] fills in. *)
From Coq Require Import Reals List Arith Bool.
From Verif Require Import Base Torch.
Import ListNotations.

(** itertools.product(support, repeat=c) (storch/sampling/expect.py:55-57): the last component runs fastest. *)
Fixpoint tuples (e c : nat) : list (list nat) :=
  match c with 0 => [[]] | S c => flat_map (fun v => map (cons v) (tuples e c)) (seq 0 e) end.

(** The loop over the sizes (storch/sampling/expect.py:37-44): amt_samples_used and cross_products. *)
Definition count_sizes (e : nat) (sizes : list nat) : nat * option nat :=
  fold_left (fun '(amt, cp) d => (amt ^ d, match cp with Some (S c) => Some (S c ^ d) | _ => Some d end)) sizes
            (e, match sizes with [] => Some 1 | _ => None end).

(** [enumerate_tensor[i] = torch.cat(t, dim=0)] (storch/sampling/expect.py:58): whether a tensor of shape [c] can be
    broadcast to the shape of the row, and the element at an index. *)
Definition row_fits (batch : list nat) (c : nat) : bool :=
  (c =? 1) || match rev batch with m :: _ => c =? m | [] => false end.
Definition row_at (t : list nat) (idx : list nat) : nat :=
  match t with [v] => v | _ => nth (last idx 0) t 0 end.

(** Enumerate.sample (storch/sampling/expect.py:29-60): the number of samples, and the sample as a function of the index of
    the enumeration and the index in the batch. [batch] is the batch shape of the distribution, [nplates] the number of
    plates, [e] the size of the support. [squeeze()] makes a support with one value zero-dimensional, so that
    [unsqueeze(1)] raises IndexError (54). *)
Definition enumerate (e budget nplates : nat) (batch : list nat) : res (nat * (nat -> list nat -> nat)) :=
  let sizes := skipn nplates batch in
  let '(amt, cp) := count_sizes e sizes in
  let c := match cp with Some c => c | None => 0 end in
  if budget <? amt then Err ValueError
  else if e =? 1 then Err IndexError
  else
    let ts := tuples e c in
    match ts with
    | [] => Ok (amt, fun _ _ => 0)
    | _ => if negb (row_fits batch c) then Err RuntimeError
           else if amt <? length ts then Err IndexError
           else Ok (amt, fun i idx => match nth_error ts i with Some t => row_at t idx | None => 0 end)
    end.

(** Enumerate.weighting_function (storch/sampling/expect.py:78-87) for one choice of the other plates: [lp x] are the
    log-probabilities of the options of the event with index [x], and [events] the indices of the events. *)
Definition enumerate_weight (lp : list nat -> list R) (events : list (list nat)) (value : list nat -> nat) : R :=
  exp (fold_right Rplus 0%R (map (fun x => nth (value x) (lp x) 0%R) events)).
