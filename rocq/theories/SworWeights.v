(** The weights of samples without replacement and of Rao-Blackwellised samples, and eos in ancestral sampling.

    Everything here is for one choice of the other plates. A number that is not defined (NaN) is [None]. *)
From Coq Require Import Reals List Arith Bool.
From Verif Require Import Base.
Import ListNotations.
Local Open Scope R_scope.

(** SequenceDecoding.EPS (storch/sampling/seq.py:152). *)
Definition iw_eps : R := / 100000000.

(** q (storch/sampling/swor.py:196-200): with a threshold of minus infinity the inner exponential is infinite. *)
Definition iw_q (kappa : option R) (lp : R) : R :=
  match kappa with Some t => 1 - exp (- exp (lp - t)) | None => 1 end.

(** compute_iw without normalisation (storch/sampling/swor.py:192-203, 207). *)
Definition compute_iw (lp : list R) (pert : list (option R)) : list R :=
  let k := length pert in
  let kappa := nth (k - 1) pert None in
  let iw := map (fun l => exp l / (iw_q kappa l + iw_eps)) lp in
  firstn (k - 1) iw ++ 0 :: skipn k iw.

Definition rsum (l : list R) : R := fold_right Rplus 0 l.
Definition fdiv (a b : R) : option R := if Req_EM_T b 0 then None else Some (a / b).

(** weighting_function (storch/sampling/swor.py:184-207). *)
Definition swor_weights (biased : bool) (lp : list R) (pert : list (option R)) : list (option R) :=
  let iw := compute_iw lp pert in
  if biased then map (fun w => fdiv w (rsum iw)) iw else map Some iw.

(** RaoBlackwellizedSample.weighting_function (storch/sampling/mapo.py:84-102), values only. *)
Definition rb_weights (k : nat) (lp : list R) : list R :=
  if Nat.eqb (length lp) k then
    let probs := map exp (removelast lp) in probs ++ [1 - rsum probs]
  else map exp lp.

(** bool(tensor) for a boolean tensor with the given elements. *)
Definition tensor_bool (l : list bool) : res bool :=
  match l with [] => Ok false | [b] => Ok b | _ => Err RuntimeError end.

(** MCDecoder.decode with the samples torch draws (storch/sampling/seq.py:334-361), followed by the rest of
    SequenceDecoding.sample as far as it concerns finished samples (storch/sampling/seq.py:199-202, 249-262) and by
    weighting_function (storch/sampling/seq.py:270-278). [fin] is finished_samples. "1 - finished_samples" raises
    RuntimeError for a boolean tensor. *)
Definition mc_step (eos : option nat) (fin : option (list bool)) (drawn : list nat) : res (list nat * option (list bool)) :=
  do sample <- match fin with
               | None => Ok drawn
               | Some f => do b <- tensor_bool f;
                           Ok (if b : bool then map (fun fs => if fst fs : bool then match eos with Some t => t | None => 0%nat end else snd fs)
                                           (combine f drawn)
                               else drawn)
               end;
  let fin := match eos with Some (S t) => Some (map (Nat.eqb (S t)) sample) | _ => fin end in
  do _ <- match fin with
          | None => Ok tt
          | Some f => do b <- tensor_bool f; if b : bool then Err RuntimeError else Ok tt
          end;
  match eos with Some (S _) => Err RuntimeError | _ => Ok (sample, fin) end.
