(** Which sequences have ended: the marks that SequenceDecoding.sample sets, get_amt_finished and all_finished
    (storch/sampling/seq.py:199-202, 318-325, 333-339). Tensors of Booleans hold 0 and 1. *)
From Coq Require Import String List Arith Bool Lia.
From Verif Require Import Base Torch Plates Wrap Reduce SeqPlates Names.
Import ListNotations.
Open Scope string_scope.
Open Scope nat_scope.
Open Scope list_scope.

(** torch.sum(t, -1): the last dimension is summed; a tensor without dimensions stays what it is. *)
Definition sum_last (ts : list (ten nat)) : res (ten nat) :=
  match ts with
  | [t] => match rev (shape t) with
           | [] => Ok t
           | n :: r => Ok (mkten (rev r) (fun i => list_sum (map (fun j => el t (i ++ [j])) (seq 0 n))))
           end
  | _ => Err TypeError
  end.
(** t.eq(v). *)
Definition eq_to (v : nat) (t : ten nat) : ten nat := tmap (fun x => if x =? v then 1 else 0) t.
Definition eq_fn (v : nat) (ts : list (ten nat)) : res (ten nat) :=
  match ts with [t] => Ok (eq_to v t) | _ => Err TypeError end.
(** t.all(). *)
Definition all_true (t : ten nat) : bool := forallb (fun i => negb (el t i =? 0)) (indices (shape t)).

Section Finished.
Variable veq : nat -> nat -> bool.
Variable anc_unwrap : plate nat -> stensor nat -> res (stensor nat).

(** The attribute finished_samples: None (storch/sampling/seq.py:171), or what samples.eq gave. *)
Definition finished : Type := option (@drawn nat).
(** [if self.eos: self.finished_samples = samples.eq(self.eos)] (storch/sampling/seq.py:199-202); the method eq of a storch tensor is
    the wrapped method Tensor.eq (storch/tensor.py:573-575). *)
Definition mark (eos : option nat) (samples : @drawn nat) (old : finished) (base : nat) : res finished :=
  match eos with
  | Some (S e) => match samples with
                  | DrawnTorch t => Ok (Some (DrawnTorch (eq_to (S e) t)))
                  | DrawnStorch a => do r <- torch_function veq anc_unwrap "eq" (torch_fnN (eq_fn (S e))) [PT a] [] base;
                                     do r <- as_tensor r;
                                     Ok (Some (DrawnStorch r))
                  end
  | _ => Ok old
  end.

(** What get_amt_finished returns: the number 0 or a tensor. *)
Inductive amount : Type := AZero | ATensor (t : @drawn nat).
(** get_amt_finished (storch/sampling/seq.py:318-325). *)
Definition get_amt_finished (eos : option nat) (f : finished) (base : nat) : res amount :=
  match eos with
  | None | Some 0 => Err RuntimeError
  | Some (S _) => match f with
                  | None => Ok AZero
                  | Some (DrawnTorch t) => do r <- sum_last [t]; Ok (ATensor (DrawnTorch r))
                  | Some (DrawnStorch a) => do r <- torch_function veq anc_unwrap "sum" (torch_fnN sum_last) [PT a] [] base;
                                            do r <- as_tensor r;
                                            Ok (ATensor (DrawnStorch r))
                  end
  end.
(** all_finished (storch/sampling/seq.py:333-339): a Python number has no method eq. *)
Definition all_finished (k : nat) (eos : option nat) (f : finished) (base : nat) : res bool :=
  do n <- get_amt_finished eos f base;
  match n with
  | AZero => Err AttributeError
  | ATensor (DrawnTorch t) => Ok (all_true (eq_to k t))
  | ATensor (DrawnStorch a) => do r <- torch_function veq anc_unwrap "eq" (torch_fnN (eq_fn k)) [PT a] [] (base + 2);
                               do r <- as_tensor r;
                               Ok (all_true (st r))
  end.
End Finished.
