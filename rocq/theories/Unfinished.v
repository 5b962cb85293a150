(** Two functions that are not finished: split (storch/util.py:254-304) and SumAndSample (storch/sampling/swor.py:254-296). *)
From Coq Require Import String List Arith Bool Lia.
From Verif Require Import Base Torch Plates.
Import ListNotations.
Open Scope string_scope.
Open Scope nat_scope.
Open Scope list_scope.

(** The public methods of a Python list. *)
Definition list_methods : list string :=
  ["append"; "clear"; "copy"; "count"; "extend"; "index"; "insert"; "pop"; "remove"; "reverse"; "sort"].
(** Attribute lookup on a list. *)
Definition list_method (name : string) : res unit := if existsb (String.eqb name) list_methods then Ok tt else Err AttributeError.

Section Split.
Context {V : Type}.
(** The slices (storch/util.py:267-271): [if not slices] also replaces an empty list. plate.n / None raises TypeError and
    plate.n / 0 ZeroDivisionError, which is modelled as [UserExn 0]. *)
Definition slices_of (n : nat) (amt : option nat) (slices : option (list (nat * nat))) : res (list (nat * nat)) :=
  match slices with
  | Some (s :: r) => Ok (s :: r)
  | _ => match amt with
         | None => Err TypeError
         | Some 0 => Err (UserExn 0)
         | Some (S k) => let len := n / S k in Ok (map (fun i => (i * len, (i + 1) * len)) (seq 0 (S k)))
         end
  end.
(** split (storch/util.py:254-304) up to line 276, [new_plates.index_in(plate)]: [new_plates] is a list, and index_in is a
    method of Plate (storch/tensor.py:136-137), not of lists. [rest] is what comes after that line, which is not modelled. *)
Definition split {A} (rest : list (nat * nat) -> nat -> list (plate V) -> res A) (a : stensor V) (p : plate V) (amt : option nat)
  (slices : option (list (nat * nat))) : res A :=
  do sl <- slices_of (pn p) amt slices;
  let new_plates := splates a in
  do i <- get_plate_dim_index a (pname p);
  do _ <- list_method "index_in";
  rest sl i new_plates.
End Split.

Section SumAndSample.
Context {P : Type}.
Variable d : P.
(** torch.topk(l, k): the indices; RuntimeError if there are fewer than k elements. *)
Variable topk : list P -> nat -> list nat.
Definition torch_topk (l : list P) (k : nat) : res (list nat) := if length l <? k then Err RuntimeError else Ok (topk l k).
(** What the method returns: two tensors, or None at its end. *)
Inductive selection : Type := Two (pert : list P) (index : list nat) | Nothing.
(** SumAndSample.select_samples (storch/sampling/swor.py:274-296), on one row of log-probabilities. *)
Definition sum_and_sample (sum_size sample_size : nat) (pert joint : list P) : res selection :=
  let amt_sum := Nat.min sum_size (length joint) in
  do sum_samples <- torch_topk joint amt_sum;
  let sum_pert := map (fun i => nth i pert d) sum_samples in
  if amt_sum <? sum_size then Ok (Two sum_pert sum_samples)
  else
    let amt_sample := Nat.min sample_size (length pert - sum_size) in
    do samples <- torch_topk joint (amt_sample + length pert);
    Ok Nothing.
(** [a, b, c = self.select_samples(...)] in decode_step (storch/sampling/swor.py:119-121). *)
Definition unpack3 (r : selection) : res (list P * list P * list nat) :=
  match r with Two _ _ => Err ValueError | Nothing => Err TypeError end.
(** SumAndSample.__init__ (storch/sampling/swor.py:260-272): the check of the sizes, and what decode_step does next. *)
Definition sum_and_sample_step (sum_size sample_size : nat) (pert joint : list P) : res (list P * list P * list nat) :=
  if (sum_size <? 1) || (sample_size <? 1) then Err ValueError
  else do r <- sum_and_sample sum_size sample_size pert joint; unpack3 r.
End SumAndSample.
