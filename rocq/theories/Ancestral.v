(** The plates of sequential sampling methods: AncestralPlate (storch/sampling/seq.py:15-144), expand_with_ignore_as
    (storch/sampling/seq.py:643-668) and storch.gather (storch/storch.py:100-104).

    The attributes parent_plate and selected_samples of a plate are functions of the plate, which like all attributes depend
    on the object only, here on its name and variable_index. The flags [_in_recursion] and [_override_equality] change during
    unwrapping: [rec] lists the plates that are in recursion, and [_override_equality] is the boolean in the class of the
    plate, set and reset in all copies of the plate that take part in the call. Exceptions leave the flags as they are
    in the code; what happens after an exception is not modelled. Identities of the tensors made on the way are all
    [base], because nothing here looks at them. *)
From Coq Require Import String List Arith Bool Lia.
From Verif Require Import Base Torch Plates Wrap.
Import ListNotations.

(** torch.gather(input, dim, index): RuntimeError for different ranks, for an index larger than the input in another
    dimension and for an index out of range. [toi] reads an element of the index tensor. *)
Definition set_at (d v : nat) (idx : list nat) : list nat := firstn d idx ++ v :: skipn (S d) idx.
Definition gather_fits (d : nat) (inp idx : list nat) : bool :=
  (length inp =? length idx) && forallb (fun p => snd p <=? fst p) (combine (remove_at d inp) (remove_at d idx)).
Definition torch_gather {V} (toi : V -> nat) (d : nat) (inp idx : ten V) : res (ten V) :=
  match nth_error (shape inp) d with
  | None => Err IndexError
  | Some n =>
      if negb (gather_fits d (shape inp) (shape idx)) then Err RuntimeError
      else if negb (forallb (fun i => toi (el idx i) <? n) (indices (shape idx))) then Err RuntimeError
      else Ok (mkten (shape idx) (fun i => el inp (set_at d (toi (el idx i)) i)))
  end.

(** _expand_with_ignore (storch/sampling/seq.py:653-660) for a dimension counted from the left. The -1 keeps the size of
    the tensor's own dimension. *)
Definition expand_with_ignore {V} (d : nat) (t like : ten V) : res (ten V) :=
  let u := unsqueeze_right (ndim like - ndim t) t in
  match nth_error (shape u) d with
  | None => Err RuntimeError
  | Some n => expand (firstn d (shape like) ++ [n] ++ skipn (S d) (shape like)) u
  end.

Section AncestralModel.
Context {V : Type}.
Variable veq : V -> V -> bool.
Variable toi : V -> nat.

(** AncestralPlate.parent_plate and AncestralPlate.selected_samples (storch/sampling/seq.py:31-32). *)
Variable parent_plate : string -> nat -> option (plate V).
Variable selected_samples : string -> nat -> option (stensor V).

(** The plate object [name, variable_index]. *)
Definition is_plate (name : string) (vi : nat) (p : plate V) : bool :=
  match pcls p with
  | PlainPlate => false
  | Ancestral vi' _ => String.eqb name (pname p) && (vi =? vi')
  end.

(** "self._override_equality = ov" (storch/sampling/seq.py:68-69, 122, 128). *)
Definition set_override (ov : bool) (p : plate V) : plate V :=
  match p with
  | mkPlate (Ancestral vi _) x n w l => mkPlate (Ancestral vi ov) x n w l
  | _ => p
  end.

(** The plates in recursion. *)
Definition recs : Type := list (string * nat).
Definition in_recursion (rec : recs) (p : plate V) : bool := existsb (fun k => is_plate (fst k) (snd k) p) rec.

(** The copies of the plate object [p] in a list get _override_equality. *)
Definition mark (p : plate V) (l : list (plate V)) : list (plate V) :=
  map (fun q => match pcls p with
                | Ancestral vi _ => if is_plate (pname p) vi q then set_override true q else q
                | PlainPlate => q
                end) l.

(** AncestralPlate.on_collecting_args (storch/sampling/seq.py:59-72) and Plate.on_collecting_args for the plate [p], and the
    filter over all plates (storch/wrappers.py:219-220): [all] are the collected plates with their current flags. *)
Definition collecting (rec : recs) (l : list (plate V)) : res (list (plate V)) :=
  do (kept, _) <- fold_left (fun (acc : res (list (plate V) * list (plate V))) p =>
    do (kept, all) <- acc;
    let all := if in_recursion rec p then mark p all else all in
    let p := if in_recursion rec p then set_override true p else p in
    let hidden := match pcls p with
                  | PlainPlate => false
                  | Ancestral _ _ => existsb (in_recursion rec) all && negb (in_recursion rec p)
                  end in
    do b <- (if hidden then Ok false else on_collecting_args veq p all);
    Ok (if b then kept ++ [p] else kept, all)) l (Ok ([], l));
  Ok kept.

(** The plates of an argument with the flags they have after collecting: all of them have been visited, so those in
    recursion have _override_equality. *)
Definition refresh (rec : recs) (a : stensor V) : stensor V :=
  mkS (sid a) (st a) (map (fun p => if in_recursion rec p then set_override true p else p) (splates a))
      (s_plate_dims a) (s_event_shape a) (sparents a) (s_stochastic a).

(** storch.deterministic(fn, dim=name, expand_plates=True) called on storch tensors [ts] (storch/wrappers.py:341-390 with
    _prepare_args 177-272), while the plates [rec] are in recursion and [hook] is what on_unwrap_tensor does for an ancestral
    plate. Without a name no dimension is passed to [fn], which raises TypeError. The flags are reset afterwards by the
    caller (storch/sampling/seq.py:122, 128), so that the plates of the result have them reset. *)
Definition expand_opts (name : string) : wopts := mkW true true true true false (Some name) None.
Definition det_dim (rec : recs) (hook : plate V -> stensor V -> res (stensor V)) (base : nat) (name : string)
  (fn : nat -> list (ten V) -> res (ten V)) (ts : list (stensor V)) : res (stensor V) :=
  let '(parents, plates, med) := collect veq (PList (map PT ts)) ([], [], 0) in
  do plates <- collecting rec plates;
  let ts := map (refresh rec) ts in
  if String.eqb name "" then Err TypeError
  else match dim_pos name (mdp plates) 0 with
       | None => Err UnboundLocalError
       | Some i =>
           do us <- mapM (unwrap_tensor veq hook (mdp plates) (expand_opts name) med) ts;
           do out <- fn i us;
           mk_tensor base out (map sid parents) (map (set_override false) plates) false
       end.

(** expand_with_ignore_as(tensor, expand_as, name) (storch/sampling/seq.py:643-668) and storch.gather(input, dim, index)
    (storch/storch.py:100-104). *)
Definition expand_ignore_fn (i : nat) (us : list (ten V)) : res (ten V) :=
  match us with [t; like] => expand_with_ignore i t like | _ => Err TypeError end.
Definition gather_fn (i : nat) (us : list (ten V)) : res (ten V) :=
  match us with [t; idx] => torch_gather toi i t idx | _ => Err TypeError end.

(** The first plate with a given name, with its position (storch/sampling/seq.py:99-101). *)
Fixpoint named (name : string) (l : list (plate V)) (i : nat) : option (nat * plate V) :=
  match l with
  | [] => None
  | p :: r => if String.eqb (pname p) name then Some (i, p) else named name r (S i)
  end.

Definition pvi (p : plate V) : nat := match pcls p with Ancestral vi _ => vi | PlainPlate => 0 end.

(** "while current_plate.variable_index != plate.variable_index" (storch/sampling/seq.py:113-118): the collected plates, the
    last one first, and the plate that ends the loop. parent_plate is None for the first variable, so that reading its
    variable_index raises AttributeError. The variable index decreases from plate to parent plate
    (storch/sampling/seq.py:28-30), so [fuel] above the index of [cur] is enough. *)
Fixpoint downstream (fuel : nat) (cur : plate V) (vi : nat) : res (list (plate V) * plate V) :=
  if pvi cur =? vi then Ok ([], cur)
  else match fuel with
       | 0 => Err RuntimeError
       | S f => match parent_plate (pname cur) (pvi cur) with
                | None => Err AttributeError
                | Some p => do (l, q) <- downstream f p vi; Ok (l ++ [cur], q)
                end
       end.

(** AncestralPlate.on_unwrap_tensor (storch/sampling/seq.py:83-137). The recursion is through storch.gather, which calls
    on_unwrap_tensor again for plates with a smaller variable index; [fuel] above the index of [self] is enough, and running
    out of it is a RuntimeError (Python's RecursionError). *)
Fixpoint anc_unwrap_rec (fuel : nat) (rec : recs) (base : nat) (self : plate V) (a : stensor V) : res (stensor V) :=
  match fuel with
  | 0 => Err RuntimeError
  | S f =>
      if in_recursion rec self then Ok a
      else match named (pname self) (splates a) 0 with
           | None => Ok a
           | Some (i, q) =>
               match pcls q with
               | PlainPlate => Err AssertionError
               | Ancestral vq _ =>
                   if vq =? pvi self then Ok a
                   else if pvi self <? vq then Err AssertionError
                   else match selected_samples (pname self) (pvi self) with
                        | None => mk_tensor base (st a) [sid a] (firstn i (splates a) ++ self :: skipn (S i) (splates a)) false
                        | Some _ =>
                            do (l, cur) <- downstream (S (pvi self)) self vq;
                            if negb (peq veq cur q) then Err AssertionError
                            else
                              let rec' := (pname self, pvi self) :: rec in
                              let hook := anc_unwrap_rec f rec' base in
                              foldM (fun a pp =>
                                match selected_samples (pname pp) (pvi pp) with
                                | None => Err AttributeError
                                | Some sel =>
                                    do e <- det_dim rec' hook base (pname self) expand_ignore_fn [sel; a];
                                    det_dim rec' hook base (pname pp) gather_fn [a; e]
                                end) l a
                        end
               end
           end
  end.

(** The method as _unsqueeze_and_unwrap calls it (storch/wrappers.py:84-86). *)
Definition anc_on_unwrap (base : nat) (self : plate V) (a : stensor V) : res (stensor V) :=
  anc_unwrap_rec (S (pvi self)) [] base self a.

(** parent_indexing as SequenceDecoding.sample leaves it (storch/sampling/seq.py:230-233): the new plate is inserted into
    the list of plates, after the tensor has computed its plate_dims and event_shape. *)
Definition insert_plate (k : nat) (p : plate V) (a : stensor V) : stensor V :=
  mkS (sid a) (st a) (firstn k (splates a) ++ p :: skipn k (splates a)) (s_plate_dims a) (s_event_shape a) (sparents a)
      (s_stochastic a).

End AncestralModel.
