(** Plates and storch tensors: storch/tensor.py (Plate, Tensor.__init__) and storch/sampling/seq.py (AncestralPlate). *)
From Coq Require Import String List Arith Bool Lia.
From Verif Require Import Base Torch.
Import ListNotations.

Section PlateModel.
Context {V : Type}.

(** The class of a plate. [Ancestral vi ov]: storch/sampling/seq.py:16-42, [vi] = variable_index, [ov] =
    _override_equality. The attributes parent_plate, selected_samples and log_probs are modelled in Ancestral.v. *)
Inductive pclass : Type :=
| PlainPlate
| Ancestral (vi : nat) (ov : bool).

(** Plate.weight (storch/tensor.py:30-34): a plain torch tensor, or a storch tensor. A storch weight carries the
    identity [obj] of its [_tensor] (for Python's [is]) and the names of its plates (they are the plate itself and
    some of its parents, so names suffice to find them again). *)
Inductive weight : Type :=
| WTorch (t : ten V)
| WStorch (obj : nat) (t : ten V) (wplates : list string).

(** storch/tensor.py:24-37. *)
Inductive plate : Type :=
| mkPlate (cls : pclass) (name : string) (n : nat) (w : weight) (parents : list plate).

Definition pcls (p : plate) := match p with mkPlate c _ _ _ _ => c end.
Definition pname (p : plate) := match p with mkPlate _ s _ _ _ => s end.
Definition pn (p : plate) := match p with mkPlate _ _ n _ _ => n end.
Definition pweight (p : plate) := match p with mkPlate _ _ _ w _ => w end.
Definition pparents (p : plate) := match p with mkPlate _ _ _ _ l => l end.

(** Elementwise comparison of two torch tensors of equal shape followed by .all() (storch/tensor.py:54);
    [veq] is the element comparison ==. *)
Variable veq : V -> V -> bool.
Definition all_eq (t u : ten V) : bool := forallb (fun i => veq (el t i) (el u i)) (indices (shape t)).

Fixpoint list_eqb (l m : list nat) : bool :=
  match l, m with
  | [], [] => true
  | a :: r, b :: s => (a =? b) && list_eqb r s
  | _, _ => false
  end.

(** Plate.__eq__ (storch/tensor.py:39-58) on two plates. *)
Definition plate_eq_base (p q : plate) : bool :=
  if negb (String.eqb (pname p) (pname q)) then false
  else if negb (pn p =? pn q) then false
  else match pweight p with
       | WStorch o t _ =>
           match pweight q with
           | WTorch _ => false
           | WStorch o' t' _ =>
               if o =? o' then true
               else if negb (list_eqb (shape t) (shape t')) then false
               else all_eq t t'
           end
       | WTorch _ =>
           match pweight q with
           | WStorch _ _ _ => false
           | WTorch _ => true
           end
       end.

(** AncestralPlate.__eq__ (storch/sampling/seq.py:44-52), self being ancestral. *)
Definition anc_eq (vi : nat) (ov : bool) (self other : plate) : bool :=
  match pcls other with
  | PlainPlate => false
  | Ancestral vi' ov' =>
      if ov || ov' then String.eqb (pname other) (pname self)
      else plate_eq_base self other && (vi =? vi')
  end.

(** Python's [p == q]: the right operand's __eq__ is tried first when its class is a proper subclass. *)
Definition peq (p q : plate) : bool :=
  match pcls p, pcls q with
  | PlainPlate, PlainPlate => plate_eq_base p q
  | PlainPlate, Ancestral vi ov => anc_eq vi ov q p
  | Ancestral vi ov, _ => anc_eq vi ov p q
  end.

(** [p in plates] (Python compares the list entries with ==) and plates.index(p). *)
Definition pin (p : plate) (l : list plate) : bool := inb peq p l.
Definition pindex (p : plate) (l : list plate) : option nat := indexb peq p l.

(** Plate.on_duplicate_plate: storch/tensor.py:120-121 raises, storch/sampling/seq.py:74-81 compares variable indices.
    [self] is the other plate with the same name, [p] the plate asking whether it may stay. *)
Definition on_duplicate_plate (self p : plate) : res bool :=
  match pcls self with
  | PlainPlate => Err ValueError
  | Ancestral vi _ =>
      match pcls p with
      | PlainPlate => Err ValueError
      | Ancestral vi' _ => Ok (vi <? vi')
      end
  end.

(** Plate.on_collecting_args (storch/tensor.py:103-118): the loop stops at the first duplicate that does not allow
    [self] to stay. AncestralPlate.on_collecting_args (storch/sampling/seq.py:59-72) adds the [_in_recursion] case
    used inside on_unwrap_tensor, which is modelled separately; outside recursion it is this function. *)
Fixpoint on_collecting_args (self : plate) (plates : list plate) : res bool :=
  match plates with
  | [] => Ok true
  | q :: r =>
      if String.eqb (pname q) (pname self) && negb (peq q self)
      then do keep <- on_duplicate_plate q self;
           if keep then on_collecting_args self r else Ok false
      else on_collecting_args self r
  end.

(** A storch tensor: identity, wrapped tensor, plates, and the attributes computed by the constructor.
    [sparents] are the identities of the parents (storch/tensor.py:230-236); the graph itself is in Graph.v. *)
Record stensor : Type := mkS {
  sid : nat;
  st : ten V;
  splates : list plate;
  s_plate_dims : nat;
  s_event_shape : list nat;
  sparents : list nat;
  s_stochastic : bool
}.

Definition s_event_dims (a : stensor) : nat := length (s_event_shape a).

(** The validation loop of Tensor.__init__ (storch/tensor.py:182-222): returns batch_dims. *)
Fixpoint check_plates (shp : list nat) (plates : list plate) (names : list string) (batch_dims : nat) : res nat :=
  match plates with
  | [] => Ok batch_dims
  | p :: r =>
      if existsb (String.eqb (pname p)) names then Err ValueError
      else if pn p =? 1 then check_plates shp r (pname p :: names) batch_dims
      else match nth_error shp batch_dims with
           | None => Err ValueError
           | Some d => if negb (d =? pn p) then Err ValueError
                       else check_plates shp r (pname p :: names) (S batch_dims)
           end
  end.

(** Tensor.__init__ (storch/tensor.py:171-241). The check that the argument is not itself a storch tensor
    (178-181) is enforced by the type. *)
Definition mk_tensor (id : nat) (t : ten V) (parents : list nat) (plates : list plate) (stoch : bool) : res stensor :=
  do bd <- check_plates (shape t) plates [] 0;
  Ok (mkS id t plates bd (skipn bd (shape t)) parents stoch).

(** Tensor.multi_dim_plates (storch/tensor.py:544-545). *)
Definition mdp (l : list plate) : list plate := filter (fun p => 1 <? pn p) l.
Definition multi_dim_plates (a : stensor) : list plate := mdp (splates a).

(** Tensor.get_plate (storch/tensor.py:524-528). *)
Fixpoint find_plate (name : string) (l : list plate) : res plate :=
  match l with
  | [] => Err IndexError
  | p :: r => if String.eqb (pname p) name then Ok p else find_plate name r
  end.
Definition get_plate (a : stensor) (name : string) : res plate := find_plate name (splates a).

(** Tensor.get_plate_dim_index (storch/tensor.py:530-538). *)
Fixpoint find_dim (name : string) (l : list plate) (i : nat) : res nat :=
  match l with
  | [] => Err IndexError
  | p :: r => if String.eqb (pname p) name then Ok i else find_dim name r (S i)
  end.
Definition get_plate_dim_index (a : stensor) (name : string) : res nat := find_dim name (multi_dim_plates a) 0.

End PlateModel.
Arguments plate : clear implicits.
Arguments weight : clear implicits.
Arguments stensor : clear implicits.
