(** Specification vocabulary for wrapped calls. Uses only the data types of the model. *)
From Coq Require Import String List Arith Bool Lia.
From Verif Require Import Base Torch Plates Wrap SpecTensor.
Import ListNotations.

Section Spec.
Context {V : Type}.

(** The storch tensors occurring in an argument, left to right. Distributions are opaque (storch/wrappers.py:45-68
    only looks into mappings and iterables). *)
Fixpoint tensors_in (a : pyval V) : list (stensor V) :=
  match a with
  | PT t => [t]
  | PList l | PTuple l => flat_map tensors_in l
  | PDict l => flat_map (fun kv => tensors_in (snd kv)) l
  | _ => []
  end.

(** The storch tensors of a call. *)
Definition call_tensors (args : list (pyval V)) (kwargs : list (string * pyval V)) : list (stensor V) :=
  flat_map tensors_in args ++ flat_map (fun kv => tensors_in (snd kv)) kwargs.

(** All plates of some tensors, first-seen order, one per name. *)
Definition all_plates (ts : list (stensor V)) : list (plate V) :=
  fold_left (fun acc t => union acc (splates t)) ts [].

Definition max_event (ts : list (stensor V)) : nat := fold_left (fun m t => Nat.max m (s_event_dims t)) ts 0.

(** The conditions under which the arguments of a call can be combined: well-formed tensors with ordinary plates,
    equally named plates being equal. *)
Definition callable (veq : V -> V -> bool) (ts : list (stensor V)) : Prop :=
  Forall wf ts /\ agree veq (flat_map splates ts) /\ plain (flat_map splates ts).

(** The index of the sampled variable an ancestral plate belongs to; 0 for ordinary plates. *)
Definition variable_index (p : plate V) : nat := match pcls p with Ancestral vi _ => vi | PlainPlate => 0 end.

(** [u] is [a] laid out for the plates [ps]: one dimension per plate of [ps], in that order, of the plate's size if
    [a] has the plate or if missing plates are to be expanded and of size one otherwise, followed by the event
    dimensions padded with ones on the right to rank [ed]; every element is the element of [a] at that choice. *)
Definition laid_out (ps : list (plate V)) (expand : bool) (ed : nat) (a : stensor V) (u : ten V) : Prop :=
  shape u = map (fun p => if has (splates a) (pname p) || expand then pn p else 1) ps ++ pad ed (s_event_shape a) /\
  forall (s : assignment) e, in_range s ps -> valid e (pad ed (s_event_shape a)) ->
    el u (map (fun p => if has (splates a) (pname p) || expand then s (pname p) else 0) ps ++ e)
    = den a s (firstn (s_event_dims a) e).

(** The same with the plate dimensions flattened, row-major, into one leading dimension. *)
Definition laid_out_flat (ps : list (plate V)) (ed : nat) (a : stensor V) (u : ten V) : Prop :=
  shape u = lprod (map pn ps) :: pad ed (s_event_shape a) /\
  forall (s : assignment) e, in_range s ps -> valid e (pad ed (s_event_shape a)) ->
    el u (ravel (map pn ps) (map (fun p => s (pname p)) ps) :: e) = den a s (firstn (s_event_dims a) e).

(** [v'] is [v] with every storch tensor replaced by a torch tensor related to it by [R]; all other structure and
    values, including raw torch tensors, are the same. *)
Inductive unwrapped (R : stensor V -> ten V -> Prop) : pyval V -> pyval V -> Prop :=
| U_T : forall a u, R a u -> unwrapped R (PT a) (PRaw u)
| U_Raw : forall t, unwrapped R (PRaw t) (PRaw t)
| U_None : unwrapped R PNone PNone
| U_Int : forall n, unwrapped R (PInt n) (PInt n)
| U_Other : forall n, unwrapped R (POther n) (POther n)
| U_List : forall l l', Forall2 (unwrapped R) l l' -> unwrapped R (PList l) (PList l')
| U_Tuple : forall l l', Forall2 (unwrapped R) l l' -> unwrapped R (PTuple l) (PTuple l')
| U_Dict : forall l l', Forall2 (fun x y => fst x = fst y /\ unwrapped R (snd x) (snd y)) l l' ->
                        unwrapped R (PDict l) (PDict l')
| U_Distr : forall c l l', Forall2 (fun x y => fst x = fst y /\ unwrapped R (snd x) (snd y)) l l' ->
                        unwrapped R (PDistr c l) (PDistr c l').

(** The storch tensors that are parameters of distributions in an argument. *)
Fixpoint params_in (a : pyval V) : list (stensor V) :=
  match a with
  | PList l | PTuple l => flat_map params_in l
  | PDict l => flat_map (fun kv => params_in (snd kv)) l
  | PDistr _ l => flat_map (fun kv => tensors_in (snd kv) ++ params_in (snd kv)) l
  | _ => []
  end.
Definition call_params (args : list (pyval V)) (kwargs : list (string * pyval V)) : list (stensor V) :=
  flat_map params_in args ++ flat_map (fun kv => params_in (snd kv)) kwargs.
(** The parameters have no plates the tensors lack, and no more event dimensions than some tensor. *)
Definition covered (ts ds : list (stensor V)) : Prop :=
  forall d, In d ds -> (forall p, In p (splates d) -> exists t, In t ts /\ In (pname p) (map pname (splates t))) /\
    exists t, In t ts /\ s_event_dims d <= s_event_dims t.
(** All distributions in an argument can be made again from their parameters. *)
Fixpoint rebuildable (a : pyval V) : Prop :=
  match a with
  | PList l | PTuple l => (fix go l := match l with [] => True | x :: r => rebuildable x /\ go r end) l
  | PDict l => (fix go l := match l with [] => True | (_, x) :: r => rebuildable x /\ go r end) l
  | PDistr c l => (c = DPlain \/ c = DDiscrete) /\ (fix go l := match l with [] => True | (_, x) :: r => rebuildable x /\ go r end) l
  | _ => True
  end.

(** No torch distributions among the values (their parameters are handled separately). *)
Fixpoint no_distr (a : pyval V) : Prop :=
  match a with
  | PDistr _ _ => False
  | PList l | PTuple l => (fix go l := match l with [] => True | x :: r => no_distr x /\ go r end) l
  | PDict l => (fix go l := match l with [] => True | (_, x) :: r => no_distr x /\ go r end) l
  | _ => True
  end.

(** A function of torch tensors that treats its first dimension as a batch, for arguments whose rows have the shapes
    [rows]: row b of the result has shape [ev] and is [g] of the rows b of the arguments. *)
Definition row (b : nat) (t : ten V) : ten V := mkten (tl (shape t)) (fun e => el t (b :: e)).
Definition batchwise (rows : list (list nat)) (ev : list nat) (g : list (ten V) -> ten V)
  (fn : list (ten V) -> res (ten V)) : Prop :=
  (forall B ts, 0 < B -> map shape ts = map (cons B) rows ->
     exists out, fn ts = Ok out /\ shape out = B :: ev /\
       forall b e, b < B -> valid e ev -> el out (b :: e) = el (g (map (row b) ts)) e) /\
  (forall ts us e, map shape ts = rows -> Forall2 teq ts us -> valid e ev -> el (g ts) e = el (g us) e).

(** The slice of a storch tensor at a choice of plate indices, its event shape padded to rank [ed]. *)
Definition slice (ed : nat) (s : assignment) (a : stensor V) : ten V :=
  mkten (pad ed (s_event_shape a)) (fun e => den a s (firstn (s_event_dims a) e)).

(** [v'] is the output [v] with every torch tensor replaced by a storch tensor with the given parents and plates (and
    the same contents, up to [same]); the nesting is the same. *)
Inductive rewrapped (same : ten V -> ten V -> Prop) (parents : list nat) (plates : list (plate V))
  : pyval V -> pyval V -> Prop :=
| R_Raw : forall t a, same t (st a) -> splates a = plates -> sparents a = parents -> s_stochastic a = false ->
                      rewrapped same parents plates (PRaw t) (PT a)
| R_None : rewrapped same parents plates PNone PNone
| R_Empty : rewrapped same parents plates (PDict []) (PList [])  (* an empty dict contains no output *)
| R_List : forall l l', Forall2 (rewrapped same parents plates) l l' -> rewrapped same parents plates (PList l) (PList l')
| R_Tuple : forall l l', Forall2 (rewrapped same parents plates) l l' -> rewrapped same parents plates (PTuple l) (PTuple l')
| R_Distr : forall l l', Forall2 (fun x y => fst x = fst y /\ rewrapped same parents plates (snd x) (snd y)) l l' ->
                         rewrapped same parents plates (PDistr DDiscrete l) (PDistr DDiscrete l').

(** No storch tensor in an output. *)
Fixpoint no_storch (o : pyval V) : Prop :=
  match o with
  | PT _ => False
  | PList l | PTuple l => (fix go l := match l with [] => True | x :: r => no_storch x /\ go r end) l
  | PDistr _ l => (fix go l := match l with [] => True | (_, x) :: r => no_storch x /\ go r end) l
  | _ => True
  end.

(** Two ancestral plates of different variables. *)
Definition duels (p q : plate V) : Prop :=
  exists vi ov vi' ov', pcls p = Ancestral vi ov /\ pcls q = Ancestral vi' ov' /\ vi <> vi'.

End Spec.
