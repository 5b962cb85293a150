(** Specification vocabulary for reductions over plates. *)
From Coq Require Import String List Arith Bool ZArith Lia.
From Verif Require Import Base Torch Plates Wrap Scalar Reduce SpecTensor SpecOrder.
Import ListNotations.

Section Spec.
Context {V : Type}.

(** [s] with another choice for one plate. *)
Definition set_to (s : assignment) (name : string) (i : nat) : assignment :=
  fun x => if String.eqb x name then i else s x.

(** [s] with other choices for several plates. *)
Fixpoint set_all (s : assignment) (ps : list (plate V)) (ix : list nat) : assignment :=
  match ps, ix with
  | p :: r, i :: j => set_to (set_all s r j) (pname p) i
  | _, _ => s
  end.

(** The sum of [f] over all choices of samples of the plates [ps], the other choices being those of [s]. *)
Fixpoint sum_over (o : sops V) (ps : list (plate V)) (f : assignment -> V) (s : assignment) : V :=
  match ps with
  | [] => f s
  | p :: r => osum o (map (fun i => sum_over o r f (set_to s (pname p) i)) (seq 0 (pn p)))
  end.

(** The size of the plate called [name] among [l]. *)
Definition size_in (l : list (plate V)) (name : string) : nat :=
  match find (fun p => String.eqb (pname p) name) l with Some p => pn p | None => 0 end.
Definition wide_names (l : list (plate V)) (names : list string) : list string :=
  filter (fun x => 1 <? size_in l x) names.

(** The weight of plate [p] at a choice of samples; [l] gives the plate sizes. *)
Definition weight_at (l : list (plate V)) (p : plate V) (s : assignment) : V :=
  match pweight p with
  | WTorch w => el w (match shape w with [] => [] | _ => [s (pname p)] end)
  | WStorch _ w names => el w (map s (wide_names l names))
  end.

(** The weightings the code supports: one number, one number per sample, or a storch tensor over the plate itself and
    direct parents. (Singleton plates: one number.) *)
Definition weight_fits (l : list (plate V)) (p : plate V) : Prop :=
  match pweight p with
  | WTorch w => shape w = [] \/ (1 < pn p /\ shape w = [pn p])
  | WStorch _ w names =>
      1 < pn p /\ NoDup names /\ In (pname p) names /\
      (forall x, In x names -> x = pname p \/ In x (map pname (pparents p))) /\
      (forall q, In q (pparents p) -> In (pname q) (map pname l)) /\
      shape w = map (size_in l) (wide_names l names)
  end.

(** Plates as they occur in practice: equally named plates of the tensor and their ancestors are equal, all ordinary,
    positive sizes, no plate lists a parent twice. *)
Record sound (veq : V -> V -> bool) (l : list (plate V)) : Prop := {
  so_orderable : orderable veq l;
  so_size : forall p q, ancestry l p -> ancestry l q -> pname p = pname q -> pn p = pn q;
  so_plain : forall p, ancestry l p -> pcls p = PlainPlate;
  so_pos : forall p, ancestry l p -> 1 <= pn p
}.

(** The per-sample weights of [l] that make the result keep trailing singleton dimensions: storch weights over the plate
    alone. *)
Definition raw_weight (p : plate V) : Prop := match pweight p with WTorch _ => True | WStorch _ _ _ => False end.

(** Storch weights over one plate that occupies a dimension. *)
Definition padded (l : list (plate V)) (p : plate V) : Prop :=
  match pweight p with WTorch _ => False | WStorch _ _ names => length (wide_names l names) = 1 end.

(** The tensor and the plates a call reduce_plates(v, args) is about. *)
Inductive resolves (a : stensor V) : platearg -> plate V -> Prop :=
| V_name : forall p, In p (splates a) -> resolves a (ByName (pname p)) p
| V_plate : forall p, In p (splates a) -> resolves a (ByPlate p) p.
Inductive asks : pyval V -> list platearg -> stensor V -> list (plate V) -> Prop :=
| Q_all : forall a, asks (PT a) [] a (splates a)
| Q_some : forall a args ps, args <> [] -> Forall2 (resolves a) args ps -> asks (PT a) args a ps
| Q_raw : forall u a ps, ps <> [] -> st a = u -> splates a = ps -> asks (PRaw u) (map ByPlate ps) a ps.

(** The weighted sum over all choices of samples of the plates [ps]. *)
Definition weighted_sum (o : sops V) (detach : bool) (l ps : list (plate V)) (f : assignment -> V) (s : assignment) : V :=
  sum_over o ps (fun s' => o_mul o (oprod o (map (fun p => let w := weight_at l p s' in if detach then o_det o w else w) ps)) (f s')) s.

(** The squared deviation of the element at [s] and [e] from the weighted mean over plate [p], and the weighted mean of
    these (summed over the event dimensions) over all plates. *)
Definition deviation2 (o : sops V) (detach : bool) (a : stensor V) (p : plate V) (s : assignment) (e : list nat) : V :=
  let d := o_sub o (den a s e) (weighted_sum o detach (splates a) [p] (fun s' => den a s' e) s) in o_mul o d d.
Definition mean_deviation2 (o : sops V) (detach : bool) (a : stensor V) (p : plate V) (s : assignment) : V :=
  weighted_sum o detach (splates a) (splates a)
    (fun s' => osum o (map (deviation2 o detach a p s') (indices (s_event_shape a)))) s.

(** Weights of a plate that are a probability distribution, or non-negative, at every choice of samples of [l]. *)
Definition normalised (o : sops V) (detach : bool) (l : list (plate V)) (p : plate V) : Prop :=
  forall s, in_range s l -> weighted_sum o detach l [p] (fun _ => o_one o) s = o_one o.
Definition non_negative (o : sops V) (le : V -> V -> Prop) (detach : bool) (l : list (plate V)) (p : plate V) : Prop :=
  forall s, in_range s l -> le (o_zero o) (let w := weight_at l p s in if detach then o_det o w else w).

(** An order on the numbers compatible with their arithmetic, in which squares are non-negative. *)
Record ordered (o : sops V) (le : V -> V -> Prop) : Prop := {
  le_refl0 : le (o_zero o) (o_zero o);
  le_add : forall x y, le (o_zero o) x -> le (o_zero o) y -> le (o_zero o) (o_add o x y);
  le_mul : forall x y, le (o_zero o) x -> le (o_zero o) y -> le (o_zero o) (o_mul o x y);
  le_one : le (o_zero o) (o_one o);
  le_square : forall x, le (o_zero o) (o_mul o x x)
}.

(** The dimension of a tensor a plate name or an integer denotes: a plate that occupies a dimension, or the event
    dimension [j], counted from the first event dimension or from the end. *)
Inductive dim_means (a : stensor V) : dimarg -> string + nat -> Prop :=
| M_plate : forall p, In p (splates a) -> 1 < pn p -> dim_means a (DPlate (pname p)) (inl (pname p))
| M_left : forall j, j < s_event_dims a -> dim_means a (DInt (Z.of_nat (length (wide (splates a)) + j))) (inr j)
| M_right : forall j, j < s_event_dims a -> dim_means a (DInt (Z.of_nat j - Z.of_nat (s_event_dims a))) (inr j).

Definition named (ts : list (string + nat)) (name : string) : bool :=
  existsb (fun t => match t with inl x => String.eqb x name | inr _ => false end) ts.
Definition counted (ts : list (string + nat)) (j : nat) : bool :=
  existsb (fun t => match t with inl _ => false | inr i => Nat.eqb i j end) ts.

(** The elements that are combined into the element at [s] and [e]: all choices of the reduced plates and reduced event
    dimensions, in row-major order, the kept ones being those of [s] and [e]. *)
Fixpoint fill (mask : list bool) (kept reduced : list nat) : list nat :=
  match mask, kept, reduced with
  | true :: m, _, i :: r => i :: fill m kept r
  | false :: m, i :: k, _ => i :: fill m k reduced
  | _, _, _ => []
  end.
Fixpoint pick (b : bool) (mask : list bool) (l : list nat) : list nat :=
  match mask, l with
  | m :: ms, x :: xs => (if Bool.eqb m b then [x] else []) ++ pick b ms xs
  | _, _ => []
  end.
Definition event_mask (a : stensor V) (ts : list (string + nat)) : list bool := map (counted ts) (seq 0 (s_event_dims a)).
Definition reduced_plates (a : stensor V) (ts : list (string + nat)) : list (plate V) :=
  filter (fun p => named ts (pname p)) (wide (splates a)).
Definition group (a : stensor V) (ts : list (string + nat)) (s : assignment) (e : list nat) : list V :=
  map (fun ix => den a (set_all s (reduced_plates a ts) (firstn (length (reduced_plates a ts)) ix))
                     (fill (event_mask a ts) e (skipn (length (reduced_plates a ts)) ix)))
      (indices (map pn (reduced_plates a ts) ++ pick true (event_mask a ts) (s_event_shape a))).

End Spec.
