(** What a straight-line program means: its statements read as mathematics, without plates, tensors of samples, graphs or
    wrappers. *)
From Coq Require Import String List Arith Bool.
From Verif Require Import Base Torch Plates Scalar Straight SpecTensor SpecWrap SpecReduce SpecProgram.
Import ListNotations.

Section Spec.
Context {V : Type}.
Variable o : sops V.
Variable o_exp : V -> V.
Variable recip : nat -> V.
Notation plate := (plate V).

(** Rank, and singleton dimensions added on the right up to a common rank. *)
Definition rank (t : ten V) : nat := length (shape t).
Definition padded_to (m : nat) (t : ten V) : ten V := mkten (pad m (shape t)) (fun e => el t (firstn (rank t) e)).
Definition maxl (l : list nat) : nat := fold_left Nat.max l 0.
Definition evened (ts : list (ten V)) : list (ten V) := map (padded_to (maxl (map rank ts))) ts.
Definition evened_shapes (l : list (list nat)) : list (list nat) := map (pad (maxl (map (@length nat) l))) l.

(** A torch function that treats leading dimensions as batch dimensions: given arguments whose leading dimensions are those
    of [B] or, where the mask says so, singletons, the result at batch index [b] is [g] of the arguments at [b]. Elementwise
    functions, reductions over trailing dimensions, matrix products, layers of networks and log-probabilities are of this
    kind. *)
Definition masked (k : list bool) (one : nat) (B : list nat) : list nat := map (fun kn : bool * nat => if fst kn then snd kn else one) (combine k B).
Definition leading (rows : list (list nat)) (ev : list nat) (g : list (ten V) -> ten V) (fn : list (ten V) -> res (ten V)) : Prop :=
  (forall (B : list nat) (l : list (list bool * list nat * ten V)),
     map (fun x => snd (fst x)) l = rows ->
     (forall k r u, In (k, r, u) l -> length k = length B /\ shape u = masked k 1 B ++ r) ->
     (forall d, d < length B -> 2 <= nth d B 0 /\ exists k r u, In (k, r, u) l /\ nth d k false = true) ->
     exists out, fn (map snd l) = Ok out /\ shape out = B ++ ev /\
       forall b e, valid b B -> valid e ev ->
         el out (b ++ e) = el (g (map (fun x => mkten (snd (fst x)) (fun e' => el (snd x) (masked (fst (fst x)) 0 b ++ e'))) l)) e) /\
  (forall ts us e, map shape ts = rows -> Forall2 teq ts us -> valid e ev -> el (g ts) e = el (g us) e).

(** Shapes of equal rank that broadcast to [ev]. *)
Definition broadcast_to (rows : list (list nat)) (ev : list nat) : Prop :=
  (forall r, In r rows -> length r = length ev /\ forall d, d < length ev -> nth d r 0 = nth d ev 0 \/ nth d r 0 = 1) /\
  forall d, d < length ev -> exists r, In r rows /\ nth d r 0 = nth d ev 0.
(** Functions of one sample of every argument: elementwise, the sum of everything, and one after another. *)
Definition each (ev : list nat) (f : list V -> V) (ts : list (ten V)) : ten V := mkten ev (fun e => f (map (fun t => el t (bidx (shape t) e)) ts)).
Definition sum_all (ts : list (ten V)) : ten V := match ts with t :: _ => tscalar (osum o (map (el t) (indices (shape t)))) | [] => tscalar (o_zero o) end.
Definition then_ (ev1 : list nat) (g2 g1 : list (ten V) -> ten V) (ts : list (ten V)) : ten V := g2 [mkten ev1 (el (g1 ts))].

(** What a statement means. [MCall ev g]: the function of one sample of every argument, and the shape of its result.
    [MDraw m value evl g]: the [m] values of the variable, and its log-probability, a tensor of shape [evl] computed from the
    value and the parameters. *)
Inductive means : Type :=
| MData
| MDraw (m : nat) (value : nat -> ten V) (evl : list nat) (g : list (ten V) -> ten V)
| MCall (ev : list nat) (g : list (ten V) -> ten V).
Definition line : Type := stmt (V := V) * means.

Definition args_of (x : line) : list nat := match fst x with Data _ _ => [] | Draw _ _ _ args _ _ => args | Call _ args => args end.
Definition name_of (x : line) : list string := match fst x with Data name _ => [name] | Draw name _ _ _ _ _ => [name] | Call _ _ => [] end.
Definition size_of (x : line) : nat := match fst x with Data _ t => hd 0 (shape t) | Draw _ n _ _ _ _ => n | Call _ _ => 0 end.
Definition event_of (x : line) : list nat :=
  match x with
  | (Data _ t, _) => tl (shape t)
  | (Draw _ _ sizes _ _ _, _) => sizes
  | (Call _ _, MCall ev _) => ev
  | _ => []
  end.
Definition values_of (x : line) : nat := match snd x with MDraw m _ _ _ => m | _ => 0 end.

(** The tensors named by a statement, given those of all earlier statements. *)
Definition scalar0 : ten V := tscalar (o_zero o).
Definition named (env : list (ten V)) (args : list nat) : list (ten V) := map (fun a => nth a env scalar0) args.

(** One sample of everything: the tensor a statement stands for when choice [j] is made there. *)
Definition outcome (env : list (ten V)) (x : line) (j : nat) : ten V :=
  match x with
  | (Data _ t, _) => mkten (tl (shape t)) (fun e => el t (j :: e))
  | (Draw _ _ sizes _ _ _, MDraw _ value _ _) => mkten sizes (el (value j))
  | (Call _ args, MCall ev g) => mkten ev (el (g (evened (named env args))))
  | _ => scalar0
  end.
(** The log-probability of value [v]. *)
Definition density (env : list (ten V)) (x : line) (v : ten V) : V :=
  match snd x with
  | MDraw _ _ evl g => osum o (map (el (g (evened (v :: named env (args_of x))))) (indices evl))
  | _ => o_zero o
  end.

(** The expectation of [k] of the final environment: a row of the data is a uniformly random one, a variable takes each of
    its values with its probability given the values before it. *)
Fixpoint expected (prog : list line) (env : list (ten V)) (k : list (ten V) -> V) : V :=
  match prog with
  | [] => k env
  | x :: r =>
      let go j := expected r (env ++ [outcome env x j]) k in
      match fst x with
      | Data _ _ => osum o (map (fun j => o_mul o (recip (size_of x)) (go j)) (seq 0 (size_of x)))
      | Draw _ _ _ _ _ _ => osum o (map (fun j => o_mul o (o_exp (density env x (outcome env x j))) (go j)) (seq 0 (values_of x)))
      | Call _ _ => go 0
      end
  end.
Definition total_cost (costs : list nat) (env : list (ten V)) : V := osum o (map (fun c => el (nth c env scalar0) []) costs).

(** Results of all statements, each computed from the results of the earlier ones. *)
Definition scan {A} (f : list A -> line -> A) (prog : list line) : list A := fold_left (fun acc x => acc ++ [f acc x]) prog [].
(** The values on one path: [s] chooses the data, [r] the values of the variables. *)
Definition made (s : assignment) (r : nat -> nat) (i : nat) (x : line) : nat :=
  match fst x with Data name _ => s name | Draw _ _ _ _ _ _ => r i | Call _ _ => 0 end.
Definition values (s : assignment) (r : nat -> nat) (prog : list line) : list (ten V) :=
  scan (fun env x => outcome env x (made s r (length env) x)) prog.

(** The plates of every tensor: a new one for the data and for every variable, and those of the arguments. *)
Definition joined (env : list (list plate)) (args : list nat) : list plate :=
  fold_left (fun acc a => union acc (nth a env [])) args [].
Definition plates_step (env : list (list plate)) (x : line) : list plate :=
  let Q := joined env (args_of x) in
  match name_of x with
  | name :: _ => mkPlate PlainPlate name (size_of x) (WTorch (tscalar (recip (size_of x)))) Q :: Q
  | [] => Q
  end.
Definition plates_of (prog : list line) : list (list plate) := scan plates_step prog.
Definition is_draw (x : line) : bool := match fst x with Draw _ _ _ _ _ _ => true | _ => false end.
Definition draws_of (prog : list line) : list nat :=
  filter (fun i => match nth_error prog i with Some x => is_draw x | None => false end) (seq 0 (length prog)).
(** The variables every tensor depends on. *)
Definition needs_step (env : list (list nat)) (x : line) : list nat :=
  let l := nodup Nat.eq_dec (flat_map (fun a => nth a env []) (args_of x)) in
  if is_draw x then length env :: l else l.
Definition needs (prog : list line) : list (list nat) := scan needs_step prog.

(** What storch samples: every variable once for every choice of samples of its plates. *)
Definition sampling (prog : list line) : program V nat :=
  mkProgram (draws_of prog)
    (fun a => nth a (plates_of prog) [])
    (fun a => match nth_error prog a with Some x => flat_map (fun b => nth b (needs prog) []) (args_of x) | None => [] end)
    (fun a _ _ => match nth_error prog a with Some x => seq 0 (values_of x) | None => [] end)
    (fun a s r => match nth_error prog a with
                  | Some x => density (values s r prog) x (outcome [] x (r a))
                  | None => o_zero o
                  end).
Definition drawn_in (prog : list line) (w : @world nat) (i : nat) (j : list nat) : ten V :=
  match nth_error prog i with Some x => outcome [] x (w i j) | None => scalar0 end.

(** A statement is as it should be: [env] are event shapes. *)
Definition shapes_of (prog : list line) (args : list nat) : list (list nat) :=
  map (fun a => match nth_error prog a with Some x => event_of x | None => [] end) args.
Definition line_ok (prog : list line) (i : nat) (x : line) : Prop :=
  (forall a, In a (args_of x) -> a < i) /\
  match x with
  | (Data _ t, MData) => exists n ev, shape t = n :: ev /\ 2 <= n
  | (Draw _ n sizes args grad lp, MDraw m value evl g) =>
      1 <= n /\ leading (evened_shapes (sizes :: shapes_of prog args)) evl g lp /\
      (forall s r, osum o (map (fun j => o_exp (density (values s r prog) x (outcome [] x j))) (seq 0 m)) = o_one o) /\
      (grad = false -> forall s r, let p := o_exp (density (values s r prog) x (outcome [] x (r i))) in o_det o p = p)
  | (Call fn args, MCall ev g) => args <> [] /\ leading (evened_shapes (shapes_of prog args)) ev g fn
  | _ => False
  end.
(** Distinct names; every statement uses earlier tensors only; functions treat leading dimensions as batch dimensions;
    probabilities sum to one; a distribution without parameters that require a gradient is constant. *)
Definition straight_ok (prog : list line) : Prop :=
  NoDup (flat_map name_of prog) /\ forall i x, nth_error prog i = Some x -> line_ok prog i x.
(** A variable with several samples depends on plates of several samples only, or on none of those. *)
Definition no_skips (prog : list line) : Prop := forall i x, nth_error prog i = Some x -> 2 <= size_of x ->
  let Q := joined (plates_of prog) (args_of x) in (forall p, In p Q -> 2 <= pn p) \/ (forall p, In p Q -> pn p < 2).
(** A plate of one sample depends on plates of several samples only if variable [a] has those too, among the plates of [c]. *)
Definition no_orphans (prog : list line) (c a : nat) : Prop := forall p q,
  In p (nth c (plates_of prog) []) -> pn p < 2 -> In q (pparents p) -> 2 <= pn q -> In q (nth a (plates_of prog) []).

End Spec.
Arguments means : clear implicits.
Arguments line : clear implicits.
