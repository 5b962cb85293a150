(** Specification vocabulary for sampling without replacement. *)
From Coq Require Import Reals List Arith Bool.
From Verif Require Import Base Swor.
Import ListNotations.

(** The order of the real numbers with minus infinity. *)
Definition ple (a b : option R) : Prop :=
  match a, b with None, _ => True | Some x, Some y => (x <= y)%R | Some _, None => False end.

(** What torch.topk promises: [m] different indices, those of the largest elements, in descending order of the elements.
    Nothing is said about the order of equal elements. *)
Definition is_topk {A} (le : A -> A -> Prop) (l : list A) (m : nat) (idx : list nat) : Prop :=
  NoDup idx /\ length idx = m /\ (forall i, In i idx -> i < length l) /\
  (forall i j a b, In i idx -> ~ In j idx -> nth_error l i = Some a -> nth_error l j = Some b -> le b a) /\
  (forall x y i j a b, x < y -> nth_error idx x = Some i -> nth_error idx y = Some j ->
     nth_error l i = Some a -> nth_error l j = Some b -> le b a).
Definition topk_fn {A} (le : A -> A -> Prop) (f : list A -> nat -> list nat) : Prop :=
  forall l m, m <= length l -> is_topk le l m (f l m).
Definition argmax_fn {A} (le : A -> A -> Prop) (f : list A -> nat) : Prop :=
  forall l, l <> [] -> f l < length l /\ forall j a b, nth_error l (f l) = Some a -> nth_error l j = Some b -> le b a.

(** The sequences sampled so far: those of the previous variables, continued by the rows of the next variable. The
    [j]-th sample of a variable continues the sequence that its parent index names. *)
Definition continue_with (prev : list (list nat)) (out : list (list nat) * option (list nat)) : list (list nat) :=
  map (fun j => match snd out with Some p => nth (nth j p 0) prev [] | None => [] end ++ nth j (fst out) [])
      (seq 0 (length (fst out))).
Definition sequences (outs : list (list (list nat) * option (list nat))) : list (list nat) :=
  fold_left continue_with outs [].

(** A variable with [d] options for each of its events. *)
Definition has_domain (x : var) (d : nat) : Prop :=
  1 <= d /\ 1 <= lprod (v_events x) /\ (forall e i, length (v_lp x e i) = d) /\ (forall e j, length (v_noise x e j) = d).

(** The number of joint outcomes of a list of variables with the given numbers of options. *)
Definition outcomes (xs : list var) (ds : list nat) : nat :=
  fold_right (fun xd n => Nat.pow (snd xd) (lprod (v_events (fst xd))) * n) 1 (combine xs ds).

(** [s] is an outcome of the variables: for each event an option. *)
Fixpoint outcome (xs : list var) (ds : list nat) (s : list nat) : Prop :=
  match xs, ds with
  | x :: xs, d :: ds => exists r t, s = r ++ t /\ length r = lprod (v_events x) /\ Forall (fun v => v < d) r /\ outcome xs ds t
  | _, _ => s = []
  end.

(** The joint log-probability of row [r] of variable [x] given sample [i] of the previous variables. *)
Definition row_log_prob (x : var) (i : nat) (r : list nat) : R :=
  fold_right Rplus 0%R (map (fun e => nth (nth e r 0) (v_lp x e (if v_cond x then i else 0)) 0%R) (seq 0 (length r))).

(** The joint log-probabilities of the sequences: each variable adds the log-probability of its row, given the sequence it
    continues. *)
Definition continue_lp (prev : list R) (xo : var * (list (list nat) * option (list nat))) : list R :=
  let '(x, (rows, parent)) := xo in
  map (fun j => let i := match parent with Some p => nth j p 0 | None => 0 end in
                Rplus (nth i prev 0%R) (row_log_prob x i (nth j rows []))) (seq 0 (length rows)).
Definition sequence_log_probs (xs : list var) (outs : list (list (list nat) * option (list nat))) : list R :=
  fold_left continue_lp (combine xs outs) [].

(** The sum of a list of numbers, and variables whose log-probabilities are those of distributions. *)
Definition total (l : list R) : R := fold_right Rplus 0%R l.
Definition normalised (x : var) : Prop := forall e i, total (map exp (v_lp x e i)) = 1%R.

(** The number of options with finite perturbed log-probability: one for a finished sample (eos), otherwise [d]. *)
Definition finite_options (d : nat) (pert : list (option R)) (finished : list bool) : nat :=
  fold_right Nat.add 0 (map (fun j => match nth j pert None with
                                      | None => 0
                                      | Some _ => if nth j finished false then 1 else d
                                      end) (seq 0 (length pert))).

(** Conditions under which the slice at the end of decoding takes no events away: no event dimensions; or at least two
    options, and for the first variable at least two events or at least [k] options. *)
Definition slice_ok (k : nat) (first : bool) (x : var) (d : nat) : Prop :=
  v_events x = [] \/ 2 <= d /\ (first = false \/ 2 <= lprod (v_events x) \/ k <= d).

(** With an eos token (other than 0) the variables must not have event dimensions. *)
Definition eos_ok (eos : option nat) (x : var) : Prop := match eos with Some (S _) => v_events x = [] | _ => True end.

(** The sum of the weights that belong to option [i], for the chosen options [idx] and their weights. *)
Definition weight_of (i : nat) (idx : list nat) (w : list R) : R :=
  total (map (fun jw => if Nat.eqb (fst jw) i then snd jw else 0%R) (combine idx w)).

(** [kappa] is a value of the options other than [i] of which exactly [m] have a larger one. *)
Definition threshold (i m : nat) (vals : list R) (kappa : R) : Prop :=
  exists c, c <> i /\ nth_error vals c = Some kappa /\
  length (filter (fun j => negb (Nat.eqb j i) && (if Rlt_dec kappa (nth j vals 0%R) then true else false)) (seq 0 (length vals))) = m.

(** The probability of drawing the options [s] one after another, never one that was drawn before; [left] is the probability
    of the options that are left. *)
Fixpoint successive (p : nat -> R) (left : R) (s : list nat) : R :=
  match s with [] => 1%R | i :: r => (p i / left * successive p (left - p i) r)%R end.
(** The options that are not in [s]. *)
Definition leftover (d : nat) (s : list nat) : list nat := filter (fun j => negb (existsb (Nat.eqb j) s)) (seq 0 d).
