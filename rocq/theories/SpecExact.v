(** Specification vocabulary for programs whose variables are all sampled with Expect: the expectation of the cost. *)
From Coq Require Import String List Arith Bool ZArith Lia.
From Verif Require Import Base Torch Plates Wrap Scalar Reduce Sampling Surrogate ExpectMethod SpecTensor SpecWrap SpecReduce SpecSampling SpecSurrogate SpecEnumerate.
Import ListNotations.

Section Spec.
Context {V : Type}.
Notation evar := (@evar V).
Notation stensor := (stensor V).
Notation N l := (map (@pname V) l).

(** The number of components of a variable, and the plates of the samples. *)
Definition count (sizes : list nat) : nat := fold_right Nat.mul 1 sizes.
Definition plates_of (xs : list stensor) : list (plate V) := flat_map splates xs.

(** An outcome of a variable is a list with an option for each component; [x] has that outcome at the choice of samples [s]. *)
Definition shows (v : evar) (x : stensor) (s : assignment) (t : list nat) : Prop :=
  joint (ev_options v) (count (ev_sizes v)) t /\
  forall e, valid e (ev_sizes v) -> den x s e = ev_value v (nth (last e 0) t 0).
Fixpoint all_show (vars : list evar) (xs : list stensor) (s : assignment) (ts : list (list nat)) : Prop :=
  match vars, xs, ts with
  | [], [], [] => True
  | v :: vars, x :: xs, t :: ts => shows v x s t /\ all_show vars xs s ts
  | _, _, _ => False
  end.

(** [x] looks like a sample of [v] drawn after [xs]: a new plate with a sample for every outcome, below the plates [Q]. *)
Record new_sample (v : evar) (xs : list stensor) (x : stensor) (p : plate V) (Q : list (plate V)) : Prop := {
  ns_wf : wf x;
  ns_plates : splates x = p :: Q;
  ns_class : pcls p = PlainPlate;
  ns_name : pname p = ev_name v;
  ns_size : pn p = ev_options v ^ count (ev_sizes v);
  ns_parents : pparents p = Q;
  ns_incl : incl Q (plates_of xs);
  ns_fresh : ~ In (pname p) (N (plates_of xs));
  ns_closed : closed Q;
  ns_event : s_event_shape x = ev_sizes v;
  ns_shows : forall s, in_range s (splates x) -> exists t, shows v x s t
}.
Definition drawn (vars : list evar) (xs : list stensor) : Prop :=
  length vars = length xs /\
  forall pre v x post, combine vars xs = pre ++ (v, x) :: post -> exists p Q, new_sample v (map snd pre) x p Q.

(** What is asked of a variable: two or more options, at most one dimension of components, a budget that suffices. *)
Record var_ok (v : evar) : Prop := {
  vo_options : 2 <= ev_options v;
  vo_sizes : ev_sizes v = [] \/ exists d, ev_sizes v = [d] /\ 1 <= d;
  vo_budget : ev_options v ^ count (ev_sizes v) <= ev_budget v
}.
(** And of its distribution: the parameters are tensors over plates of earlier samples, and the log-probability of option [k] of component [e], given
    the outcomes [us] of the earlier variables [pre], is [logp us e k]. *)
Definition conditional (veq : V -> V -> bool) (pre : list evar) (v : evar) (logp : list (list nat) -> list nat -> nat -> V) : Prop :=
  forall xs, drawn pre xs ->
  let Q := all_plates (param_tensors (ev_params v xs)) in
  callable veq (param_tensors (ev_params v xs)) /\ incl (plates_of (param_tensors (ev_params v xs))) (plates_of xs) /\ closed Q /\
  forall x p, new_sample v xs x p Q ->
  exists f, has_log_prob x (ev_lp v xs) (ev_sizes v) f /\
    forall s us t e, in_range s (splates x ++ plates_of xs) -> all_show pre xs s us -> shows v x s t -> valid e (ev_sizes v) ->
      f s e = logp us e (nth (last e 0) t 0).
(** The cost has the plates of all samples, is a single number for every choice of samples, and is [F us] when the outcomes are [us]. *)
Definition cost_ok (vars : list evar) (cost : list stensor -> stensor) (F : list (list nat) -> V) : Prop :=
  forall xs, drawn vars xs ->
  wf (cost xs) /\ incl (splates (cost xs)) (plates_of xs) /\ incl (plates_of xs) (splates (cost xs)) /\ s_event_shape (cost xs) = [] /\
  forall s us, in_range s (plates_of xs) -> all_show vars xs s us -> den (cost xs) s [] = F us.

(** The expectation of [f] over independent components, of which [ps] are the probabilities of the options. *)
Fixpoint expected (o : sops V) (ps : list (list V)) (f : list nat -> V) : V :=
  match ps with
  | [] => f []
  | p :: r => osum o (map (fun k => o_mul o (nth k p (o_zero o)) (expected o r (fun t => f (k :: t)))) (seq 0 (length p)))
  end.
(** The expectation of the cost: over the first variable, then over the second given the first, and so on. *)
Fixpoint exact (o : sops V) (o_exp : V -> V) (vars : list (evar * (list (list nat) -> list nat -> nat -> V))) (us : list (list nat))
  (F : list (list nat) -> V) : V :=
  match vars with
  | [] => F us
  | (v, logp) :: r =>
      expected o (map (fun e => map (fun k => o_exp (logp us e k)) (seq 0 (ev_options v))) (indices (ev_sizes v)))
        (fun t => exact o o_exp r (us ++ [t]) F)
  end.
End Spec.
