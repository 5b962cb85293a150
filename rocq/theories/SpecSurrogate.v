(** Specification vocabulary for the surrogate loss. *)
From Coq Require Import String List Arith Bool ZArith Lia Permutation.
From Verif Require Import Base Torch Plates Wrap Scalar Reduce Graph Surrogate SpecTensor SpecWrap SpecOrder SpecReduce SpecGraph.
Import ListNotations.

Section Spec.
Context {V S : Type}.
Notation plate := (plate V).
Notation stensor := (stensor V).
Notation N l := (map (@pname V) l).

(** exp(x - detach(x)). *)
Definition box (o : sops V) (o_exp : V -> V) (x : V) : V := o_exp (o_sub o x (o_det o x)).

(** The plates of a sampled tensor include those the sampled variable was conditioned on. *)
Definition closed (l : list plate) : Prop := forall p q, In p l -> In q (pparents p) -> In (pname q) (N l).

(** The plates around one cost. *)
Record plates_ok (veq : V -> V -> bool) (FP : list plate) : Prop := {
  po_sound : sound veq FP;
  po_acyclic : ~ cyclic FP;
  po_weights : forall p, In p FP -> weight_fits FP p
}.

(** A tensor over some of the plates [FP]. *)
Record over (FP : list plate) (a : stensor) : Prop := {
  ov_wf : wf a; ov_incl : incl (splates a) FP; ov_closed : closed (splates a)
}.

(** [v] is a number for every choice of samples of the plates [pl]: [f]. Trailing dimensions of size one are allowed. *)
Definition stands (v : pyval V) (pl : list plate) (f : assignment -> V) : Prop :=
  match v with
  | PT a => wf a /\ Permutation (splates a) pl /\
            exists k, s_event_shape a = repeat 1 k /\ forall s, in_range s pl -> den a s (repeat 0 k) = f s
  | PRaw t => pl = [] /\ shape t = [] /\ forall s, el t [] = f s
  | _ => False
  end.

(** The same tensor with its plates in another order. *)
Record relabelled (a b : stensor) : Prop := {
  re_wf : wf b;
  re_plates : Permutation (splates a) (splates b);
  re_event : s_event_shape b = s_event_shape a;
  re_den : forall s e, in_range s (splates a) -> valid e (s_event_shape a) -> den b s e = den a s e
}.

(** [lp], given the sample with its plates in any order, computes the log-probabilities [f], of event shape [ev]. *)
Definition has_log_prob (a : stensor) (lp : stensor -> nat -> res (pyval V)) (ev : list nat) (f : assignment -> list nat -> V) : Prop :=
  forall b base, relabelled a b -> exists t, lp b base = Ok (PT t) /\ wf t /\ Permutation (splates t) (splates a) /\
    s_event_shape t = ev /\ forall s e, in_range s (splates a) -> valid e ev -> den t s e = f s e.

(** The plates of the cost [c] that a sample with plates [pl] does not have, and those that are left without them. *)
Definition foreign (c : stensor) (pl : list plate) : list plate :=
  filter (fun p => negb (has (wide pl) (pname p))) (wide (splates c)).
Definition kept (c : stensor) (pl : list plate) : list plate :=
  filter (fun p => negb (has (foreign c pl) (pname p))) (splates c).

(** What an estimator of the sample [a] is given instead of the cost [c]: the cost averaged, with detached weights, over
    the plates [a] does not have. *)
Definition averaged (o : sops V) (FP : list plate) (c a rc : stensor) : Prop :=
  stands (PT rc) (kept c (splates a)) (fun s => weighted_sum o true FP (foreign c (splates a)) (fun s' => den c s' []) s).

(** The two terms an estimator adds: numbers over plates. *)
Record term : Type := mkTerm {
  t_g : option (list plate * (assignment -> V)); t_cv : option (list plate * (assignment -> V)) }.
Definition delivered (FP : list plate) (v : option (pyval V)) (f : option (list plate * (assignment -> V))) : Prop :=
  match v, f with
  | None, None => True
  | Some v, Some (pl, f) => stands v pl f /\ incl pl FP /\ closed pl /\ NoDup (N pl)
  | _, _ => False
  end.
Definition plates_opt (x : option (list plate * (assignment -> V))) : list plate := match x with Some (pl, _) => pl | None => [] end.
Definition value_opt (o : sops V) (x : option (list plate * (assignment -> V))) (s : assignment) : V :=
  match x with Some (_, f) => f s | None => o_zero o end.

(** storch.reduce_plates needs a storch tensor: the gradient term or the control variate is one. *)
Definition wrapped (g cv : option (pyval V)) : Prop :=
  (exists z, g = Some (PT z)) \/ cv = None \/ (exists z, cv = Some (PT z)).

(** The plates of [FP] that occur in [l]. *)
Definition among (FP l : list plate) : list plate := filter (fun p => has l (pname p)) FP.

(** The weighted sum over the plates of [FP] that occur in [l]. *)
Definition total (o : sops V) (FP l : list plate) (f : assignment -> V) : V :=
  weighted_sum o false FP (among FP l) f (fun _ => 0).

(** The loss for one cost [c], given the terms of its ancestors in the order in which they are met: the boxed cost, and
    every control variate boxed with the gradient terms met so far. *)
Definition gsum (o : sops V) (ts : list term) (s : assignment) : V := osum o (map (fun t => value_opt o (t_g t) s) ts).
Definition gplates (ts : list term) : list plate := flat_map (fun t => plates_opt (t_g t)) ts.
Fixpoint controls (o : sops V) (o_exp : V -> V) (FP : list plate) (met ts : list term) : V :=
  match ts with
  | [] => o_zero o
  | t :: r =>
      let now := met ++ [t] in
      o_add o (match t_cv t with
               | None => o_zero o
               | Some (pl, h) => total o FP (gplates now ++ pl) (fun s => o_mul o (box o o_exp (gsum o now s)) (h s))
               end) (controls o o_exp FP now r)
  end.
Definition cost_loss (o : sops V) (o_exp : V -> V) (FP : list plate) (c : stensor) (ts : list term) : V :=
  o_add o (controls o o_exp FP [] ts)
          (total o FP (gplates ts ++ splates c) (fun s => o_mul o (box o o_exp (gsum o ts s)) (den c s []))).

(** Whether a tensor of the graph gets a term for cost [c]: it is a StochasticTensor that requires a gradient, has a
    method, and its influence on the cost is not pathwise differentiable. *)
Inductive scored (nodes : nat -> @snode V S) (c p : nat) : bool -> Prop :=
| Sc_det : nd_sto (nodes p) = None -> scored nodes c p false
| Sc_not : forall n lp r m, nd_sto (nodes p) = Some (n, lp, r, m) -> r = false \/ m = None -> scored nodes c p false
| Sc_path : forall n lp m b, nd_sto (nodes p) = Some (n, lp, true, Some m) -> me_pathwise m p c = Ok b ->
    scored nodes c p (negb b).

(** The dimensions of the sample's plates come in the order of those of the cost. *)
Definition in_order (np rc : stensor) : Prop := exists r, N (wide (splates np)) = N (wide (splates rc)) ++ r.

(** The estimator of [p] for cost [c] behaves according to [P]: state before, terms, state after. *)
Definition estimates (o : sops V) (FP : list plate) (nodes : nat -> @snode V S) (c p : nat)
  (P : S -> term -> S -> Prop) : Prop :=
  match nd_sto (nodes p) with
  | Some (n, lp, _, Some m) =>
      forall np rc nm sg base,
        relabelled (nd_t (nodes p)) np -> averaged o FP (nd_t (nodes c)) (nd_t (nodes p)) rc ->
        (foreign (nd_t (nodes c)) (splates (nd_t (nodes p))) = [] -> nm = nd_name (nodes c) /\ rc = nd_t (nodes c)) -> in_order np rc ->
        exists g cv sg' tm, me_estimator m (mkSample np (nd_name (nodes p)) n lp) rc nm sg base = Ok (g, cv, sg') /\
          wrapped g cv /\ delivered FP g (t_g tm) /\ delivered FP cv (t_cv tm) /\ P sg tm sg'
  | _ => False
  end.

(** The terms of a list of ancestors, the state passing from one to the next. *)
Inductive trace (P : nat -> S -> term -> S -> Prop) : list nat -> S -> list term -> S -> Prop :=
| T_nil : forall sg, trace P [] sg [] sg
| T_cons : forall p ps sg t sg1 ts sg2, P p sg t sg1 -> trace P ps sg1 ts sg2 -> trace P (p :: ps) sg (t :: ts) sg2.

(** What the theorems about the loss ask of cost [c]: its plates, the tensors [order] the walk meets, which of them get a
    term ([sc]), and how their estimators behave ([P]). *)
Record cost_ok (veq : V -> V -> bool) (o : sops V) (nodes : nat -> @snode V S) (FP : list plate) (c : nat) (order : list nat)
  (sc : nat -> bool) (P : nat -> S -> term -> S -> Prop) : Prop := {
  co_plates : plates_ok veq FP;
  co_cost : over FP (nd_t (nodes c));
  co_scalar : s_event_shape (nd_t (nodes c)) = [];
  co_gaps : no_gaps (wide (splates (nd_t (nodes c))));
  co_scored : forall p, In p order -> scored nodes c p (sc p);
  co_over : forall p, In p order -> sc p = true -> over FP (nd_t (nodes p));
  co_est : forall p, In p order -> sc p = true -> estimates o FP nodes c p (P p)
}.

(** A cost with what the theorems ask of it. *)
Record costing : Type := mkCosting {
  cg_id : nat; cg_plates : list plate; cg_order : list nat; cg_scored : nat -> bool; cg_est : nat -> S -> term -> S -> Prop }.
Definition costing_ok (veq : V -> V -> bool) (o : sops V) (nodes : nat -> @snode V S) (fuel : nat) (h : heap) (k : costing) : Prop :=
  surrogate_order fuel h (cg_id k) = Some (cg_order k) /\
  cost_ok veq o nodes (cg_plates k) (cg_id k) (cg_order k) (cg_scored k) (cg_est k).

(** The terms of all costs. *)
Inductive traces : list costing -> S -> list (list term) -> S -> Prop :=
| Ts_nil : forall sg, traces [] sg [] sg
| Ts_cons : forall k ks sg ts sg1 tss sg2, trace (cg_est k) (filter (cg_scored k) (cg_order k)) sg ts sg1 -> traces ks sg1 tss sg2 ->
    traces (k :: ks) sg (ts :: tss) sg2.

(** The setting of the score function: cost [c] in graph [h] with plates [FP]; [anc] are its ancestors that get a term, all
    with the score function (baseline [bl a]); [score a] is the log-probability of [a], summed over event dimensions. *)
Record score_setup (veq : V -> V -> bool) (anc_unwrap : plate -> stensor -> res stensor) (o : sops V) (o_exp : V -> V)
  (nodes : nat -> @snode V S) (h : heap) (c : nat) (FP : list plate) (anc : list nat) (bl : nat -> option (@baseline V S))
  (score : nat -> assignment -> V) : Prop := {
  ss_plates : plates_ok veq FP;
  ss_cost : over FP (nd_t (nodes c));
  ss_scalar : s_event_shape (nd_t (nodes c)) = [];
  ss_gaps : no_gaps (wide (splates (nd_t (nodes c))));
  ss_nodup : NoDup anc;
  ss_anc : forall a, In a anc <-> reachable (h_parents h) false c a /\ scored nodes c a true;
  ss_decided : forall a, reachable (h_parents h) false c a -> exists b, scored nodes c a b;
  ss_over : forall a, In a anc -> over FP (nd_t (nodes a));
  ss_score : forall a, In a anc -> exists n lp m ev f, nd_sto (nodes a) = Some (n, lp, true, Some m) /\
    me_estimator m = score_estimator veq anc_unwrap o o_exp (bl a) /\ has_log_prob (nd_t (nodes a)) lp ev f /\
    forall s, in_range s (splates (nd_t (nodes a))) -> score a s = osum o (map (f s) (indices ev));
  ss_used : forall p, In p FP -> In p (splates (nd_t (nodes c))) \/ exists a, In a anc /\ In p (splates (nd_t (nodes a)))
}.

(** Evaluation commutes with arithmetic and with exp: [o_det] forgets how a number depends on the parameters. *)
Record evaluates (o : sops V) (o_exp : V -> V) : Prop := {
  ev_zero : o_det o (o_zero o) = o_zero o;
  ev_one : o_det o (o_one o) = o_one o;
  ev_add : forall x y, o_det o (o_add o x y) = o_add o (o_det o x) (o_det o y);
  ev_mul : forall x y, o_det o (o_mul o x y) = o_mul o (o_det o x) (o_det o y);
  ev_sub : forall x y, o_det o (o_sub o x y) = o_sub o (o_det o x) (o_det o y);
  ev_det : forall x, o_det o (o_det o x) = o_det o x;
  ev_exp : forall x, o_det o (o_exp x) = o_exp (o_det o x);
  ev_exp0 : o_exp (o_zero o) = o_one o
}.

(** A control variate that evaluates to zero. *)
Definition inert (o : sops V) (FP : list plate) (t : term) : Prop :=
  match t_cv t with Some (_, h) => forall s, in_range s FP -> o_det o (h s) = o_zero o | None => True end.

(** For the sample [a] and cost [c], baseline [bl] computes a number over plates [bp], related to the state by [B]. *)
Definition baseline_gives (o : sops V) (FP : list plate) (nodes : nat -> @snode V S) (c a : nat) (bl : @baseline V S)
  (B : S -> list plate -> (assignment -> V) -> S -> Prop) : Prop :=
  forall np rc nm n lp sg base, relabelled (nd_t (nodes a)) np -> averaged o FP (nd_t (nodes c)) (nd_t (nodes a)) rc ->
    (foreign (nd_t (nodes c)) (splates (nd_t (nodes a))) = [] -> nm = nd_name (nodes c) /\ rc = nd_t (nodes c)) ->
    (forall r m, nd_sto (nodes a) = Some (n, lp, r, m) ->
    exists b bp bf sg', bl (mkSample np (nd_name (nodes a)) n lp) rc ("_b_" ++ nd_name (nodes a) ++ "_" ++ nm)%string sg base = Ok (b, sg') /\
      stands b bp bf /\ incl bp FP /\ closed bp /\ NoDup (N bp) /\ B sg bp bf sg').

(** The sum of [f] over the other samples of plate [p]. *)
Definition others (o : sops V) (f : assignment -> V) (p : plate) (s : assignment) : V :=
  osum o (map (fun i => f (set_to s (pname p) i)) (filter (fun i => negb (i =? s (pname p))) (seq 0 (pn p)))).

(** Exponentially decayed averages: the costs [cs], oldest first, averaged with weights (1 - d) d^age, starting from [m]. *)
Fixpoint opow (o : sops V) (d : V) (n : nat) : V := match n with 0 => o_one o | Datatypes.S k => o_mul o d (opow o d k) end.
Definition decayed (o : sops V) (d m : V) (cs : list V) : V :=
  let n := length cs in
  o_add o (o_mul o (opow o d n) m)
    (osum o (map (fun ic => o_mul o (o_mul o (o_sub o (o_one o) d) (opow o d (n - 1 - fst ic))) (snd ic)) (combine (seq 0 n) cs))).

(** The average of a cost over its plates; what it takes to compute it. *)
Definition average (o : sops V) (c : stensor) : V :=
  o_det o (weighted_sum o true (splates c) (splates c) (fun s => den c s []) (fun _ => 0)).
Record averageable (veq : V -> V -> bool) (c : stensor) : Prop := {
  av_sound : sound veq (splates c); av_wf : wf c; av_scalar : s_event_shape c = []; av_closed : closed (splates c);
  av_acyclic : ~ cyclic (splates c); av_weights : forall p, In p (splates c) -> weight_fits (splates c) p /\ ~ padded (splates c) p
}.

End Spec.
