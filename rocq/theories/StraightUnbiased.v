(** The loss of a straight-line program is unbiased. *)
From Coq Require Import String List Arith Bool Lia.
From Verif Require Import Base Torch Plates Wrap Scalar Inference Graph Surrogate Sampling Straight SpecTensor SpecGraph SpecSurrogate SpecReduce SpecProgram
  ProgramProofs2 StraightProofs StraightLoss StraightMean SpecStraight.
Import ListNotations.
Open Scope nat_scope.

Section Unbiased.
Context {V S : Type}.
Variable veq : V -> V -> bool.
Variable anc_unwrap : plate V -> stensor V -> res (stensor V).
Variable recip : nat -> V.
Variable o : sops V.
Hypothesis Hring : is_ring o.
Variable o_exp : V -> V.
Hypothesis Hev : evaluates o o_exp.
Hypothesis Hexp : forall x y, o_exp (o_add o x y) = o_mul o (o_exp x) (o_exp y).
Hypothesis Hrecip : forall n, 1 <= n -> osum o (repeat (recip n) n) = o_one o.

Theorem straight_unbiased : forall (prog : list (line V)) costs (sg : S) base,
  straight_ok o o_exp prog -> no_skips recip prog -> costs <> [] ->
  (forall c, In c costs -> exists x, nth_error prog c = Some x /\ event_of x = []) ->
  exists loss : world -> V,
    (forall w, exists enough, forall fuel, enough <= fuel ->
       exists t, script veq anc_unwrap recip o o_exp (fun _ => None) fuel (drawn_in o prog w) (map fst prog) costs sg base = Ok t /\ shape t = [] /\ el t [] = loss w) /\
    forall w, sampled o o_exp (sampling o recip prog) w loss = expected o o_exp recip prog [] (total_cost o costs).
Proof.
  intros prog costs sg base Hok Hskip Hne Hc.
  set (envs := fun w => match run veq anc_unwrap recip (drawn_in o prog w) (map fst prog) [] with Ok e => e | Err _ => [] end).
  assert (Hr : forall w, run veq anc_unwrap recip (drawn_in o prog w) (map fst prog) [] = Ok (envs w) /\ good recip o prog w (length prog) (envs w)).
  { intros w. destruct (runs veq anc_unwrap recip o o_exp prog Hok w) as [e [E G]]. unfold envs. rewrite E. auto. }
  assert (Hlt : forall c, In c costs -> c < length prog) by (intros c H; destruct (Hc c H) as [x [Hx _]]; apply nth_error_Some; congruence).
  destruct (score_unbiased (S := S) veq anc_unwrap o Hring o_exp Hev Hexp (sampling o recip prog)
    (fun w => node (S := S) veq anc_unwrap o o_exp (fun _ => None) (map fst prog) (envs w)) (fun w => graph (envs w)) (fun _ => seq 0 (length prog)) costs
    (fun c => nth c (plates_of recip prog) []) (fun c => nth c (needs prog) []) (fun c => filter (graded prog) (nth c (needs prog) [])) (cost_at o prog) sg base)
    as [loss [L1 L2]].
  - exact (sampling_ok anc_unwrap recip o o_exp prog Hok).
  - exact Hne.
  - intros w. destruct (Hr w) as [_ G]. split; [exact (graph_closed recip o o_exp prog Hok w (envs w) G)|]. intros c H. apply in_seq. specialize (Hlt c H). lia.
  - intros w c H. destruct (Hr w) as [_ G]. destruct (Hc c H) as [x [Hx Ex]]. pose proof (Hlt c H) as Lc. split.
    + apply setup; auto. now rewrite (nth_error_nth _ _ _ Hx).
    + intros s Hs. pose proof (proj2 G c Lc) as T.
      assert (En : nd_t (node (S := S) veq anc_unwrap o o_exp (fun _ => None) (map fst prog) (envs w) c) = nth c (envs w) (no_tensor o)).
      { unfold node. destruct (nth_error (map fst prog) c) as [[]|]; reflexivity. }
      rewrite En. rewrite (ta_den _ _ _ _ _ _ T s []); [reflexivity|exact Hs|]. rewrite Hx, Ex. constructor.
  - intros c H. exact (dependence anc_unwrap recip o o_exp prog Hok c).
  - exists loss. split.
    + intros w. destruct (L1 w) as [enough H]. exists enough. intros fuel Hf. destruct (H fuel Hf) as [t [T1 T2]]. exists t. split; [|exact T2].
      unfold script. rewrite (proj1 (Hr w)). exact T1.
    + intros w. rewrite (L2 w (fun _ => 0)). exact (total anc_unwrap recip o Hring o_exp Hrecip prog Hok costs (fun _ => 0) (fun _ => 0)).
Qed.
End Unbiased.
