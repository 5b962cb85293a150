(** The estimators of RELAX, ARM, DisARM, LAX and the unordered set estimator. *)
From Coq Require Import String List Arith Bool ZArith Lia Permutation Ring.
From Verif Require Import Base Torch Plates Wrap OrderPlates Scalar Reduce Graph Surrogate Estimators ListLemmas IndexLemmas SpecTensor SpecWrap
  SpecOrder SpecReduce SpecGraph SpecSurrogate WrapProofs AlignProofs CallProofs CallProofs2 OpProofs OrderProofs ReduceProofs ReduceProofs2
  VarianceProofs PlateEqProofs GraphProofs SurrogateProofs SurrogateProofs2 SurrogateProofs3.
Import ListNotations.

Section Est.
Context {V S : Type}.
Variable veq : V -> V -> bool.
Variable anc_unwrap : plate V -> stensor V -> res (stensor V).
Variable o : sops V.
Hypothesis Hring : is_ring o.
Variable o_exp : V -> V.
Notation plate := (plate V).
Notation stensor := (stensor V).
Notation N l := (map (@pname V) l).
Notation op1 := (torch_op1 veq anc_unwrap top_ctx).
Notation op2 := (torch_op2 veq anc_unwrap top_ctx).
Let Hring' : ring_theory (o_zero o) (o_one o) (o_add o) (o_mul o) (o_sub o) (o_opp o) (@eq V) := Hring.
Add Ring o_ring : Hring'.

Lemma stands_num : forall x : V, stands (PRaw (tscalar x)) [] (fun _ => x).
Proof. intros x. repeat split. Qed.

Lemma sum_event_spec : forall (t : stensor) ev base, callable veq [t] -> s_event_shape t = ev -> ev <> [] ->
  exists r, sum_event veq anc_unwrap o (PT t) base = Ok (PT r) /\
    stands (PT r) (splates t) (fun s => osum o (map (fun e => den t s e) (indices ev))).
Proof.
  intros t ev base HC Et Hne. unfold sum_event. cbn [as_tensor bind].
  assert (Wt : wf t) by (destruct HC as [F _]; inversion F; auto).
  assert (En : ndim (st t) - s_plate_dims t = length ev).
  { unfold ndim. rewrite (wf_shape t Wt), app_length, map_length, (wf_dims t Wt), Et. lia. }
  cbv zeta. rewrite En. destruct ev as [|n ev]; [congruence|]. cbn [length seq].
  change (s_plate_dims t :: seq (Datatypes.S (s_plate_dims t)) (length ev)) with (seq (s_plate_dims t) (length (n :: ev))).
  destruct (sum_dims_spec veq anc_unwrap o t (n :: ev) 0 base HC) as [r [R1 [R2 [R3 [R4 R5]]]]].
  { now rewrite app_nil_r. } { discriminate. }
  exists r. split; [exact R1|]. split; [exact R4|]. split; [now rewrite R2|]. exists 0. split; [exact R3|].
  intros s Hs. rewrite (R5 s) by auto. f_equal. apply map_ext. intros e. simpl. now rewrite app_nil_r.
Qed.

Hypothesis Hev : evaluates o o_exp.

(** RELAX and REBAR: the gradient term is the summed log-probability, and the control variate evaluates to zero. *)
Theorem relax_estimates : forall FP (nodes : nat -> @snode V S) c a n lp m comp eta ev f pz fz pt ft, sound veq FP -> over FP (nd_t (nodes a)) ->
  nd_sto (nodes a) = Some (n, lp, true, Some m) ->
  me_estimator m = me_estimator (method_of (fun _ _ => Ok false) (relax_estimator veq anc_unwrap o o_exp comp eta)) ->
  (exists p, In p (splates (nd_t (nodes a))) /\ pname p = nd_name (nodes a)) -> ev <> [] ->
  (forall x rc base, relabelled (nd_t (nodes a)) (sm_t x) -> averaged o FP (nd_t (nodes c)) (nd_t (nodes a)) rc ->
     exists t cz ct, comp x rc base = Ok (PT t, cz, ct) /\ wf t /\ Permutation (splates t) (splates (nd_t (nodes a))) /\ s_event_shape t = ev /\
       (forall s e, in_range s (splates t) -> valid e ev -> den t s e = f s e) /\ stands cz pz fz /\ stands ct pt ft) ->
  incl pz FP -> closed pz -> NoDup (N pz) -> incl pt FP -> closed pt -> NoDup (N pt) ->
  estimates o FP nodes c a (fun sg tm sg' => sg' = sg /\ inert o FP tm /\
    t_g tm = Some (splates (nd_t (nodes a)), fun s => osum o (map (f s) (indices ev)))).
Proof.
  intros FP nodes c a n lp m comp eta ev f pz fz pt ft HS [Wa Ia Ca] En Em [p [Hp Hnm]] Hne Hcomp Iz Cz Nz It Ct Nt.
  unfold estimates. rewrite En. intros np rc nm sg base Hr Hav _ _. rewrite Em. cbn [me_estimator method_of].
  unfold relax_estimator. cbn [sm_t sm_name].
  assert (Hget : exists q, get_plate np (nd_name (nodes a)) = Ok q /\ In q (splates np) /\ pname q = nd_name (nodes a)).
  { destruct Hr as [_ Pn _ _]. assert (Hpn : In p (splates np)) by exact (Permutation_in _ Pn Hp). revert Hpn. unfold get_plate. rewrite <- Hnm.
    generalize (splates np). intros l. clear. induction l as [|q l IH]; [intros []|]. intros [->|H]; simpl.
    - rewrite String.eqb_refl. eauto.
    - destruct (String.eqb_spec (pname q) (pname p)); [exists q; auto|]. destruct (IH H) as [q' [E1 [E2 E3]]]. exists q'. auto. }
  destruct Hget as [q [G1 [G2 G3]]]. rewrite G1. cbn [bind].
  match goal with |- context [bind (if ?b then ?x else ?y) ?k] => assert (Hk : bind (if b then x else y) k = k tt) end.
  { destruct (1 <? pn q) eqn:E; [|reflexivity]. unfold get_plate_dim_index.
    destruct (find_dim_spec (pname q) (multi_dim_plates np) 0) as [k [K1 _]].
    { apply in_map. unfold multi_dim_plates. apply filter_In. auto. }
    rewrite K1. reflexivity. }
  rewrite Hk. clear Hk.
  destruct (Hcomp (mkSample np (nd_name (nodes a)) n lp) rc base Hr Hav) as [t [cz [ct [C1 [Wt [Pt [Et [Dt [Hz Ht]]]]]]]]].
  rewrite C1. cbn [bind].
  assert (Itt : incl (splates t) FP) by (intros x Hx; apply Ia; eapply Permutation_in; eauto).
  assert (HC : callable veq [t]) by (apply (over_callable veq FP HS); [fwf|intros x [<-|[]]; auto]).
  destruct (sum_event_spec t ev (base + 1) HC Et Hne) as [l [L1 L2]]. rewrite L1. cbn [bind].
  set (F := fun s : assignment => osum o (map (f s) (indices ev))).
  assert (L3 : stands (PT l) (splates (nd_t (nodes a))) F).
  { destruct L2 as [Wl [Pl [k [El Dl]]]]. split; [exact Wl|]. split; [eapply Permutation_trans; eauto|]. exists k. split; [exact El|].
    intros s Hs. assert (Hs' : in_range s (splates t)) by exact (in_range_perm s _ _ (Permutation_sym Pt) Hs).
    rewrite Dl by auto. unfold F. f_equal. apply map_ext_in. intros e He. apply Dt; auto. now apply in_indices. }
  unfold relax_terms.
  destruct (stands_op2 veq anc_unwrap FP HS (o_mul o) (PRaw (tscalar eta)) cz [] pz _ fz (base + 2) (stands_num eta) Hz) as [z [Z1 [Z2 _]]]; [intros x []|auto|].
  rewrite Z1. cbn [bind]. rewrite union_nil_l in Z2.
  destruct (stands_op2 veq anc_unwrap FP HS (o_mul o) (PRaw (tscalar eta)) ct [] pt _ ft (base + 4) (stands_num eta) Ht) as [u [U1 [U2 _]]]; [intros x []|auto|].
  rewrite U1. cbn [bind]. rewrite union_nil_l in U2.
  destruct (stands_op1 veq anc_unwrap FP HS (o_det o) z pz _ (base + 6) Z2 Iz) as [dz [DZ1 [DZ2 _]]]. rewrite DZ1. cbn [bind].
  destruct (stands_op2 veq anc_unwrap FP HS (o_sub o) z dz pz pz _ _ (base + 8) Z2 DZ2 Iz Iz) as [x1 [X1 [X2 _]]]. rewrite X1. cbn [bind].
  rewrite union_self in X2.
  destruct (stands_op2 veq anc_unwrap FP HS (o_sub o) x1 u pz pt _ _ (base + 10) X2 U2 Iz It) as [x2 [Y1 [Y2 _]]]. rewrite Y1. cbn [bind].
  destruct (magic_box_spec veq anc_unwrap o o_exp FP HS (PT l) (splates (nd_t (nodes a))) F (base + 12) L3 Ia) as [mb [M1 [M2 _]]]. rewrite M1. cbn [bind].
  destruct (stands_op2 veq anc_unwrap FP HS (o_sub o) (PRaw (tscalar (o_add o (o_one o) (o_one o)))) mb [] (splates (nd_t (nodes a))) _ _ (base + 18)
    (stands_num _) M2) as [y1 [W1 [W2 _]]]; [intros x []|auto|].
  rewrite W1. cbn [bind]. rewrite union_nil_l in W2.
  destruct (stands_op1 veq anc_unwrap FP HS (o_det o) u pt _ (base + 20) U2 It) as [du [DU1 [DU2 _]]]. rewrite DU1. cbn [bind].
  destruct (stands_op2 veq anc_unwrap FP HS (o_mul o) y1 du (splates (nd_t (nodes a))) pt _ _ (base + 22) W2 DU2 Ia It) as [y2 [T1 [T2 _]]]. rewrite T1. cbn [bind].
  assert (I1 : incl (union pz pt) FP) by now apply (u_incl anc_unwrap).
  assert (I2 : incl (union (splates (nd_t (nodes a))) pt) FP) by now apply (u_incl anc_unwrap).
  destruct (stands_op2 veq anc_unwrap FP HS (o_add o) x2 y2 _ _ _ _ (base + 24) Y2 T2 I1 I2) as [cv [V1 [V2 _]]]. rewrite V1. cbn [bind].
  assert (Hcv : as_term cv = Some cv) by (destruct cv; try reflexivity; destruct V2).
  cbn [unpack2 pair_of bind as_term]. rewrite Hcv.
  eexists (Some (PT l)), (Some cv), sg, (mkTerm (Some (splates (nd_t (nodes a)), F)) (Some (_, _))).
  split; [reflexivity|]. split; [left; eauto|]. split; [|split].
  - simpl. repeat split; auto; try apply (wf_names _ Wa); apply L3.
  - simpl. split; [exact V2|]. split; [now apply (u_incl anc_unwrap)|]. split.
    + apply (closed_union anc_unwrap); now apply (closed_union anc_unwrap).
    + apply u_NoDup; [apply u_NoDup; auto|apply u_NoDup; auto; apply (wf_names _ Wa)].
  - split; [reflexivity|]. split; [|reflexivity]. unfold inert. cbn [t_cv]. intros s Hs.
    repeat (rewrite (ev_add _ _ Hev) || rewrite (ev_sub _ _ Hev) || rewrite (ev_mul _ _ Hev) || rewrite (ev_det _ _ Hev) || rewrite (ev_one _ _ Hev)).
    rewrite (box_one o Hring o_exp Hev). ring.
Qed.

End Est.
