(** storch.stochastic: what reaches the wrapped function. *)
From Coq Require Import String List Arith Bool Lia.
From Verif Require Import Base Torch Plates Wrap Stochastic SpecTensor SpecWrap CallProofs WrapProofs OpProofs AlignProofs.
Import ListNotations.
Open Scope string_scope.
Open Scope nat_scope.
Open Scope list_scope.

Section StochasticProofs.
Context {V : Type}.
Variable veq : V -> V -> bool.
Variable anc_unwrap : plate V -> stensor V -> res (stensor V).
Variable iterate : pyval V -> res (list (pyval V)).
Variable options : list (string * pyval V) -> res wopts.

Lemma lookup_In : forall name l (v : pyval V), lookup name l = Some v -> In (name, v) l.
Proof.
  intros name. induction l as [|[k w] l IH]; intros v H; simpl in H; [discriminate|].
  destruct (String.eqb k name) eqn:E; [|right; auto]. apply String.eqb_eq in E. injection H as ->. subst. left; auto.
Qed.

Lemma no_dict_no_call : forall args kwargs r,
  (forall v d, In v (args ++ map snd kwargs) -> v <> PDict d) ->
  stochastic_args veq anc_unwrap iterate options args kwargs <> Ok r.
Proof.
  intros args kwargs r H. unfold stochastic_args, bind_args.
  destruct (_ <? _); [discriminate|]. destruct (existsb _ kwargs); [discriminate|]. cbn [bind].
  set (b := combine prepare_params args ++ kwargs). destruct (lookup "fn_args" b) as [a|]; [|discriminate].
  destruct (lookup "fn_kwargs" b) as [k|] eqn:Ek; [|discriminate].
  destruct (options b) as [o|]; [|discriminate]. cbn [bind]. destruct (elements iterate a); [|discriminate]. cbn [bind].
  destruct k; try discriminate. exfalso. apply lookup_In in Ek. apply (H (PDict l) l); auto.
  apply in_or_app. apply in_app_or in Ek as [Ek|Ek]; [left; eapply in_combine_r; eauto|right; apply (in_map snd) in Ek; auto].
Qed.

Lemma unknown_keyword : forall args kwargs k v, In (k, v) kwargs -> ~ In k prepare_params ->
  stochastic_args veq anc_unwrap iterate options args kwargs = Err TypeError.
Proof.
  intros args kwargs k v Hk Hn. unfold stochastic_args, bind_args. destruct (_ <? _); [reflexivity|].
  replace (existsb _ kwargs) with true; [reflexivity|]. symmetry. apply existsb_exists. exists (k, v). split; auto.
  apply orb_true_iff. left. apply negb_true_iff. destruct (existsb _ prepare_params) eqn:E; auto. apply existsb_exists in E as [x [Hx E]].
  apply String.eqb_eq in E. simpl in E. subst. contradiction.
Qed.

Lemma pair_call : forall l d ts, ts = call_tensors l d -> callable veq ts ->
  options [("fn_args", PList l); ("fn_kwargs", PDict d)] = Ok default_opts ->
  Forall no_distr l -> Forall (fun kv => no_distr (snd kv)) d ->
  let R := laid_out (wide (all_plates ts)) false (max_event ts) in
  exists args' kwargs',
    stochastic_args veq anc_unwrap iterate options [PList l; PDict d] [] = Ok (args', kwargs', ts, all_plates ts) /\
    Forall2 (unwrapped R) l args' /\
    Forall2 (fun x y => fst x = fst y /\ unwrapped R (snd x) (snd y)) d kwargs'.
Proof.
  intros l d ts E C O F1 F2. destruct (prepare_args_laid_out veq anc_unwrap l d default_opts ts) as [a' [k' [E1 [E2 E3]]]]; auto.
  exists a', k'. split; [|split; auto]. unfold stochastic_args. cbn. rewrite O. cbn [bind]. exact E1.
Qed.

(** Torch tensors among the outputs, each with the plate dimensions in front. *)
Lemma process_all_spec : forall parents plates, NoDup (map pname plates) -> (forall p, In p plates -> 1 <= pn p) ->
  forall l id, (forall t, In t l -> exists ev, shape t = map pn (wide plates) ++ ev) ->
  exists rs, process_all (map (@PRaw V) l) parents plates id = Ok (map (@PT V) rs) /\
    Forall2 (fun t r => st r = t /\ sparents r = parents /\ splates r = plates /\ s_stochastic r = false /\ wf r) l rs.
Proof.
  intros parents plates ND Hn. induction l as [|t l IH]; intros id H; [exists []; split; [reflexivity|constructor]|].
  destruct (H t (or_introl eq_refl)) as [ev Et]. destruct (mk_tensor_good id t parents plates false ev ND Hn Et) as [r [R0 [R1 [R2 [R3 [R4 [R5 [R6 R7]]]]]]]].
  destruct (IH (S id)) as [rs [E F]]; [intros u Hu; apply H; now right|]. exists (r :: rs). cbn [map process_all process_stochastic]. rewrite R0. cbn [bind]. rewrite E. cbn [bind].
  split; [reflexivity|]. constructor; auto.
Qed.

Lemma stochastic_outputs : forall fn l d (ts : list (stensor V)) outs id, ts = call_tensors l d -> callable veq ts ->
  options [("fn_args", PList l); ("fn_kwargs", PDict d)] = Ok default_opts ->
  Forall no_distr l -> Forall (fun kv => no_distr (snd kv)) d ->
  (forall a k, fn a k = Ok (PTuple (map (@PRaw V) outs))) -> (forall t, In t outs -> exists ev, shape t = map pn (wide (all_plates ts)) ++ ev) ->
  exists rs, stochastic_call veq anc_unwrap iterate options fn [PList l; PDict d] [] id = Ok (PList (map (@PT V) rs)) /\
    Forall2 (fun t r => st r = t /\ sparents r = map sid ts /\ splates r = all_plates ts /\ s_stochastic r = false /\ wf r) outs rs.
Proof.
  intros fn l d ts outs id E C O F1 F2 Hf Hs. destruct (pair_call l d ts E C O F1 F2) as [a' [k' [P1 _]]].
  destruct (all_plates_facts veq anc_unwrap ts C) as [I [D _]].
  assert (Hn : forall p, In p (all_plates ts) -> 1 <= pn p).
  { intros p Hp. apply I in Hp. apply in_flat_map in Hp. destruct Hp as [t [Ht Hp]]. destruct C as [C1 _]. rewrite Forall_forall in C1. exact (wf_pos t (C1 t Ht) p Hp). }
  destruct (process_all_spec (map sid ts) (all_plates ts) D Hn outs id Hs) as [rs [R1 R2]]. exists rs. split; [|exact R2].
  unfold stochastic_call. rewrite P1. cbn [bind]. rewrite Hf. cbn [bind process_outputs]. rewrite R1. reflexivity.
Qed.

(** A storch tensor that is not a sample among the outputs. *)
Lemma process_all_deterministic : forall parents plates (l : list (pyval V)) id, (exists a, In (PT a) l /\ s_stochastic a = false) ->
  exists e, process_all l parents plates id = Err e.
Proof.
  intros parents plates. induction l as [|x l IH]; intros id [a [Hi Ha]]; [contradiction|]. destruct Hi as [->|H]; cbn [process_all].
  - cbn [process_stochastic]. rewrite Ha. now exists AttributeError.
  - destruct (process_stochastic x parents plates id) as [y|e]; [|now exists e]. cbn [bind]. destruct (IH (S id)) as [e ->]; [now exists a|]. now exists e.
Qed.
Lemma stochastic_deterministic : forall fn args kwargs id r,
  (forall a k, (exists t, fn a k = Ok (PT t) /\ s_stochastic t = false) \/
               (exists l t, (fn a k = Ok (PList l) \/ fn a k = Ok (PTuple l)) /\ In (PT t) l /\ s_stochastic t = false)) ->
  stochastic_call veq anc_unwrap iterate options fn args kwargs id <> Ok r.
Proof.
  intros fn args kwargs id r H. unfold stochastic_call. destruct (stochastic_args _ _ _ _ args kwargs) as [[[[a k] ps] pl]|]; [|discriminate]. cbn [bind].
  destruct (H a k) as [[t [E Ht]]|[l [t [[E|E] [Hi Ht]]]]]; rewrite E; cbn [bind process_outputs process_stochastic]; [rewrite Ht; discriminate| |];
    destruct (process_all_deterministic (map sid ps) pl l id) as [e ->]; eauto; discriminate.
Qed.

(** Arguments for _prepare_args that are missing or too many. *)
Lemma lookup_none : forall name (l : list (string * pyval V)), (forall kv, In kv l -> fst kv <> name) -> lookup name l = None.
Proof.
  intros name. induction l as [|[k v] l IH]; intros H; [reflexivity|]. simpl. destruct (String.eqb k name) eqn:E; [|apply IH; intros kv Hi; apply H; now right].
  apply String.eqb_eq in E. exfalso. exact (H (k, v) (or_introl eq_refl) E).
Qed.
Lemma missing_args : forall args kwargs,
  (length args <= 1 /\ (forall kv, In kv kwargs -> fst kv <> "fn_kwargs")) \/ (args = [] /\ (forall kv, In kv kwargs -> fst kv <> "fn_args")) \/ 9 < length args ->
  stochastic_args veq anc_unwrap iterate options args kwargs = Err TypeError.
Proof.
  intros args kwargs H. unfold stochastic_args, bind_args. destruct (length prepare_params <? length args) eqn:L; [reflexivity|]. destruct (existsb _ kwargs); [reflexivity|]. cbn [bind].
  destruct H as [[Hl Hk]|[[-> Hk]|Hl]].
  - assert (K : lookup "fn_kwargs" (combine prepare_params args ++ kwargs) = None).
    { destruct args as [|a [|b r]]; [exact (lookup_none _ _ Hk)|simpl; exact (lookup_none _ _ Hk)|simpl in Hl; lia]. }
    rewrite K. now destruct (lookup "fn_args" _).
  - replace (combine prepare_params [] ++ kwargs) with kwargs by reflexivity. now rewrite (lookup_none _ _ Hk).
  - apply Nat.ltb_ge in L. simpl in L. lia.
Qed.

(** Outputs of every other kind, once the arguments are accepted. *)
Definition no_tensor (x : pyval V) : Prop := match x with PT _ | PRaw _ => False | _ => True end.
Definition collection (x : pyval V) : Prop := match x with PList _ | PTuple _ | PDict _ => True | _ => False end.
Lemma output_kinds : forall fn args kwargs a k ps pl out id,
  stochastic_args veq anc_unwrap iterate options args kwargs = Ok (a, k, ps, pl) -> fn a k = Ok out ->
  let r := stochastic_call veq anc_unwrap iterate options fn args kwargs id in
  (no_tensor out -> ~ collection out -> r = Err TypeError) /\
  (forall key v d, out = PDict ((key, v) :: d) -> r = Err TypeError) /\
  (forall t, out = PT t -> r = if s_stochastic t then Ok (PT t) else Err AttributeError) /\
  (forall t, out = PRaw t -> r = (do x <- mk_tensor id t (map sid ps) pl false; Ok (PT x))) /\
  (forall ss x rest, out = PList (map (@PT V) ss ++ x :: rest) \/ out = PTuple (map (@PT V) ss ++ x :: rest) -> Forall (fun t => s_stochastic t = true) ss -> no_tensor x -> r = Err TypeError).
Proof.
  intros fn args kwargs a k ps pl out id P F. unfold stochastic_call. rewrite P. cbn [bind]. rewrite F. cbn [bind]. cbv zeta.
  split; [|split; [|split; [|split]]].
  - intros N C. destruct out; cbn in N, C; try contradiction; try reflexivity; exfalso; exact (C I).
  - intros key v d ->. reflexivity.
  - intros t ->. reflexivity.
  - intros t ->. reflexivity.
  - intros ss x rest E Hs N0.
    assert (G : forall i, process_all (map (@PT V) ss ++ x :: rest) (map sid ps) pl i = Err TypeError).
    { clear - Hs N0. induction Hs as [|t ss Ht _ IH]; intros i; cbn [map app process_all].
      - destruct x; cbn in N0; try contradiction; reflexivity.
      - cbn [process_stochastic]. rewrite Ht. cbn [bind]. now rewrite IH. }
    destruct E as [E|E]; rewrite E; cbn [process_outputs]; now rewrite G.
Qed.

End StochasticProofs.
