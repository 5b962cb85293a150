(** C03-C08: calling functions on storch tensors. *)
From Coq Require Import String List Arith Bool Lia.
From Verif Require Import Base Torch Plates Wrap SpecTensor SpecWrap WrapProofs PlateEqProofs AlignProofs CallProofs CallProofs2 OutputProofs.
Import ListNotations.
Open Scope string_scope.
Open Scope nat_scope.
Open Scope list_scope.

(** C03. Every argument of a wrapped call is handed over laid out for the same list of plates: the non-singleton plates of
    all arguments in first-seen order. Nothing else in the arguments changes. *)
Theorem C03_arguments_aligned : forall (V : Type) (veq : V -> V -> bool) anc_unwrap args kwargs o (ts : list (stensor V)),
  ts = call_tensors args kwargs -> callable veq ts ->
  o_unwrap o = true -> o_align o = true -> o_lbroadcast o = true -> o_flatten o = false ->
  o_dim o = None -> o_dims o = None ->
  Forall no_distr args -> Forall (fun kv => no_distr (snd kv)) kwargs ->
  let R := laid_out (wide (all_plates ts)) (o_expand o) (max_event ts) in
  exists args' kwargs',
    prepare_args veq anc_unwrap args kwargs o = Ok (args', kwargs', ts, all_plates ts) /\
    Forall2 (unwrapped R) args args' /\
    Forall2 (fun x y => fst x = fst y /\ unwrapped R (snd x) (snd y)) kwargs kwargs'.
Proof. exact (fun V veq au => @prepare_args_laid_out V veq au). Qed.
Print Assumptions C03_arguments_aligned.

Theorem C03_arguments_aligned_flat : forall (V : Type) (veq : V -> V -> bool) anc_unwrap args kwargs o (ts : list (stensor V)),
  ts = call_tensors args kwargs -> callable veq ts ->
  o_unwrap o = true -> o_align o = true -> o_lbroadcast o = true -> o_flatten o = true ->
  o_dim o = None -> o_dims o = None ->
  Forall no_distr args -> Forall (fun kv => no_distr (snd kv)) kwargs ->
  (forall t, In t ts -> 0 < lprod (s_event_shape t)) ->
  let R := laid_out_flat (wide (all_plates ts)) (max_event ts) in
  exists args' kwargs',
    prepare_args veq anc_unwrap args kwargs o = Ok (args', kwargs', ts, all_plates ts) /\
    Forall2 (unwrapped R) args args' /\
    Forall2 (fun x y => fst x = fst y /\ unwrapped R (snd x) (snd y)) kwargs kwargs'.
Proof. exact (fun V veq au => @prepare_args_laid_out_flat V veq au). Qed.
Print Assumptions C03_arguments_aligned_flat.

(** Witnesses: a with plates x (2), y (3), z (1) and no event dimension, b with plates y, x and event shape (2). *)
Definition w_x : plate nat := mkPlate PlainPlate "x" 2 (WTorch (tscalar 1)) [].
Definition w_y : plate nat := mkPlate PlainPlate "y" 3 (WTorch (tscalar 1)) [w_x].
Definition w_z : plate nat := mkPlate PlainPlate "z" 1 (WTorch (tscalar 1)) [].
Definition num (l : list nat) : nat := fold_left (fun a d => 10 * a + S d) l 0.
Definition w_a : stensor nat := mkS 10 (mkten [2; 3] num) [w_x; w_y; w_z] 2 [] [] false.
Definition w_b : stensor nat := mkS 11 (mkten [3; 2; 2] (fun i => 5000 + num i)) [w_y; w_x] 2 [2] [] false.
Definition no_anc : plate nat -> stensor nat -> res (stensor nat) := fun _ a => Ok a.

Lemma w_callable : callable Nat.eqb [w_a; w_b].
Proof.
  split; [|split].
  - repeat constructor; simpl; try (intros p Hp; intuition (subst; simpl; lia));
    try (intuition congruence); auto.
  - intros p q Hp Hq E. simpl in Hp, Hq. intuition (subst; simpl in *; try discriminate; try (split; reflexivity)).
  - intros p Hp. simpl in Hp. intuition (subst; reflexivity).
Qed.

Example C03_example : exists u v kw, prepare_args Nat.eqb no_anc [PT w_a; PList [PT w_b; PInt 7]] [("k", PNone)] default_opts
  = Ok ([PRaw u; PList [PRaw v; PInt 7]], kw, [w_a; w_b], [w_x; w_y; w_z]) /\
  shape u = [2; 3; 1] /\ shape v = [2; 3; 2] /\ el u [1; 2; 0] = num [1; 2] /\ el v [1; 2; 0] = 5000 + num [2; 1; 0].
Proof. do 3 eexists. repeat split; reflexivity. Qed.

(** C04. Elementwise functions of two storch tensors act per plate assignment. *)
Theorem C04_elementwise : forall (V : Type) (veq : V -> V -> bool) anc_unwrap f (a b : stensor V) base evc,
  callable veq [a; b] ->
  let m := Nat.max (s_event_dims a) (s_event_dims b) in
  broadcasts (pad m (s_event_shape a)) (pad m (s_event_shape b)) evc ->
  exists r, torch_op2 veq anc_unwrap top_ctx f (PT a) (PT b) base = Ok (PT r) /\
    splates r = union (splates a) (splates b) /\ s_event_shape r = evc /\ wf r /\
    sparents r = [sid a; sid b] /\ s_stochastic r = false /\ sid r = base + 1 /\
    forall s e, in_range s (splates r) -> valid e evc ->
      den r s e = f (den a s (proj (s_event_shape a) e)) (den b s (proj (s_event_shape b) e)).
Proof. exact (fun V veq au => @op2_spec V veq au). Qed.
Print Assumptions C04_elementwise.

Example C04_example : exists r, torch_op2 Nat.eqb no_anc top_ctx Nat.add (PT w_a) (PT w_b) 20 = Ok (PT r) /\
  map pname (splates r) = ["x"; "y"; "z"] /\ s_event_shape r = [2] /\ el (st r) [1; 2; 0] = num [1; 2] + (5000 + num [2; 1; 0]).
Proof. eexists. repeat split; reflexivity. Qed.
Example C04_witness : callable Nat.eqb [w_a; w_b] /\
  broadcasts (pad 1 (s_event_shape w_a)) (pad 1 (s_event_shape w_b)) [2].
Proof. split; [exact w_callable|]. simpl. apply B_left. constructor. Qed.

(** C05. make_left_broadcastable applies a batchwise function to every slice. *)
Theorem C05_left_broadcastable : forall (V : Type) (veq : V -> V -> bool) anc_unwrap ev g fn (ts : list (stensor V)) base,
  ts <> [] -> callable veq ts -> (forall t, In t ts -> 0 < lprod (s_event_shape t)) ->
  let ed := max_event ts in
  batchwise (map (fun a => pad ed (s_event_shape a)) ts) ev g fn ->
  exists r, left_broadcastable veq anc_unwrap top_ctx fn (map PT ts) base = Ok (PT r) /\
    splates r = all_plates ts /\ s_event_shape r = ev /\ wf r /\ sparents r = map sid ts /\
    forall s e, in_range s (all_plates ts) -> valid e ev ->
      den r s e = el (g (map (slice ed s) ts)) e.
Proof. exact (fun V veq au => @left_broadcastable_spec V veq au). Qed.
Print Assumptions C05_left_broadcastable.

(** A batchwise function: (u, v) |-> for every row, the product of the first element of u and the last of v. *)
Definition rowprod (us : list (ten nat)) : ten nat :=
  mkten [1] (fun _ => match us with [u; v] => el u [0] * el v [1] | _ => 0 end).
Definition batch_rowprod (us : list (ten nat)) : res (ten nat) :=
  match us with
  | [u; v] => Ok (mkten [hd 0 (shape u); 1] (fun i => el u [hd 0 i; 0] * el v [hd 0 i; 1]))
  | _ => Err TypeError
  end.
Example C05_witness :
  batchwise (map (fun a => pad (max_event [w_a; w_b]) (s_event_shape a)) [w_a; w_b]) [1] rowprod batch_rowprod /\
  callable Nat.eqb [w_a; w_b] /\ (forall t, In t [w_a; w_b] -> 0 < lprod (s_event_shape t)).
Proof.
  split; [split|split].
  - intros B ts HB E. destruct ts as [|u [|v [|]]]; try discriminate. injection E as E1 E2.
    eexists. split; [reflexivity|]. simpl. rewrite E1. split; reflexivity.
  - intros ts us e E F He. destruct F as [|u u' r r' [S1 X1] F]; auto. destruct F as [|v v' r r' [S2 X2] F]; auto.
    destruct F; [|discriminate]. injection E as E1 E2. simpl. rewrite X1, X2; auto.
    + rewrite E2. repeat constructor.
    + rewrite E1. repeat constructor.
  - exact w_callable.
  - intros t [<-|[<-|[]]]; simpl; lia.
Qed.
Example C05_example : exists r, left_broadcastable Nat.eqb no_anc top_ctx batch_rowprod [PT w_a; PT w_b] 20 = Ok (PT r) /\
  map pname (splates r) = ["x"; "y"; "z"] /\ s_event_shape r = [1] /\
  el (st r) [1; 2; 0] = num [1; 2] * (5000 + num [2; 1; 1]).
Proof. eexists. repeat split; reflexivity. Qed.

(** C06. Two different ordinary plates of one name among the arguments: the call is rejected. *)
Theorem C06_conflict_rejected : forall (V : Type) (veq : V -> V -> bool) anc_unwrap args kwargs o,
  (forall x y, veq x y = veq y x) -> (forall x y z, veq x y = true -> veq y z = true -> veq x z = true) ->
  let L := flat_map (@splates V) (call_tensors args kwargs) in
  plain L -> (forall p q, In p L -> In q L -> obj_ok p q) ->
  (exists p q, In p L /\ In q L /\ pname p = pname q /\ peq veq p q = false) ->
  prepare_args veq anc_unwrap args kwargs o = Err ValueError.
Proof. exact (fun V veq au => @conflict_rejected V veq au). Qed.
Print Assumptions C06_conflict_rejected.

(** Before running the function: the result of the call does not depend on the function. *)
Theorem C06_conflict_before_call : forall (V : Type) (veq : V -> V -> bool) anc_unwrap fn args kwargs rp o base,
  (forall x y, veq x y = veq y x) -> (forall x y z, veq x y = true -> veq y z = true -> veq x z = true) ->
  let L := flat_map (@splates V) (call_tensors args kwargs) in
  plain L -> (forall p q, In p L -> In q L -> obj_ok p q) ->
  (exists p q, In p L /\ In q L /\ pname p = pname q /\ peq veq p q = false) ->
  handle_deterministic veq anc_unwrap top_ctx fn args kwargs rp o base = Err ValueError.
Proof. exact (fun V veq au => @conflict_rejected_call V veq au). Qed.
Print Assumptions C06_conflict_before_call.

(** Ancestral plates: if all different plates of one name are ancestral with different variable indices, the plates
    of the call are one plate per name, and it is the one with the highest index. *)
Theorem C06_newest_ancestral_kept : forall (V : Type) (veq : V -> V -> bool) anc_unwrap args kwargs o a k ps pl,
  (forall x y, veq x y = veq y x) -> (forall x y z, veq x y = true -> veq y z = true -> veq x z = true) ->
  let L := flat_map (@splates V) (call_tensors args kwargs) in
  (forall p, In p L -> settled p) -> (forall p q, In p L -> In q L -> obj_ok p q) ->
  (forall p q, In p L -> In q L -> pname p = pname q -> peq veq p q = false -> duels p q) ->
  prepare_args veq anc_unwrap args kwargs o = Ok (a, k, ps, pl) ->
  incl pl L /\ NoDup (map pname pl) /\
  (forall p, In p L -> (forall q, In q L -> pname q = pname p -> variable_index q <= variable_index p) ->
     exists q, In q pl /\ peq veq q p = true) /\
  (forall p q, In p pl -> In q L -> pname q = pname p -> variable_index q <= variable_index p).
Proof. exact (fun V veq au => @newest_kept V veq au). Qed.
Print Assumptions C06_newest_ancestral_kept.

Definition w_anc (i n : nat) : plate nat := mkPlate (Ancestral i false) "s" n (WTorch (tscalar 1)) [].
Definition w_c (i n : nat) : stensor nat := mkS (30 + i) (mkten [n] num) [w_anc i n] 1 [] [] false.
Example C06_ancestral_example : exists a k, prepare_args Nat.eqb no_anc [PT (w_c 1 3); PT (w_c 2 2); PT (w_c 0 2)] []
    (mkW false true true false false None None) = Ok (a, k, [w_c 1 3; w_c 2 2; w_c 0 2], [w_anc 2 2]).
Proof. do 2 eexists. reflexivity. Qed.
Example C06_ancestral_witness : let L := flat_map (@splates nat) (call_tensors [PT (w_c 1 3); PT (w_c 2 2); PT (w_c 0 2)] []) in
  (forall p, In p L -> settled p) /\ (forall p q, In p L -> In q L -> obj_ok p q) /\
  (forall p q, In p L -> In q L -> pname p = pname q -> peq Nat.eqb p q = false -> duels p q).
Proof.
  cbv zeta. simpl. repeat split.
  - intros p H. intuition (subst; reflexivity).
  - intros p q Hp Hq o t w o' t' w' H1 H2. intuition (subst; discriminate).
  - intros p q Hp Hq _ E. intuition (subst; try discriminate E); unfold duels; do 4 eexists;
    repeat split; discriminate.
Qed.
Example C06_conflict_example : prepare_args Nat.eqb no_anc
  [PT w_a; PTuple [PT (mkS 12 (mkten [5] num) [mkPlate PlainPlate "x" 5 (WTorch (tscalar 1)) []] 1 [] [] false)]] [] default_opts
  = Err ValueError.
Proof. reflexivity. Qed.

(** Two different ancestral plates with one name and one variable index both disappear from the call (each finds
    the other not older): the plate is lost although no plate is newer. *)
Theorem C06_ancestral_tie_refuted : exists (a b : stensor nat) args' kw',
  wf a /\ wf b /\ map pname (splates a) = ["s"] /\ map pname (splates b) = ["s"] /\
  prepare_args Nat.eqb no_anc [PT a; PT b] [] (mkW false true true false false None None) = Ok (args', kw', [a; b], []).
Proof.
  exists (w_c 1 3), (w_c 1 2). do 2 eexists. repeat split; simpl; auto; try (repeat constructor; simpl; tauto);
  intros p [<-|[]]; simpl; lia.
Qed.
Print Assumptions C06_ancestral_tie_refuted.

(** C07. dim: the keyword dim becomes the position of the named plate in the layout of the arguments. *)
Theorem C07_dim_selects_plate : forall (V : Type) (veq : V -> V -> bool) anc_unwrap args kwargs ex d (ts : list (stensor V)),
  ts = call_tensors args kwargs -> callable veq ts ->
  Forall no_distr args -> Forall (fun kv => no_distr (snd kv)) kwargs ->
  d <> "" -> In d (map pname (wide (all_plates ts))) -> ~ In "dim" (map fst kwargs) ->
  let R := laid_out (wide (all_plates ts)) ex (max_event ts) in
  exists i p args' kwargs',
    prepare_args veq anc_unwrap args kwargs (mkW true true true ex false (Some d) None) =
      Ok (args', kwargs' ++ [("dim", PInt i)], ts, all_plates ts) /\
    nth_error (wide (all_plates ts)) i = Some p /\ pname p = d /\
    Forall2 (unwrapped R) args args' /\
    Forall2 (fun x y => fst x = fst y /\ unwrapped R (snd x) (snd y)) kwargs kwargs'.
Proof. exact (fun V veq au => @dim_selects V veq au). Qed.
Print Assumptions C07_dim_selects_plate.

Theorem C07_dim_absent_raises : forall (V : Type) (veq : V -> V -> bool) anc_unwrap args kwargs o d,
  callable veq (@call_tensors V args kwargs) -> o_dim o = Some d -> d <> "" ->
  ~ In d (map pname (wide (all_plates (call_tensors args kwargs)))) ->
  prepare_args veq anc_unwrap args kwargs o = Err UnboundLocalError.
Proof. exact (fun V veq au => @dim_missing V veq au). Qed.
Print Assumptions C07_dim_absent_raises.

Example C07_example : exists u v, prepare_args Nat.eqb no_anc [PT w_a; PT w_b] [] (mkW true true true false false (Some "y") None)
  = Ok ([PRaw u; PRaw v], [("dim", PInt 1)], [w_a; w_b], [w_x; w_y; w_z]).
Proof. do 2 eexists. reflexivity. Qed.

(** A keyword dim that the caller passes is overwritten in its place; the value passed never reaches the function. *)
Theorem C07_dim_overwrites : forall (V : Type) (veq : V -> V -> bool) anc_unwrap args k1 w k2 ex d (ts : list (stensor V)),
  ts = call_tensors args (k1 ++ ("dim", w) :: k2) -> callable veq ts ->
  Forall no_distr args -> Forall (fun kv => no_distr (snd kv)) (k1 ++ ("dim", w) :: k2) ->
  d <> "" -> In d (map pname (wide (all_plates ts))) -> ~ In "dim" (map fst k1) ->
  let R := laid_out (wide (all_plates ts)) ex (max_event ts) in
  exists i p args' k1' k2',
    prepare_args veq anc_unwrap args (k1 ++ ("dim", w) :: k2) (mkW true true true ex false (Some d) None) =
      Ok (args', k1' ++ ("dim", PInt i) :: k2', ts, all_plates ts) /\
    nth_error (wide (all_plates ts)) i = Some p /\ pname p = d /\
    Forall2 (unwrapped R) args args' /\
    Forall2 (fun x y => fst x = fst y /\ unwrapped R (snd x) (snd y)) k1 k1' /\
    Forall2 (fun x y => fst x = fst y /\ unwrapped R (snd x) (snd y)) k2 k2'.
Proof. exact (fun V veq au => @dim_overwrites V veq au). Qed.
Print Assumptions C07_dim_overwrites.
Example C07_overwrites_example : exists u v, prepare_args Nat.eqb no_anc [PT w_a; PT w_b] [("keepdim", PInt 5); ("dim", PInt 7)]
  (mkW true true true false false (Some "y") None)
  = Ok ([PRaw u; PRaw v], [("keepdim", PInt 5); ("dim", PInt 1)], [w_a; w_b], [w_x; w_y; w_z]).
Proof. do 2 eexists. reflexivity. Qed.

(** dims: a non-empty list of names always raises, also when every name is a plate of the arguments. *)
Theorem C07_dims_refuted : forall (V : Type) (veq : V -> V -> bool) anc_unwrap (args : list (pyval V)) kwargs o d ds,
  o_dims o = Some (d :: ds) -> exists e, prepare_args veq anc_unwrap args kwargs o = Err e.
Proof. exact (fun V veq au => @dims_raise V veq au). Qed.
Print Assumptions C07_dims_refuted.

(** C08. Outputs depend on exactly the storch tensors in the arguments, and keep their nesting. *)
Theorem C08_dependencies_recorded : forall (V : Type) (veq : V -> V -> bool) anc_unwrap fn args kwargs o base v,
  @call_tensors V args kwargs <> [] -> o_flatten o = false ->
  handle_deterministic veq anc_unwrap top_ctx fn args kwargs [] o base = Ok v ->
  (forall a k out, fn a k = Ok out -> no_storch out) ->
  exists args' kwargs' plates out,
    prepare_args veq anc_unwrap args kwargs o = Ok (args', kwargs', call_tensors args kwargs, plates) /\
    fn args' kwargs' = Ok out /\
    rewrapped (fun t u => t = u) (map sid (call_tensors args kwargs)) plates out v.
Proof. exact (fun V veq au => @dependencies_recorded V veq au). Qed.
Print Assumptions C08_dependencies_recorded.

(** Without storch tensors in the arguments the function is just called. *)
Theorem C08_no_dependencies : forall (V : Type) (veq : V -> V -> bool) anc_unwrap fn args kwargs rp o base,
  @call_tensors V args kwargs = [] ->
  o_dim o = None -> o_dims o = None -> Forall no_distr args -> Forall (fun kv => no_distr (snd kv)) kwargs ->
  handle_deterministic veq anc_unwrap top_ctx fn args kwargs rp o base = fn args kwargs.
Proof. exact (fun V veq au => @no_tensor_call V veq au). Qed.
Print Assumptions C08_no_dependencies.

Example C08_example : exists r1 r2, handle_deterministic Nat.eqb no_anc top_ctx
  (fun args kw => match args, kw with [PRaw t; PList [PRaw u]], [(_, PRaw v)] => Ok (PTuple [PRaw t; PList [PRaw t; PNone]]) | _, _ => Err TypeError end)
  [PT w_a; PList [PT w_a]] [("k", PT w_a)] [] default_opts 50 = Ok (PTuple [PT r1; PList [PT r2; PNone]]) /\
  sparents r1 = [10; 10; 10] /\ sparents r2 = [10; 10; 10] /\ sid r1 = 51 /\ sid r2 = 52.
Proof. do 2 eexists. repeat split; reflexivity. Qed.

(** An output that already is a storch tensor loses its own dependencies: the new tensor has the parents of the call
    only, the tensor returned by the function is not among them. *)
Theorem C08_storch_output_refuted : exists (fn : list (pyval nat) -> list (string * pyval nat) -> res (pyval nat)) a inner r,
  wf a /\ wf inner /\ fn [PRaw (st a)] [] = Ok (PT inner) /\ sparents inner = [77] /\
  handle_deterministic Nat.eqb no_anc top_ctx fn [PT a] [] [] default_opts 50 = Ok (PT r) /\
  ~ In 77 (sparents r) /\ ~ In (sid inner) (sparents r).
Proof.
  exists (fun _ _ => Ok (PT (mkS 40 (mkten [2; 3] num) [w_x; w_y] 2 [] [77] false))), w_a,
    (mkS 40 (mkten [2; 3] num) [w_x; w_y] 2 [] [77] false).
  eexists. split; [|split; [|split; [|split; [|split; [reflexivity|]]]]].
  - destruct w_callable as [H _]. inversion H; auto.
  - repeat constructor; simpl; try (intros p Hp; intuition (subst; simpl; lia)); intuition congruence.
  - reflexivity.
  - reflexivity.
  - simpl. intuition congruence.
Qed.
Print Assumptions C08_storch_output_refuted.

(** It is so for every such call: the parents are the arguments, whatever the output depends on. Of the plates of the arguments and
    of the output, the result has one of every name, at least as new as all others of that name. *)
Theorem C08_storch_output_always_refuted : forall (V : Type) (veq : V -> V -> bool) anc_unwrap fn args kwargs o base r,
  @call_tensors V args kwargs <> [] -> (forall a k out, fn a k = Ok out -> exists inner, out = PT inner) ->
  handle_deterministic veq anc_unwrap top_ctx fn args kwargs [] o base = Ok (PT r) ->
  exists args' kwargs' plates inner, prepare_args veq anc_unwrap args kwargs o = Ok (args', kwargs', call_tensors args kwargs, plates) /\
    fn args' kwargs' = Ok (PT inner) /\ s_stochastic inner = false /\ st r = st inner /\ sparents r = map sid (call_tensors args kwargs) /\
    (forall p, In p (splates r) -> In p plates \/ In p (splates inner)) /\
    (forall p, In p plates \/ In p (splates inner) -> exists q, In q (splates r) /\ pname q = pname p /\ variable_index p <= variable_index q).
Proof. exact (fun V veq au => @storch_output V veq au). Qed.
Print Assumptions C08_storch_output_always_refuted.
(** An argument with version 1 of the ancestral plate s and an output with version 2, or the other way round: version 2 is kept. *)
Example C08_storch_output_witness : forall i j, (i, j) = (1, 2) \/ (i, j) = (2, 1) ->
  exists r, handle_deterministic Nat.eqb no_anc top_ctx (fun _ _ => Ok (PT (w_c j 3))) [PT (w_c i 3)] [] [] (mkW false true true false false None None) 50 = Ok (PT r) /\
    map (@variable_index nat) (splates r) = [2].
Proof. intros i j [E|E]; injection E as -> ->; eexists; split; reflexivity. Qed.

