(** C32: earlier variables follow the selected ancestors (storch/sampling/seq.py:83-137). *)
From Coq Require Import String List Arith Bool Lia.
From Verif Require Import Base Torch Plates Wrap Ancestral SpecTensor SpecWrap SpecReduce SpecAncestral
  AncestralProofs4 AncestralProofs5.
Import ListNotations.
Open Scope string_scope.

(** A tensor of variable [q] used at variable [p]: after any chain of selections its value for a sample is the value for the
    ancestor of that sample, provided that every selection but the last one gives the same when it is followed twice.
    A tensor without event dimensions gets one of size 1. *)
Theorem C32_ancestor_partial : forall (V : Type) (veq : V -> V -> bool) (toi : V -> nat)
    (parent_plate : string -> nat -> option (plate V)) (selected_samples : string -> nat -> option (stensor V))
    (G : list (plate V)) (x : string),
  plain G -> agree veq G -> (forall p, In p G -> pname p <> x) -> x <> "" ->
  forall base q p l a, lineage toi parent_plate selected_samples G x q p l -> l <> [] ->
  (forall k, In k (tl l) -> settles toi x (snd k)) -> over G q a ->
  exists b, anc_on_unwrap veq toi parent_plate selected_samples base p a = Ok b /\ over G p b /\
    (forall r, In r (splates a) -> r <> q -> In (pname r) (map pname (splates b))) /\
    s_event_shape b = pad 1 (s_event_shape a) /\
    forall s e, in_range s (splates b) -> valid e (s_event_shape b) ->
      den b s e = den a (set_to s x (ancestor toi x (map snd l) s)) (firstn (s_event_dims a) e).
Proof. exact (@followed_ancestor). Qed.
Print Assumptions C32_ancestor_partial.

(** Without that condition: every selection but the last one is followed twice. *)
Theorem C32_chain_partial : forall (V : Type) (veq : V -> V -> bool) (toi : V -> nat)
    (parent_plate : string -> nat -> option (plate V)) (selected_samples : string -> nat -> option (stensor V))
    (G : list (plate V)) (x : string),
  plain G -> agree veq G -> (forall p, In p G -> pname p <> x) -> x <> "" ->
  forall base q p l a, lineage toi parent_plate selected_samples G x q p l -> l <> [] -> over G q a ->
  exists b, anc_on_unwrap veq toi parent_plate selected_samples base p a = Ok b /\ over G p b /\
    (forall r, In r (splates a) -> r <> q -> In (pname r) (map pname (splates b))) /\
    s_event_shape b = pad 1 (s_event_shape a) /\
    forall s e, in_range s (splates b) -> valid e (s_event_shape b) ->
      den b s e = den a (set_to s x (reached toi x (map snd l) s)) (firstn (s_event_dims a) e).
Proof.
  intros V veq toi pa ss G x H1 H2 H3 H4 base q p l a Hl Hne Ha.
  destruct (unwrap_chain veq toi pa ss G x H1 H2 H3 H4 base q p l a Hl Hne Ha) as [b [E F]]. exists b.
  refine (conj E (conj (fo_over _ _ _ _ _ _ _ _ F) (conj (fo_kept _ _ _ _ _ _ _ _ F) (conj (fo_event _ _ _ _ _ _ _ _ F) _)))).
  exact (fo_value _ _ _ _ _ _ _ _ F).
Qed.
Print Assumptions C32_chain_partial.

(** An elementwise operation on an earlier and a later variable, in either order, when one of them has event dimensions. *)
Theorem C32_operation_partial : forall (V : Type) (veq : V -> V -> bool) (toi : V -> nat)
    (parent_plate : string -> nat -> option (plate V)) (selected_samples : string -> nat -> option (stensor V))
    (G : list (plate V)) (x : string),
  plain G -> agree veq G -> (forall p, In p G -> pname p <> x) -> x <> "" ->
  forall f (first : bool) hbase base q p l a c evc,
  lineage toi parent_plate selected_samples G x q p l -> l <> [] -> over G q a -> over G p c ->
  (forall sel r, In sel (map snd l) -> In r (splates sel) -> r <> p -> In (pname r) (map pname (splates a ++ splates c))) ->
  let m := Nat.max (s_event_dims a) (s_event_dims c) in
  1 <= m ->
  let (a1, a2) := if first then (a, c) else (c, a) in
  broadcasts (pad m (s_event_shape a1)) (pad m (s_event_shape a2)) evc ->
  exists r, torch_op2 veq (anc_on_unwrap veq toi parent_plate selected_samples hbase) top_ctx f (PT a1) (PT a2) base = Ok (PT r) /\
    over G p r /\ (forall n, In n (map pname (splates r)) <-> In n (map pname (splates a ++ splates c))) /\
    s_event_shape r = evc /\ sparents r = [sid a1; sid a2] /\
    forall s e, in_range s (splates r) -> valid e evc ->
      let va := den a (set_to s x (reached toi x (map snd l) s)) (proj (s_event_shape a) e) in
      let vc := den c s (proj (s_event_shape c) e) in
      den r s e = if first then f va vc else f vc va.
Proof. exact (@op2_chain). Qed.
Print Assumptions C32_operation_partial.

(** With one selection in between, the sample reached is the ancestor. *)
Theorem C32_one_selection : forall (V : Type) (toi : V -> nat) (x : string) (sel : stensor V) s,
  reached toi x [sel] s = ancestor toi x [sel] s /\ reached toi x [sel] s = chosen toi sel s.
Proof. intros. unfold reached, ancestor, ancestor_twice, set_to. rewrite String.eqb_refl. auto. Qed.
Print Assumptions C32_one_selection.

(** Without selections every sample continues the sample with the same index: the value is unchanged. *)
Theorem C32_no_selection : forall (V : Type) (veq : V -> V -> bool) (toi : V -> nat)
    (parent_plate : string -> nat -> option (plate V)) (selected_samples : string -> nat -> option (stensor V))
    (G : list (plate V)) (x : string),
  (forall p, In p G -> pname p <> x) ->
  forall base p q vp vq a, variable_plate x vp p -> variable_plate x vq q -> vq < vp -> pn q = pn p ->
  selected_samples x vp = None -> over G q a ->
  exists b, anc_on_unwrap veq toi parent_plate selected_samples base p a = Ok b /\ over G p b /\ sparents b = [sid a] /\
    s_event_shape b = s_event_shape a /\ forall s e, den b s e = den a s e.
Proof. exact (@relabel). Qed.
Print Assumptions C32_no_selection.

(** Three variables with 2, 3 and 3 samples under a batch plate of size 2. *)
Definition ex_z (vi n : nat) : plate nat := mkPlate (Ancestral vi false) "z" n (WTorch (tscalar 0)) [].
Definition ex_b : plate nat := mkPlate PlainPlate "b" 2 (WTorch (tscalar 1)) [].
Definition ex_sel1 : stensor nat :=
  mkS 11 (mkten [2; 3] (fun i => match i with [0; 0] => 1 | [0; 1] => 0 | [0; 2] => 1 | [1; 1] => 1 | _ => 0 end))
      [ex_b; ex_z 1 3] 1 [3] [] false.
Definition ex_sel2 : stensor nat :=
  mkS 12 (mkten [2; 3] (fun i => match i with [0; 0] => 1 | [0; 1] => 2 | [0; 2] => 0 | [1; 0] => 2 | [1; 1] => 0 | _ => 1 end))
      [ex_b; ex_z 2 3] 1 [3] [] false.
Definition ex_parent (_ : string) (vi : nat) : option (plate nat) :=
  match vi with 1 => Some (ex_z 0 2) | 2 => Some (ex_z 1 3) | _ => None end.
Definition ex_selected (_ : string) (vi : nat) : option (stensor nat) :=
  match vi with 1 => Some ex_sel1 | 2 => Some ex_sel2 | _ => None end.
(** The first variable, with an event dimension of size 2, and a later one. *)
Definition ex_a : stensor nat :=
  mkS 1 (mkten [2; 2; 2] (fun i => 100 * nth 0 i 0 + 10 * nth 1 i 0 + nth 2 i 0)) [ex_b; ex_z 0 2] 2 [2] [] true.
Definition ex_c : stensor nat :=
  mkS 2 (mkten [2; 3; 2] (fun i => 1000 * nth 1 i 0)) [ex_b; ex_z 1 3] 2 [2] [] true.

Lemma ex_plain : plain [ex_b].
Proof. intros p [<-|[]]. reflexivity. Qed.
Lemma ex_agree : agree Nat.eqb [ex_b].
Proof. intros p r [<-|[]] [<-|[]] _. split; reflexivity. Qed.
Lemma ex_name : forall p, In p [ex_b] -> pname p <> "z".
Proof. intros p [<-|[]]. discriminate. Qed.
Lemma ex_plate : forall vi n, 1 < n -> variable_plate "z" vi (ex_z vi n).
Proof. intros. constructor; auto. Qed.

Lemma ex_range : forall (m n : nat) (t : ten nat) vi s,
  (forall i j, i < 2 -> j < n -> el t [i; j] < m) -> 1 < n ->
  in_range s (wide [ex_b; ex_z vi n]) ->
  chosen (fun v => v) (mkS 0 t [ex_b; ex_z vi n] 1 [n] [] false) s < m.
Proof.
  intros m n t vi s H Hn Hs. assert (W : wide [ex_b; ex_z vi n] = [ex_b; ex_z vi n]).
  { unfold wide. simpl. destruct (Nat.ltb_spec 1 n); auto. lia. }
  unfold chosen, den. cbn [splates st]. rewrite W in *. cbn [map app]. apply H.
  - apply (Hs ex_b). simpl. auto.
  - apply (Hs (ex_z vi n)). simpl. auto.
Qed.

Lemma ex_select1 : selects (fun v => v) [ex_b] (ex_z 0 2) (ex_z 1 3) ex_sel1.
Proof.
  constructor.
  - simpl. repeat constructor; simpl; intuition discriminate.
  - simpl. intuition.
  - simpl. auto.
  - intros r [<-|[<-|[]]]; simpl; lia.
  - reflexivity.
  - reflexivity.
  - intros s Hs. apply (ex_range 2 3 (st ex_sel1) 1 s); auto.
    intros i j Hi Hj. destruct i as [|[|i]]; destruct j as [|[|[|j]]]; try lia; simpl; lia.
Qed.
Lemma ex_select2 : selects (fun v => v) [ex_b] (ex_z 1 3) (ex_z 2 3) ex_sel2.
Proof.
  constructor.
  - simpl. repeat constructor; simpl; intuition discriminate.
  - simpl. intuition.
  - simpl. auto.
  - intros r [<-|[<-|[]]]; simpl; lia.
  - reflexivity.
  - reflexivity.
  - intros s Hs. apply (ex_range 3 3 (st ex_sel2) 2 s); auto.
    intros i j Hi Hj. destruct i as [|[|i]]; destruct j as [|[|[|j]]]; try lia; simpl; lia.
Qed.

Lemma ex_lineage1 : lineage (fun v => v) ex_parent ex_selected [ex_b] "z" (ex_z 0 2) (ex_z 1 3) [(ex_z 1 3, ex_sel1)].
Proof.
  apply (Lnext _ _ _ _ _ _ 0 (ex_z 0 2) (ex_z 1 3) 1); try reflexivity; try (apply ex_plate; lia); try apply ex_select1.
  all: try (simpl; lia). apply (Lhere _ _ _ _ _ _ 0). apply ex_plate. lia.
Qed.
Lemma ex_lineage2 : lineage (fun v => v) ex_parent ex_selected [ex_b] "z" (ex_z 0 2) (ex_z 2 3)
  [(ex_z 2 3, ex_sel2); (ex_z 1 3, ex_sel1)].
Proof.
  apply (Lnext _ _ _ _ _ _ 1 (ex_z 1 3) (ex_z 2 3) 2); try reflexivity; try (apply ex_plate; lia); try apply ex_select2.
  all: try (simpl; lia). apply ex_lineage1.
Qed.

Lemma ex_over_a : over [ex_b] (ex_z 0 2) ex_a.
Proof.
  constructor.
  - constructor; try reflexivity.
    + simpl. repeat constructor; simpl; intuition discriminate.
    + intros r [<-|[<-|[]]]; simpl; lia.
  - simpl. auto.
  - simpl. intuition.
Qed.
Lemma ex_over_c : over [ex_b] (ex_z 1 3) ex_c.
Proof.
  constructor.
  - constructor; try reflexivity.
    + simpl. repeat constructor; simpl; intuition discriminate.
    + intros r [<-|[<-|[]]]; simpl; lia.
  - simpl. auto.
  - simpl. intuition.
Qed.

Lemma is_ok : forall {A} (y : res A) (P : A -> Prop), match y with Ok r => P r | Err _ => False end -> exists r, y = Ok r /\ P r.
Proof. intros A [r|e] P H; [eauto|destruct H]. Qed.
Lemma is_tensor : forall {W} (y : res (pyval W)) (P : stensor W -> Prop),
  match y with Ok (PT r) => P r | _ => False end -> exists r, y = Ok (PT r) /\ P r.
Proof. intros W y P H. destruct y as [v|]; [|destruct H]. destruct v; try destruct H. eauto. Qed.

(** The hypotheses of the theorems hold for these tensors. *)
Example C32_witness :
  plain [ex_b] /\ agree Nat.eqb [ex_b] /\
  lineage (fun v => v) ex_parent ex_selected [ex_b] "z" (ex_z 0 2) (ex_z 1 3) [(ex_z 1 3, ex_sel1)] /\
  lineage (fun v => v) ex_parent ex_selected [ex_b] "z" (ex_z 0 2) (ex_z 2 3) [(ex_z 2 3, ex_sel2); (ex_z 1 3, ex_sel1)] /\
  over [ex_b] (ex_z 0 2) ex_a /\ over [ex_b] (ex_z 1 3) ex_c.
Proof.
  exact (conj ex_plain (conj ex_agree (conj ex_lineage1 (conj ex_lineage2 (conj ex_over_a ex_over_c))))).
Qed.
(** A selection that may stand before others in [C32_ancestor_partial]: the second and third sample continue the second. *)
Example C32_settles_witness :
  settles (fun v => v) "z" (mkS 14 (mkten [3] (fun i => match i with [0] => 0 | _ => 1 end)) [ex_z 1 3] 0 [3] [] false).
Proof.
  intros s Hs. unfold chosen, den, set_to. simpl. destruct (s "z") as [|j]; reflexivity.
Qed.
(** The sum of the first and the second variable: rows follow [ex_sel1]. *)
Example C32_operation_witness : exists r,
  torch_op2 Nat.eqb (anc_on_unwrap Nat.eqb (fun v => v) ex_parent ex_selected 100) top_ctx Nat.add (PT ex_a) (PT ex_c) 50 = Ok (PT r) /\
  shape (st r) = [2; 3; 2] /\
  map (el (st r)) (indices [2; 3; 2]) = [10; 11; 1000; 1001; 2010; 2011; 100; 101; 1110; 1111; 2100; 2101].
Proof. apply is_tensor. vm_compute. auto. Qed.

(** After two selections the value is not the ancestor's: for sample 0 of the third variable, which continues sample 1 of the
    second and sample 0 of the first, the code takes sample 1 of the first variable. *)
Theorem C32_two_selections_refuted : exists b s e,
  anc_on_unwrap Nat.eqb (fun v => v) ex_parent ex_selected 100 (ex_z 2 3) ex_a = Ok b /\
  in_range s (splates b) /\ valid e (s_event_shape b) /\ s_event_shape b = s_event_shape ex_a /\
  den b s e <> den ex_a (set_to s "z" (ancestor (fun v => v) "z" [ex_sel2; ex_sel1] s)) e.
Proof.
  destruct (is_ok (anc_on_unwrap Nat.eqb (fun v => v) ex_parent ex_selected 100 (ex_z 2 3) ex_a)
    (fun b => splates b = [ex_b; ex_z 2 3] /\ s_event_shape b = [2] /\ den b (fun _ => 0) [0] = 10)) as [b [E [P [Ev D]]]].
  { vm_compute. auto. }
  exists b, (fun _ => 0), [0]. split; [exact E|]. rewrite P, Ev, D. split; [|split; [|split]].
  - intros p [<-|[<-|[]]]; simpl; lia.
  - repeat constructor.
  - reflexivity.
  - vm_compute. discriminate.
Qed.
Print Assumptions C32_two_selections_refuted.

(** Tensors without event dimensions: the gathered tensor has an event dimension of size 1 that lines up with the plate
    dimension of the later variable, so that the sum of two scalars per sample is a 3 x 3 table. *)
Definition ex_s1 : stensor nat := mkS 13 (mkten [3] (fun i => match i with [0] => 1 | [1] => 0 | _ => 1 end)) [ex_z 1 3] 0 [3] [] false.
Definition ex_selected1 (_ : string) (vi : nat) : option (stensor nat) := match vi with 1 => Some ex_s1 | _ => None end.
Definition ex_scalar0 : stensor nat := mkS 1 (mkten [2] (fun i => 10 + nth 0 i 0)) [ex_z 0 2] 1 [] [] true.
Definition ex_scalar1 : stensor nat := mkS 2 (mkten [3] (fun i => 100 * nth 0 i 0)) [ex_z 1 3] 1 [] [] true.
Theorem C32_scalars_refuted : exists r,
  lineage (fun v => v) ex_parent ex_selected1 [] "z" (ex_z 0 2) (ex_z 1 3) [(ex_z 1 3, ex_s1)] /\
  over [] (ex_z 0 2) ex_scalar0 /\ over [] (ex_z 1 3) ex_scalar1 /\
  s_event_shape ex_scalar0 = [] /\ s_event_shape ex_scalar1 = [] /\
  torch_op2 Nat.eqb (anc_on_unwrap Nat.eqb (fun v => v) ex_parent ex_selected1 100) top_ctx Nat.add
    (PT ex_scalar0) (PT ex_scalar1) 50 = Ok (PT r) /\
  s_event_shape r = [3].
Proof.
  destruct (is_tensor (torch_op2 Nat.eqb (anc_on_unwrap Nat.eqb (fun v => v) ex_parent ex_selected1 100) top_ctx Nat.add
    (PT ex_scalar0) (PT ex_scalar1) 50) (fun r => s_event_shape r = [3])) as [rr [Er Ev]].
  { vm_compute. reflexivity. }
  exists rr. split; [|split; [|split; [|split; [reflexivity|split; [reflexivity|split; [exact Er|exact Ev]]]]]].
  - apply (Lnext _ _ _ _ _ _ 0 (ex_z 0 2) (ex_z 1 3) 1); try reflexivity; try (apply ex_plate; lia); try (simpl; lia).
    + apply (Lhere _ _ _ _ _ _ 0). apply ex_plate. lia.
    + constructor.
      * simpl. repeat constructor; simpl; intuition discriminate.
      * simpl. intuition.
      * simpl. auto.
      * intros r [<-|[]]; simpl; lia.
      * reflexivity.
      * reflexivity.
      * intros s Hs. assert (H : s "z" < 3) by (apply (Hs (ex_z 1 3)); simpl; auto).
        unfold chosen, den. simpl. destruct (s "z") as [|[|[|j]]]; simpl; lia.
  - constructor; [constructor|..]; try reflexivity.
    + simpl. repeat constructor; simpl; intuition discriminate.
    + intros r [<-|[]]; simpl; lia.
    + simpl. auto.
    + simpl. intuition.
  - constructor; [constructor|..]; try reflexivity.
    + simpl. repeat constructor; simpl; intuition discriminate.
    + intros r [<-|[]]; simpl; lia.
    + simpl. auto.
    + simpl. intuition.
Qed.
Print Assumptions C32_scalars_refuted.

(** A first variable with a single sample cannot be combined with a later one with several. *)
Definition ex_single : stensor nat := mkS 1 (mkten [2] (fun i => nth 0 i 0)) [ex_z 0 1] 0 [2] [] true.
Definition ex_s0 : stensor nat := mkS 13 (mkten [3] (fun _ => 0)) [ex_z 1 3] 0 [3] [] false.
Theorem C32_single_sample_refuted :
  wf ex_single /\
  anc_on_unwrap Nat.eqb (fun v => v) (fun _ vi => match vi with 1 => Some (ex_z 0 1) | _ => None end)
    (fun _ vi => match vi with 1 => Some ex_s0 | _ => None end) 100 (ex_z 1 3) ex_single = Err RuntimeError.
Proof.
  split; [|vm_compute; reflexivity]. constructor; try reflexivity.
  - simpl. repeat constructor; simpl; intuition discriminate.
  - intros r [<-|[]]; simpl; lia.
Qed.
Print Assumptions C32_single_sample_refuted.

(** The tensors the plate does not change: those without its plate, and those of its own variable. Those of a later variable, and those
    with an ordinary plate of its name, are rejected. *)
Theorem C32_cases : forall (V : Type) (veq : V -> V -> bool) (toi : V -> nat)
    (parent_plate : string -> nat -> option (plate V)) (selected_samples : string -> nat -> option (stensor V)) base (p : plate V) (a : stensor V),
  NoDup (map pname (splates a)) ->
  let u := anc_on_unwrap veq toi parent_plate selected_samples base p a in
  (~ In (pname p) (map pname (splates a)) -> u = Ok a) /\
  forall q, In q (splates a) -> pname q = pname p ->
    (pcls q = PlainPlate -> u = Err AssertionError) /\
    forall vp op vq oq, pcls p = Ancestral vp op -> pcls q = Ancestral vq oq -> (vq = vp -> u = Ok a) /\ (vp < vq -> u = Err AssertionError).
Proof. exact (@unwrap_cases). Qed.
Print Assumptions C32_cases.

(** The selections of the theorems above are what the decoder makes of the chosen parents [a]: the new plate [p] is put in its list of plates,
    after the others, but not in what it counts as plate dimensions. *)
Theorem C32_parent_indexing : forall (V : Type) (toi : V -> nat) (G : list (plate V)) (q p : plate V) (a : stensor V),
  wf a -> (forall r, In r (splates a) -> In r G /\ 1 < pn r) -> ~ In (pname p) (map pname (splates a)) -> 1 < pn p -> s_event_shape a = [pn p] ->
  (forall i, valid i (shape (st a)) -> toi (el (st a) i) < pn q) ->
  let sel := insert_plate (length (splates a)) p a in
  selects toi G q p sel /\ splates sel = (splates a ++ [p])%list /\ forall s, chosen toi sel s = toi (den a s [s (pname p)]).
Proof. exact (@parent_indexing_selects). Qed.
Print Assumptions C32_parent_indexing.

Definition ex_chosen : stensor nat := mkS 11 (st ex_sel1) [ex_b] 1 [3] [] false.
Example C32_parent_indexing_witness : wf ex_chosen /\ ~ In "z" (map pname (splates ex_chosen)) /\ s_event_shape ex_chosen = [pn (ex_z 1 3)] /\
  insert_plate 1 (ex_z 1 3) ex_chosen = ex_sel1.
Proof.
  split; [|split; [simpl; intuition discriminate|split; reflexivity]]. constructor; try reflexivity; [simpl; repeat constructor; simpl; intuition|intros r [<-|[]]; simpl; lia].
Qed.

Example C32_cases_witness : NoDup (map pname (splates ex_c)) /\ In (ex_z 1 3) (splates ex_c) /\ pname (ex_z 1 3) = pname (ex_z 0 2) /\
  pcls (ex_z 0 2) = Ancestral 0 false /\ pcls (ex_z 1 3) = Ancestral 1 false /\ 0 < 1.
Proof. repeat split; simpl; auto. repeat constructor; simpl; intuition discriminate. Qed.
