(** Proofs about print_graph. *)
From Coq Require Import String List Arith Bool Lia Decimal DecimalString DecimalNat DecimalFacts Ascii.
From Verif Require Import Base Graph PrintGraph SpecPrint.
Import ListNotations.
Open Scope string_scope.
Open Scope nat_scope.
Open Scope list_scope.
Notation chars := list_ascii_of_string.

Lemma chars_app : forall a b, chars (a ++ b)%string = chars a ++ chars b.
Proof. induction a as [|c a IH]; intros b; cbn; [reflexivity|]. now rewrite IH. Qed.
Lemma chars_inj : forall a b, chars a = chars b -> a = b.
Proof. intros a b H. rewrite <- (string_of_list_ascii_of_string a), <- (string_of_list_ascii_of_string b). now rewrite H. Qed.

Lemma digits_empty : forall d c, In c (chars (NilEmpty.string_of_uint d)) -> is_digit c.
Proof. induction d as [|d IH|d IH|d IH|d IH|d IH|d IH|d IH|d IH|d IH|d IH]; intros c H; [destruct H|..]; (destruct H as [<-|H]; [unfold is_digit; cbn; tauto|exact (IH _ H)]). Qed.
Lemma digits : forall n c, In c (chars (str_of_nat n)) -> is_digit c.
Proof.
  intros n c. unfold str_of_nat, NilZero.string_of_uint. destruct (Nat.to_uint n) eqn:E; try (rewrite <- E); try apply digits_empty.
  cbn. intros [<-|[]]. unfold is_digit. cbn. tauto.
Qed.
Lemma to_uint_nonnil : forall n, Nat.to_uint n <> Nil.
Proof. intros n H. pose proof (Unsigned.of_to n) as O. rewrite H in O. cbn in O. subst n. discriminate. Qed.
Lemma str_nonempty : forall n, str_of_nat n <> "".
Proof. intros n. unfold str_of_nat, NilZero.string_of_uint. pose proof (to_uint_nonnil n). destruct (Nat.to_uint n); try congruence; discriminate. Qed.
Lemma str_inj : forall n m, str_of_nat n = str_of_nat m -> n = m.
Proof.
  intros n m H. unfold str_of_nat in H. apply Unsigned.to_uint_inj.
  pose proof (NilZero.usu (Nat.to_uint n) (to_uint_nonnil n)) as A. pose proof (NilZero.usu (Nat.to_uint m) (to_uint_nonnil m)) as B.
  rewrite H in A. rewrite A in B. injection B as B. exact B.
Qed.
Lemma split_last : forall {A} (x : A) l1 m1 l2 m2, ~ In x m1 -> ~ In x m2 -> l1 ++ x :: m1 = l2 ++ x :: m2 -> l1 = l2 /\ m1 = m2.
Proof.
  intros A x. induction l1 as [|a l1 IH]; intros m1 [|b l2] m2 N1 N2 E; cbn in E.
  - injection E as E. auto.
  - injection E as -> E. subst m1. exfalso. apply N1. apply in_or_app. right. simpl. auto.
  - injection E as -> E. subst m2. exfalso. apply N2. apply in_or_app. right. simpl. auto.
  - injection E as -> E. destruct (IH _ _ _ N1 N2 E) as [-> ->]. auto.
Qed.
Definition render (x : string * nat) : string := (fst x ++ "[" ++ str_of_nat (snd x) ++ "]")%string.
Lemma render_inj : forall x y, render x = render y -> x = y.
Proof.
  intros [a n] [b m] H. unfold render in H. cbn [fst snd] in H. apply (f_equal chars) in H. rewrite !chars_app in H. cbn [list_ascii_of_string] in H. cbn [app] in H.
  assert (N : forall k, ~ In "["%char (chars (str_of_nat k) ++ ["]"%char])).
  { intros k Hk. apply in_app_or in Hk. destruct Hk as [Hk|[Hk|[]]]; [|discriminate]. apply digits in Hk. unfold is_digit in Hk. cbn in Hk. intuition discriminate. }
  apply split_last in H; auto. destruct H as [H1 H2]. apply app_inv_tail in H2. apply chars_inj in H1, H2. apply str_inj in H2. congruence.
Qed.
Lemma render_numbered : forall x, numbered (fst x) (render x).
Proof. intros x. exists (str_of_nat (snd x)). split; [reflexivity|]. split; [apply str_nonempty|apply digits]. Qed.

Lemma cget_set : forall k k' v c, cget k (cset k' v c) = if String.eqb k k' then Some v else cget k c.
Proof.
  intros k k' v. induction c as [|[x n] c IH]; cbn [cset cget].
  - destruct (String.eqb k k'); reflexivity.
  - destruct (String.eqb k' x) eqn:E; cbn [cget].
    + apply String.eqb_eq in E. subst x. destruct (String.eqb k k'); reflexivity.
    + rewrite IH. destruct (String.eqb k x) eqn:E2; auto. apply String.eqb_eq in E2. subst x. rewrite String.eqb_sym in E. now rewrite E.
Qed.

Section Invariant.
Variable info : nat -> pinfo.
(** [g] gives the label and the number of every tensor named so far. *)
Definition inv (st : counters * names) (g : nat -> string * nat) : Prop :=
  (forall x s, nget x (snd st) = Some s -> s = render (g x) /\ fst (g x) = label_of (info x) /\ exists c, cget (fst (g x)) (fst st) = Some c /\ snd (g x) < c) /\
  (forall x y s t, nget x (snd st) = Some s -> nget y (snd st) = Some t -> g x = g y -> x = y) /\
  (exists a b c, cget "s" (fst st) = Some a /\ cget "c" (fst st) = Some b /\ cget "d" (fst st) = Some c).
Definition named (st : counters * names) (x : nat) : Prop := nget x (snd st) <> None.
Definition extends (g g' : nat -> string * nat) (st : counters * names) : Prop := forall x, named st x -> g' x = g x.

Lemma inv_add : forall c ns g node k n, inv (c, ns) g -> nget node ns = None -> k = label_of (info node) ->
  match cget k c with Some m => n = m | None => n = 0 end ->
  let g' := fun x => if x =? node then (k, n) else g x in
  inv (cset k (n + 1) c, (node, render (k, n)) :: ns) g'.
Proof.
  intros c ns g node k n [I1 [I2 I3]] Hn Hk Hc g'. cbn [fst snd] in *.
  assert (Fresh : forall y t, nget y ns = Some t -> g y <> (k, n)).
  { intros y t Hy E. destruct (I1 _ _ Hy) as [_ [_ [m [M1 M2]]]]. rewrite E in M1, M2. cbn [fst snd] in *. rewrite M1 in Hc. subst. lia. }
  split; [|split]; cbn [fst snd].
  - intros x s. cbn [nget]. unfold g'. destruct (Nat.eqb_spec x node) as [->|Ne].
    + intros H. injection H as <-. split; [reflexivity|]. split; [exact Hk|]. cbn [fst snd]. rewrite cget_set, String.eqb_refl. exists (n + 1). split; [reflexivity|lia].
    + intros H. destruct (I1 _ _ H) as [E1 [E2 [m [M1 M2]]]]. split; [exact E1|]. split; [exact E2|]. rewrite cget_set. destruct (String.eqb_spec (fst (g x)) k) as [Ek|_]; [|eauto].
      rewrite Ek in M1. rewrite M1 in Hc. exists (n + 1). split; [reflexivity|lia].
  - intros x y s t. cbn [nget]. unfold g'. destruct (Nat.eqb_spec x node) as [->|Nx], (Nat.eqb_spec y node) as [->|Ny]; auto.
    + intros _ Hy E. exfalso. eapply Fresh; eauto.
    + intros Hx _ E. exfalso. eapply Fresh; eauto.
    + intros Hx Hy E. eapply I2; eauto.
  - destruct I3 as [a [b [d [A [B D]]]]]. rewrite !cget_set.
    destruct (String.eqb "s" k), (String.eqb "c" k), (String.eqb "d" k); eauto 10.
Qed.

Lemma get_name_inv : forall node st g, inv st g -> exists g', inv (snd (get_name info node st)) g' /\ extends g g' st /\
  named (snd (get_name info node st)) node /\ fst (get_name info node st) = render (g' node) /\ (forall x, named st x -> named (snd (get_name info node st)) x) /\
  (forall x, named (snd (get_name info node st)) x -> x = node \/ named st x).
Proof.
  intros node [c ns] g I. unfold get_name. destruct (nget node ns) as [s|] eqn:E.
  - exists g. cbn [fst snd]. split; [exact I|]. split; [intros x _; reflexivity|]. split; [unfold named; cbn; congruence|]. split; [now apply (proj1 I)|]. split; auto.
  - assert (Main : forall k n, k = label_of (info node) -> match cget k c with Some m => n = m | None => n = 0 end ->
      let st' := (cset k (n + 1) c, (node, render (k, n)) :: ns) in exists g', inv st' g' /\ extends g g' (c, ns) /\ named st' node /\ render (k, n) = render (g' node) /\ (forall x, named (c, ns) x -> named st' x) /\ (forall x, named st' x -> x = node \/ named (c, ns) x)).
    { intros k n Hk Hc st'. exists (fun x => if x =? node then (k, n) else g x). split; [now apply inv_add|].
      split; [intros x Hx; destruct (Nat.eqb_spec x node) as [->|]; auto; exfalso; apply Hx; exact E|].
      split; [unfold named, st'; cbn [snd nget]; rewrite Nat.eqb_refl; discriminate|]. split; [now rewrite Nat.eqb_refl|].
      split; intros x; unfold named, st'; cbn [snd nget]; destruct (Nat.eqb_spec x node); auto; congruence. }
    destruct I as [_ [_ [a [b [d [A [B D]]]]]]]. cbn [fst snd] in A, B, D.
    assert (L : label_of (info node) = if negb (String.eqb (i_name (info node)) "") then i_name (info node) else if i_stochastic (info node) then "s" else if i_cost (info node) then "c" else "d").
    { unfold label_of. destruct (i_name (info node)); reflexivity. }
    destruct (negb (String.eqb (i_name (info node)) "")) eqn:EN.
    + destruct (cget (i_name (info node)) c) as [m|] eqn:EC.
      * unfold next_of. rewrite EC. apply (Main (i_name (info node)) m); [now rewrite L|now rewrite EC].
      * apply (Main (i_name (info node)) 0); [now rewrite L|now rewrite EC].
    + destruct (i_stochastic (info node)); [|destruct (i_cost (info node))]; unfold next_of; rewrite ?A, ?B, ?D; apply Main; auto; rewrite ?A, ?B, ?D; reflexivity.
Qed.

Lemma extends_trans : forall g1 g2 g3 st1 st2, extends g1 g2 st1 -> extends g2 g3 st2 -> (forall x, named st1 x -> named st2 x) -> extends g1 g3 st1.
Proof. intros g1 g2 g3 st1 st2 H1 H2 H x Hx. rewrite H2 by auto. auto. Qed.

Definition good (st st' : counters * names) (g g' : nat -> string * nat) (new : list nat) : Prop :=
  inv st' g' /\ extends g g' st /\ (forall x, named st x -> named st' x) /\ (forall x, In x new -> named st' x).
Lemma print_nodes_inv : forall l st g, inv st g -> exists g', good st (snd (print_nodes info l st)) g g' l /\
  fst (print_nodes info l st) = map (fun n => LNode (render (g' n)) n) l.
Proof.
  induction l as [|n l IH]; intros st g I.
  - exists g. cbn. split; [split; [exact I|]; split; [intros x _; reflexivity|]; split; auto; intros x []|reflexivity].
  - cbn [print_nodes]. destruct (get_name_inv n st g I) as [g1 [I1 [X1 [N1 [E1 [K1 _]]]]]]. destruct (get_name info n st) as [s st1]. cbn [fst snd] in *.
    destruct (IH st1 g1 I1) as [g2 [[I2 [X2 [K2 M2]]] E2]]. destruct (print_nodes info l st1) as [ls st2]. cbn [fst snd] in *.
    exists g2. split; [split; [exact I2|]; split; [eapply extends_trans; eauto|]; split; [auto|]; intros x [<-|Hx]; auto|].
    cbn [map]. rewrite E2, E1. now rewrite (X2 n N1).
Qed.
Lemma print_parents_inv : forall name l st g, inv st g -> exists g', good st (snd (print_parents info name l st)) g g' (map fst l) /\
  fst (print_parents info name l st) = map (fun e => LEdge (render (g' (fst e)) ++ (if snd e : bool then "-D->" else "-X->") ++ name)%string) l.
Proof.
  intros name. induction l as [|[p d] l IH]; intros st g I.
  - exists g. cbn. split; [split; [exact I|]; split; [intros x _; reflexivity|]; split; auto; intros x []|reflexivity].
  - cbn [print_parents]. destruct (get_name_inv p st g I) as [g1 [I1 [X1 [N1 [E1 [K1 _]]]]]]. destruct (get_name info p st) as [s st1]. cbn [fst snd] in *.
    destruct (IH st1 g1 I1) as [g2 [[I2 [X2 [K2 M2]]] E2]]. destruct (print_parents info name l st1) as [ls st2]. cbn [fst snd] in *.
    exists g2. split; [split; [exact I2|]; split; [eapply extends_trans; eauto|]; split; [auto|]; intros x [<-|Hx]; auto|].
    cbn [map fst snd]. rewrite E2, E1. now rewrite (X2 p N1).
Qed.
Lemma print_edges_inv : forall h l st g, inv st g -> exists g', good st (snd (print_edges info h l st)) g g' (flat_map (fun n => n :: map fst (h_parents h n)) l) /\
  fst (print_edges info h l st) =
    flat_map (fun n => map (fun e => LEdge (render (g' (fst e)) ++ (if snd e : bool then "-D->" else "-X->") ++ render (g' n))%string) (h_parents h n)) l.
Proof.
  intros h. induction l as [|n l IH]; intros st g I.
  - exists g. cbn. split; [split; [exact I|]; split; [intros x _; reflexivity|]; split; auto; intros x []|reflexivity].
  - cbn [print_edges]. destruct (get_name_inv n st g I) as [g1 [I1 [X1 [N1 [E1 [K1 _]]]]]]. destruct (get_name info n st) as [s st1]. cbn [fst snd] in *.
    destruct (print_parents_inv s (h_parents h n) st1 g1 I1) as [g2 [[I2 [X2 [K2 M2]]] E2]]. destruct (print_parents info s (h_parents h n) st1) as [ls st2]. cbn [fst snd] in *.
    destruct (IH st2 g2 I2) as [g3 [[I3 [X3 [K3 M3]]] E3]]. destruct (print_edges info h l st2) as [ls' st3]. cbn [fst snd] in *.
    exists g3. split.
    + split; [exact I3|]. split; [eapply extends_trans; [exact X1| |exact K1]; eapply extends_trans; [exact X2|exact X3|exact K2]|]. split; [auto|].
      intros x Hx. cbn [flat_map] in Hx. apply in_app_or in Hx. destruct Hx as [[<-|Hx]|Hx]; auto.
    + cbn [flat_map]. rewrite E3. f_equal. rewrite E2. apply map_ext_in. intros e He. rewrite (X3 (fst e)) by (apply M2; now apply in_map). rewrite E1.
      rewrite (X3 n) by auto. now rewrite (X2 n N1).
Qed.
End Invariant.

Theorem print_graph_spec : forall fuel h info costs,
  match topological_sort fuel h (fun c => i_cost (info c)) costs with
  | Err e => print_graph fuel h info costs = Err e
  | Ok l => exists f, print_graph fuel h info costs = Ok (listing f h l) /\
      let shown := l ++ flat_map (fun n => map fst (h_parents h n)) l in
      (forall x, In x shown -> numbered (label_of (info x)) (f x)) /\ (forall x y, In x shown -> In y shown -> f x = f y -> x = y)
  end.
Proof.
  intros fuel h info costs. unfold print_graph. destruct (topological_sort fuel h _ costs) as [l|e]; cbn [bind]; [|reflexivity].
  assert (I0 : inv info (counters0, []) (fun _ => ("", 0))).
  { split; [intros x s H; discriminate|]. split; [intros x y s t H; discriminate|]. exists 1, 1, 1. repeat split. }
  destruct (print_nodes_inv info l _ _ I0) as [g1 [[I1 [X1 [K1 M1]]] E1]]. destruct (print_nodes info l (counters0, [])) as [l1 st1]. cbn [fst snd] in *.
  destruct (print_edges_inv info h l _ _ I1) as [g2 [[I2 [X2 [K2 M2]]] E2]]. destruct (print_edges info h l st1) as [l2 st2]. cbn [fst snd] in *.
  exists (fun x => render (g2 x)). split.
  - rewrite E1, E2. unfold listing. f_equal. f_equal. apply map_ext_in. intros n Hn. now rewrite (X2 n) by auto.
  - set (shown := l ++ flat_map (fun n => map fst (h_parents h n)) l). assert (N : forall x, In x shown -> named st2 x).
    { intros x Hx. apply in_app_or in Hx. destruct Hx as [Hx|Hx]; [auto|]. apply M2. apply in_flat_map in Hx. destruct Hx as [n [Hn Hx]]. apply in_flat_map. exists n. simpl. auto. }
    destruct I2 as [J1 [J2 _]]. split.
    + intros x Hx. specialize (N x Hx). unfold named in N. destruct (nget x (snd st2)) as [s|] eqn:E; [|congruence]. destruct (J1 _ _ E) as [_ [Hl _]]. rewrite <- Hl. apply render_numbered.
    + intros x y Hx Hy E. apply render_inj in E. pose proof (N x Hx) as Nx. pose proof (N y Hy) as Ny. unfold named in Nx, Ny.
      destruct (nget x (snd st2)) as [s|] eqn:Ex; [|congruence]. destruct (nget y (snd st2)) as [t|] eqn:Ey; [|congruence]. eapply J2; eauto.
Qed.
