(** Lists that mention a cost or a plate twice (C14, C18). *)
From Coq Require Import String List Arith Bool ZArith Lia.
From Verif Require Import Base Torch Plates Wrap OrderPlates Graph.
Import ListNotations.

(** ** topological_sort *)
Lemma topo_step : forall k h n r edges l, topo_loop (S k) h (n :: r) edges l = do st <- foldM (topo_parent h n) (h_parents h n) (r, edges); topo_loop k h (fst st) (snd st) (n :: l).
Proof. reflexivity. Qed.
Lemma twice_only : forall h is_cost c p d, is_cost c = true -> h_children h c = [] ->
  h_parents h c = [(p, d)] -> h_parents h p = [] -> map fst (h_children h p) = [c] ->
  forall fuel, 2 < fuel -> topological_sort fuel h is_cost [c; c] = Err IndexError.
Proof.
  intros h is_cost c p d Hc Hch Hp Hpp Hk fuel Hf. unfold topological_sort. cbn [existsb]. rewrite Hc, Hch. cbn [negb orb rev app].
  destruct fuel as [|[|[|fuel]]]; try lia.
  assert (E1 : foldM (topo_parent h c) [(p, d)] ([c], fun _ => None) = Ok ([p; c], set_at (fun _ => None) p (Some []))).
  { cbn [foldM]. unfold topo_parent. cbn [fst]. rewrite Hk. unfold del_child. cbn [indexb]. rewrite Nat.eqb_refl. reflexivity. }
  assert (E2 : foldM (topo_parent h c) [(p, d)] ([], set_at (fun _ => None) p (Some [])) = Err IndexError).
  { cbn [foldM]. unfold topo_parent. cbn [fst]. unfold set_at at 1. rewrite Nat.eqb_refl. reflexivity. }
  rewrite topo_step, Hp, E1. cbn [bind fst snd]. rewrite topo_step, Hpp. cbn [foldM bind fst snd]. rewrite topo_step, Hp, E2. reflexivity.
Qed.
Lemma twice_other : forall h is_cost c p d y, c <> y -> is_cost c = true -> h_children h c = [] ->
  h_parents h c = [(p, d)] -> h_parents h p = [] -> map fst (h_children h p) = [c; y] ->
  forall fuel, 3 < fuel -> topological_sort fuel h is_cost [c; c] = Ok [c; c; p].
Proof.
  intros h is_cost c p d y Hy Hc Hch Hp Hpp Hk fuel Hf. unfold topological_sort. cbn [existsb]. rewrite Hc, Hch. cbn [negb orb rev app].
  destruct fuel as [|[|[|[|fuel]]]]; try lia.
  assert (E1 : foldM (topo_parent h c) [(p, d)] ([c], fun _ => None) = Ok ([c], set_at (fun _ => None) p (Some [y]))).
  { cbn [foldM]. unfold topo_parent. cbn [fst]. rewrite Hk. unfold del_child. cbn [indexb]. rewrite Nat.eqb_refl. reflexivity. }
  assert (E2 : exists e, foldM (topo_parent h c) [(p, d)] ([], set_at (fun _ => None) p (Some [y])) = Ok ([p], e)).
  { cbn [foldM]. unfold topo_parent. cbn [fst]. unfold set_at at 1. rewrite Nat.eqb_refl. unfold del_child. cbn [indexb]. destruct (Nat.eqb_spec y c) as [E|_]; [congruence|]. cbn [option_map removelast bind]. eauto. }
  destruct E2 as [e E2]. rewrite topo_step, Hp, E1. cbn [bind fst snd]. rewrite topo_step, Hp, E2. cbn [bind fst snd]. rewrite topo_step, Hpp. reflexivity.
Qed.

(** ** order_plates *)
Section Order.
Context {V : Type}.
Variable veq : V -> V -> bool.
Notation plate := (plate V).
Lemma twice_root : forall (x y : plate) b, pparents x = [] -> pparents y = [x] -> pname x <> pname y -> peq veq x x = true ->
  order_plates veq [x; x; y] b = Err ValueError.
Proof.
  intros x y b Hx Hy Hn He. assert (E1 : String.eqb (pname x) (pname y) = false) by now apply String.eqb_neq.
  assert (E2 : String.eqb (pname y) (pname x) = false) by (apply String.eqb_neq; congruence).
  assert (R : roots_of veq [x; x; y] = [x; x]).
  { unfold roots_of. cbn [filter]. assert (A : isroot veq [x; x; y] x = true) by (destruct x; cbn in Hx |- *; now rewrite Hx).
    assert (B : isroot veq [x; x; y] y = false).
    { destruct y as [k n m w ps]. cbn in Hy. subst ps. cbn [isroot]. unfold pin, inb. cbn [existsb]. rewrite He. reflexivity. }
    now rewrite A, B. }
  assert (I : in_edges_of [x; x; y] = [(pname x, []); (pname y, [x])]).
  { unfold in_edges_of. cbn [fold_left dset]. rewrite Hx, Hy, String.eqb_refl. cbn [dset]. rewrite E2. reflexivity. }
  assert (O : out_edges_of [x; x; y] = [(pname x, [y]); (pname y, [])]).
  { unfold out_edges_of. cbn [fold_left dset]. rewrite Hx, Hy. cbn [fold_left]. rewrite String.eqb_refl. cbn [dset]. rewrite E2. cbn [fold_left]. unfold add_out. cbn [dget]. rewrite String.eqb_refl. cbn [dset app]. rewrite String.eqb_refl. reflexivity. }
  unfold order_plates. rewrite R, I, O. unfold order_fuel. cbn [map list_sum fold_right length rev app]. rewrite Hx, Hy. cbn [length Nat.add].
  repeat (progress (cbn [kahn dget dset foldM premove bind fst snd]; unfold visit; rewrite ?E1, ?E2, ?String.eqb_refl, ?He)). reflexivity.
Qed.
Lemma twice_child : forall (x y : plate) b, pparents x = [] -> pparents y = [x] -> pname x <> pname y -> peq veq x x = true ->
  order_plates veq [x; y; y] b = Err ValueError.
Proof.
  intros x y b Hx Hy Hn He. assert (E1 : String.eqb (pname x) (pname y) = false) by now apply String.eqb_neq.
  assert (E2 : String.eqb (pname y) (pname x) = false) by (apply String.eqb_neq; congruence).
  assert (R : roots_of veq [x; y; y] = [x]).
  { unfold roots_of. cbn [filter]. assert (A : isroot veq [x; y; y] x = true) by (destruct x; cbn in Hx |- *; now rewrite Hx).
    assert (B : isroot veq [x; y; y] y = false).
    { destruct y as [k n m w ps]. cbn in Hy. subst ps. cbn [isroot]. unfold pin, inb. cbn [existsb]. rewrite He. reflexivity. }
    now rewrite A, B. }
  assert (I : in_edges_of [x; y; y] = [(pname x, []); (pname y, [x])]).
  { unfold in_edges_of. cbn [fold_left dset]. rewrite Hx, Hy, E2. cbn [dset]. rewrite E2, String.eqb_refl. reflexivity. }
  assert (O : out_edges_of [x; y; y] = [(pname x, [y; y]); (pname y, [])]).
  { unfold out_edges_of. cbn [fold_left dset]. rewrite Hx, Hy, E2. cbn [fold_left dset]. rewrite E2, String.eqb_refl. cbn [fold_left]. unfold add_out. cbn [dget]. rewrite String.eqb_refl. cbn [dset app]. rewrite String.eqb_refl. cbn [dget]. rewrite String.eqb_refl. cbn [dset app]. rewrite String.eqb_refl. reflexivity. }
  unfold order_plates. rewrite R, I, O. unfold order_fuel. cbn [map list_sum fold_right length rev app]. rewrite Hx, Hy. cbn [length Nat.add].
  repeat (progress (cbn [kahn dget dset foldM premove bind fst snd]; unfold visit; rewrite ?E1, ?E2, ?String.eqb_refl, ?He)). reflexivity.
Qed.
End Order.
