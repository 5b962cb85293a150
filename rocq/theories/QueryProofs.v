(** Questions about the dimensions of a storch tensor. *)
From Coq Require Import String List Arith Lia Bool Sorted.
From Verif Require Import Base Torch Plates Query SpecTensor SpecQuery ListLemmas.
Import ListNotations.
Open Scope nat_scope.
Open Scope list_scope.

Lemma product_in : forall {A} (ls : list (list A)) i, In i (product ls) <-> Forall2 (fun x l => In x l) i ls.
Proof.
  induction ls as [|l r IH]; intros i; cbn [product].
  - split; [intros [<-|[]]; constructor|intros H; inversion H; subst; now left].
  - rewrite in_flat_map. split.
    + intros [x [Hx H]]. apply in_map_iff in H. destruct H as [j [<- Hj]]. constructor; [exact Hx|]. now apply IH.
    + intros H. inversion H as [|x y j m Hx Hj]; subst. exists x. split; [exact Hx|]. apply in_map, IH, Hj.
Qed.
Lemma ranges_valid : forall shp i, Forall2 (fun x l => In x l) i (map (fun n => seq 0 n) shp) <-> valid i shp.
Proof.
  unfold valid. induction shp as [|n r IH]; intros i; split; intros H; inversion H; subst; cbn [map]; constructor.
  - rewrite in_seq in *. lia.
  - now apply IH.
  - rewrite in_seq. lia.
  - now apply IH.
Qed.
Lemma product_length : forall {A} (ls : list (list A)), List.length (product ls) = fold_right Nat.mul 1 (map (@List.length A) ls).
Proof.
  induction ls as [|l r IH]; [reflexivity|]. cbn [product map fold_right]. rewrite <- IH. induction l as [|x l IHl]; [reflexivity|].
  cbn [flat_map]. rewrite app_length, map_length. cbn [List.length]. rewrite IHl. lia.
Qed.

Lemma sorted_app : forall {A} (R : A -> A -> Prop) l m, StronglySorted R l -> StronglySorted R m -> (forall x y, In x l -> In y m -> R x y) -> StronglySorted R (l ++ m).
Proof.
  intros A R l m Hl Hm H. induction Hl as [|x l Hl IH Hx]; [exact Hm|]. cbn [app]. constructor.
  - apply IH. intros a b Ha Hb. apply H; [now right|exact Hb].
  - apply Forall_app. split; [exact Hx|]. apply Forall_forall. intros y Hy. apply H; [now left|exact Hy].
Qed.
Lemma sorted_map_cons : forall x l, StronglySorted before l -> StronglySorted before (map (cons x) l).
Proof.
  intros x l H. induction H as [|i l H IH Hi]; cbn [map]; constructor; [exact IH|]. apply Forall_forall. intros y Hy. apply in_map_iff in Hy. destruct Hy as [j [<- Hj]].
  rewrite Forall_forall in Hi. apply before_later. now apply Hi.
Qed.
Lemma ranges_sorted : forall shp, StronglySorted before (product (map (fun n => seq 0 n) shp)).
Proof.
  induction shp as [|n r IH]; cbn [map product]; [repeat constructor|]. set (P := product (map (fun n => seq 0 n) r)) in *.
  assert (L : forall i, In i P -> List.length i = List.length r).
  { intros i Hi. apply product_in, ranges_valid in Hi. unfold valid in Hi. clear - Hi. induction Hi as [|x y i l H Hi IHi]; [reflexivity|]. cbn [List.length]. now rewrite IHi. }
  generalize 0 as k. induction n as [|n IHn]; intros k; [constructor|]. cbn [seq flat_map]. apply sorted_app.
  - now apply sorted_map_cons.
  - apply IHn.
  - intros a b Ha Hb. apply in_map_iff in Ha. destruct Ha as [i [<- Hi]]. apply in_flat_map in Hb. destruct Hb as [y [Hy Hb]].
    apply in_map_iff in Hb. destruct Hb as [j [<- Hj]]. apply in_seq in Hy. constructor; [lia|]. now rewrite (L i Hi), (L j Hj).
Qed.
Lemma before_irrefl : forall i, ~ before i i.
Proof. induction i as [|x i IH]; intros H; inversion H; subst; [lia|now apply IH]. Qed.
Lemma sorted_nodup : forall l, StronglySorted before l -> NoDup l.
Proof.
  intros l H. induction H as [|i l H IH Hi]; constructor; [|exact IH]. intros C. rewrite Forall_forall in Hi. now apply (before_irrefl i), Hi.
Qed.

Section Tensors.
Context {V : Type}.
Variable a : stensor V.
Hypothesis Hw : wf a.

Lemma plate_shape_spec : plate_shape a = map pn (wide (splates a)).
Proof. unfold plate_shape. rewrite (wf_dims a Hw), (wf_shape a Hw). rewrite <- (map_length pn (wide (splates a))). apply firstn_app_exact. Qed.
Lemma event_dims_spec : map (fun d => nth d (shape (st a)) 0) (event_dim_indices a) = s_event_shape a.
Proof.
  unfold event_dim_indices, ndim. rewrite (wf_shape a Hw), (wf_dims a Hw), app_length, map_length.
  replace (_ + _ - _) with (List.length (s_event_shape a)) by lia. set (m := map pn (wide (splates a))).
  replace (List.length (wide (splates a))) with (List.length m) by (unfold m; now rewrite map_length).
  apply nth_ext with (d := 0) (d' := 0); [now rewrite map_length, seq_length|]. intros k Hk. rewrite map_length, seq_length in Hk.
  rewrite (nth_indep _ 0 (nth 0 (m ++ s_event_shape a) 0)) by now rewrite map_length, seq_length.
  rewrite (map_nth (fun d => nth d (m ++ s_event_shape a) 0)), seq_nth by exact Hk. rewrite app_nth2 by lia. f_equal. lia.
Qed.

Lemma get_plate_in : forall p, In p (splates a) -> get_plate a (pname p) = Ok p.
Proof.
  intros p Hp. unfold get_plate. pose proof (wf_names a Hw) as ND. induction (splates a) as [|q l IH]; [destruct Hp|]. cbn [find_plate]. cbn [map] in ND. inversion ND; subst.
  destruct Hp as [->|Hp]; [now rewrite String.eqb_refl|]. destruct (String.eqb (pname q) (pname p)) eqn:E; [|now apply IH].
  apply String.eqb_eq in E. exfalso. apply H1. rewrite E. now apply in_map.
Qed.
Lemma find_dim_in : forall l (p : plate V) k, NoDup (map pname l) -> In p l -> exists j, find_dim (pname p) l k = Ok (k + j) /\ nth_error l j = Some p.
Proof.
  induction l as [|q l IH]; intros p k ND Hp; [destruct Hp|]. cbn [find_dim]. cbn [map] in ND. inversion ND; subst. destruct (String.eqb (pname q) (pname p)) eqn:E.
  - apply String.eqb_eq in E. exists 0. rewrite Nat.add_0_r. split; [reflexivity|]. destruct Hp as [->|Hp]; [reflexivity|]. exfalso. apply H1. rewrite E. now apply in_map.
  - destruct Hp as [->|Hp]; [now rewrite String.eqb_refl in E|]. destruct (IH p (S k) H2 Hp) as [j [E1 E2]]. exists (S j). rewrite E1. split; [f_equal; lia|exact E2].
Qed.
Lemma find_dim_none : forall (l : list (plate V)) name k, ~ In name (map pname l) -> find_dim name l k = Err IndexError.
Proof.
  induction l as [|q l IH]; intros name k H; [reflexivity|]. cbn [find_dim]. destruct (String.eqb (pname q) name) eqn:E.
  - apply String.eqb_eq in E. exfalso. apply H. now left.
  - apply IH. intros C. apply H. now right.
Qed.
Lemma find_plate_none : forall (l : list (plate V)) name, ~ In name (map pname l) -> find_plate name l = Err IndexError.
Proof.
  induction l as [|q l IH]; intros name H; [reflexivity|]. cbn [find_plate]. destruct (String.eqb (pname q) name) eqn:E.
  - apply String.eqb_eq in E. exfalso. apply H. now left.
  - apply IH. intros C. apply H. now right.
Qed.
Lemma wide_names : NoDup (map pname (wide (splates a))).
Proof.
  pose proof (wf_names a Hw) as ND. unfold wide. induction (splates a) as [|q l IH]; [constructor|]. cbn [map] in ND. inversion ND; subst. cbn [filter].
  destruct (1 <? pn q); [|now apply IH]. cbn [map]. constructor; [|now apply IH]. intros C. apply H1. apply in_map_iff in C. destruct C as [p [E Hp]]. apply filter_In in Hp.
  rewrite <- E. now apply in_map.
Qed.
Lemma plate_dim : forall p, In p (splates a) -> 1 < pn p ->
  exists k, get_plate_dim_index a (pname p) = Ok k /\ k < s_plate_dims a /\ nth_error (shape (st a)) k = Some (pn p) /\ forall s, nth_error (plate_index a s) k = Some (s (pname p)).
Proof.
  intros p Hp Hn. destruct (find_dim_in (wide (splates a)) p 0 wide_names) as [k [E1 E2]].
  { apply filter_In. split; [exact Hp|now apply Nat.ltb_lt]. }
  exists k. assert (L : k < List.length (wide (splates a))) by (apply nth_error_Some; rewrite E2; discriminate).
  split; [exact E1|]. split; [now rewrite (wf_dims a Hw)|]. split.
  - rewrite (wf_shape a Hw), nth_error_app1 by now rewrite map_length. now rewrite nth_error_map, E2.
  - intros s. unfold plate_index. now rewrite nth_error_map, E2.
Qed.
Lemma plate_dim_none : forall name, (forall p, In p (splates a) -> pname p = name -> pn p = 1) -> get_plate_dim_index a name = Err IndexError.
Proof.
  intros name H. apply find_dim_none. intros C. apply in_map_iff in C. destruct C as [p [E Hp]]. apply filter_In in Hp. destruct Hp as [Hp L]. apply Nat.ltb_lt in L.
  rewrite (H p Hp E) in L. lia.
Qed.

(** Every index comes from a choice of samples. *)
Lemma index_choice : forall l i, NoDup (map (@pname V) l) -> Forall2 lt i (map pn l) -> exists s : assignment, map (fun p => s (pname p)) l = i.
Proof.
  induction l as [|p l IH]; intros i ND H; cbn [map] in *; inversion H as [|x y j m Hx Hj]; subst.
  - exists (fun _ => 0). reflexivity.
  - inversion ND; subst. destruct (IH j H3 Hj) as [s Es]. exists (fun n => if String.eqb n (pname p) then x else s n). cbn [map]. rewrite String.eqb_refl. f_equal.
    rewrite <- Es. apply map_ext_in. intros q Hq. destruct (String.eqb (pname q) (pname p)) eqn:E; [|reflexivity]. apply String.eqb_eq in E. exfalso. apply H2. rewrite <- E. now apply in_map.
Qed.
Lemma choice_range : forall s, in_range s (splates a) -> In (plate_index a s) (iterate_plate_indices a).
Proof.
  intros s Hs. unfold iterate_plate_indices. rewrite plate_shape_spec. apply product_in, ranges_valid. unfold valid, plate_index.
  assert (H : forall p, In p (wide (splates a)) -> s (pname p) < pn p) by (intros p Hp; apply Hs; now apply filter_In in Hp).
  induction (wide (splates a)) as [|p l IH]; cbn [map]; constructor; [apply H; now left|]. apply IH. intros q Hq. apply H. now right.
Qed.
Lemma range_choice : forall i, In i (iterate_plate_indices a) -> exists s, in_range s (splates a) /\ plate_index a s = i.
Proof.
  intros i Hi. unfold iterate_plate_indices in Hi. rewrite plate_shape_spec in Hi. apply product_in, ranges_valid in Hi. unfold valid in Hi.
  destruct (index_choice _ i wide_names Hi) as [s Es].
  assert (R : forall p, In p (wide (splates a)) -> s (pname p) < pn p).
  { rewrite <- Es in Hi. clear - Hi. induction (wide (splates a)) as [|p l IH]; intros q Hq; [destruct Hq|]. cbn [map] in Hi. inversion Hi; subst. destruct Hq as [<-|Hq]; auto. }
  exists (fun n => if existsb (fun p => String.eqb (pname p) n) (wide (splates a)) then s n else 0). split.
  - intros p Hp. destruct (existsb (fun q => String.eqb (pname q) (pname p)) (wide (splates a))) eqn:E.
    + apply existsb_exists in E. destruct E as [q [Hq E]]. apply String.eqb_eq in E. rewrite <- E.
      assert (q = p). { apply filter_In in Hq. pose proof (get_plate_in q (proj1 Hq)) as G1. pose proof (get_plate_in p Hp) as G2. rewrite E in G1. congruence. }
      subst q. now apply R.
    + pose proof (wf_pos a Hw p Hp). lia.
  - unfold plate_index. rewrite <- Es. apply map_ext_in. intros p Hp.
    replace (existsb _ _) with true; [reflexivity|]. symmetry. apply existsb_exists. exists p. split; [exact Hp|apply String.eqb_refl].
Qed.
Lemma all_indices : NoDup (iterate_plate_indices a) /\ StronglySorted before (iterate_plate_indices a) /\
  List.length (iterate_plate_indices a) = fold_right Nat.mul 1 (map pn (wide (splates a))) /\
  forall i, In i (iterate_plate_indices a) <-> exists s, in_range s (splates a) /\ plate_index a s = i.
Proof.
  split; [apply sorted_nodup, ranges_sorted|]. split; [apply ranges_sorted|]. split.
  - unfold iterate_plate_indices. rewrite product_length, plate_shape_spec, !map_map. f_equal. apply map_ext. intros p. apply seq_length.
  - intros i. split; [apply range_choice|]. intros [s [H <-]]. now apply choice_range.
Qed.
End Tensors.
