(** C18: ordering plates. *)
From Coq Require Import String List Arith Bool Lia Permutation.
From Verif Require Import Base Torch Plates OrderPlates SpecTensor SpecOrder OrderProofs RejectProofs TwiceProofs.
Import ListNotations.
Open Scope string_scope.
Open Scope nat_scope.
Open Scope list_scope.

(** C18. For lists without gaps in the ancestry: ValueError on a cycle, otherwise every plate exactly once, parents first
    (last when reversed). Missing for the full claim: lists that contain an ancestor but not all direct parents of a
    plate, see C18_gap_refuted. *)
Theorem C18_order_plates_partial : forall (V : Type) (veq : V -> V -> bool) (l : list (plate V)),
  orderable veq l -> no_gaps l ->
  (cyclic l -> forall b, order_plates veq l b = Err ValueError) /\
  (~ cyclic l -> exists r, order_plates veq l false = Ok r /\ order_plates veq l true = Ok (rev r) /\
                           Permutation r l /\ parents_first r).
Proof. exact (fun V veq l => @order_plates_spec V veq l). Qed.
Print Assumptions C18_order_plates_partial.

Definition oP (name : string) (parents : list (plate nat)) : plate nat :=
  mkPlate PlainPlate name 2 (WTorch (tscalar 1)) parents.
Definition o_x := oP "x" [].
Definition o_y := oP "y" [o_x].
Definition o_z := oP "z" [o_x; o_y].
(** A plate whose parent is not listed and has no listed ancestors, and a pair of plates that are each other's parents. *)
Definition o_w := oP "w" [oP "v" []].
Definition o_a := oP "a" [oP "b" []].
Definition o_b := oP "b" [oP "a" []].

Example C18_example : order_plates Nat.eqb [o_z; o_w; o_x; o_y] false = Ok [o_x; o_y; o_z; o_w] /\
  order_plates Nat.eqb [o_z; o_w; o_x; o_y] true = Ok [o_w; o_z; o_y; o_x] /\
  order_plates Nat.eqb [o_a; o_b] false = Err ValueError.
Proof. repeat split; reflexivity. Qed.

Example C18_witness_acyclic : orderable Nat.eqb [o_z; o_w; o_x; o_y] /\ no_gaps [o_z; o_w; o_x; o_y].
Proof.
  split; [split; [|split]|].
  - repeat constructor; simpl; intuition discriminate.
  - intros p Hp. simpl in Hp. destruct Hp as [<-|[<-|[<-|[<-|[]]]]]; repeat constructor; simpl; intuition discriminate.
  - intros p q Hp Hq E. apply ancestry_ups in Hp. apply ancestry_ups in Hq. simpl in Hp, Hq.
    intuition (subst; simpl in *; try discriminate; reflexivity).
  - intros p Hp. simpl in Hp. destruct Hp as [<-|[<-|[<-|[<-|[]]]]]; try (left; simpl; intuition (subst; simpl; auto); fail).
    right. intros a Ha. apply above_ups in Ha. simpl in Ha. destruct Ha as [<-|[]]. simpl. intuition discriminate.
Qed.
Example C18_witness_cyclic : orderable Nat.eqb [o_a; o_b] /\ no_gaps [o_a; o_b] /\ cyclic [o_a; o_b].
Proof.
  split; [split; [|split]|split].
  - repeat constructor; simpl; intuition discriminate.
  - intros p Hp. simpl in Hp. destruct Hp as [<-|[<-|[]]]; repeat constructor; simpl; intuition discriminate.
  - intros p q Hp Hq E. apply ancestry_ups in Hp. apply ancestry_ups in Hq. simpl in Hp, Hq.
    intuition (subst; simpl in *; try discriminate; reflexivity).
  - intros p Hp. left. simpl in *. intuition (subst; simpl in *; intuition (subst; auto)).
  - exists [o_a; o_b]. split; [discriminate|]. split; [apply incl_refl|].
    intros q [<-|[<-|[]]]; [exists o_b|exists o_a]; unfold parent_of; simpl; auto.
Qed.

(** With or without gaps, only given plates are listed. *)
Theorem C18_only_given : forall (V : Type) (veq : V -> V -> bool) (l : list (plate V)) b r, order_plates veq l b = Ok r ->
  forall p, In p r -> pin veq p l = true.
Proof. exact (fun V veq => @order_given V veq). Qed.
Print Assumptions C18_only_given.
(** The parent of z that is not in the list is not in the result. *)
Example C18_only_given_witness : match order_plates Nat.eqb [o_z] false with Ok r => r = [o_z] /\ pparents o_z <> [] | Err _ => False end.
Proof. vm_compute. split; [reflexivity|discriminate]. Qed.

(** A list that mentions a plate twice, next to its parent or child, raises the error meant for missing entries
    although there is no cycle. *)
Theorem C18_twice_root_refuted : forall (V : Type) (veq : V -> V -> bool) (x y : plate V) b, pparents x = [] -> pparents y = [x] ->
  pname x <> pname y -> peq veq x x = true -> order_plates veq [x; x; y] b = Err ValueError.
Proof. exact (fun V veq => @twice_root V veq). Qed.
Print Assumptions C18_twice_root_refuted.
Theorem C18_twice_child_refuted : forall (V : Type) (veq : V -> V -> bool) (x y : plate V) b, pparents x = [] -> pparents y = [x] ->
  pname x <> pname y -> peq veq x x = true -> order_plates veq [x; y; y] b = Err ValueError.
Proof. exact (fun V veq => @twice_child V veq). Qed.
Print Assumptions C18_twice_child_refuted.
Example C18_twice_witness : pparents o_x = [] /\ pparents o_y = [o_x] /\ pname o_x <> pname o_y /\ peq Nat.eqb o_x o_x = true /\
  order_plates Nat.eqb [o_x; o_y] false = Ok [o_x; o_y] /\ order_plates Nat.eqb [o_x; o_x] false = Ok [o_x; o_x].
Proof. repeat split; try reflexivity. discriminate. Qed.

(** C18 is false in general: with x and z but not y given, z (whose parents are x and y) is silently left out. *)
Theorem C18_gap_refuted : exists l : list (plate nat),
  orderable Nat.eqb l /\ ~ cyclic l /\
  exists r p, order_plates Nat.eqb l false = Ok r /\ In p l /\ ~ In p r.
Proof.
  exists [o_x; o_z].
  split; [split; [|split]|split].
  - repeat constructor; simpl; intuition discriminate.
  - intros p Hp. simpl in Hp. destruct Hp as [<-|[<-|[]]]; repeat constructor; simpl; intuition discriminate.
  - intros p q Hp Hq E. apply ancestry_ups in Hp. apply ancestry_ups in Hq. simpl in Hp, Hq.
    intuition (subst; simpl in *; try discriminate; reflexivity).
  - intros [c [Hne [Hi Hp]]]. 
    assert (Hx : ~ In o_x c). { intros C. destruct (Hp _ C) as [p [_ H]]. destruct H. }
    destruct c as [|q c]; [congruence|]. destruct (Hp q (or_introl eq_refl)) as [p [Hpc H]].
    assert (p = o_z). { destruct (Hi p Hpc) as [<-|[<-|[]]]; auto. contradiction. }
    assert (q = o_z). { destruct (Hi q (or_introl eq_refl)) as [<-|[<-|[]]]; auto. destruct Hx. simpl; auto. }
    subst. unfold parent_of in H. simpl in H. intuition discriminate.
  - exists [o_x], o_z. split; [reflexivity|]. split; [simpl; auto|]. simpl. intros [C|[]]. discriminate C.
Qed.
Print Assumptions C18_gap_refuted.
