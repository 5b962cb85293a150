(** C95: questions about the plates and dimensions of a storch tensor. *)
From Coq Require Import String List Arith Bool Lia ZArith Sorted.
From Verif Require Import Base Torch Plates Query SpecTensor SpecQuery QueryProofs.
Import ListNotations.
Open Scope string_scope.
Open Scope nat_scope.
Open Scope list_scope.

(** get_plate finds the plate of the name, and raises IndexError if there is none. *)
Theorem C95_plate : forall (V : Type) (a : stensor V), wf a ->
  (forall p, In p (splates a) -> get_plate a (pname p) = Ok p) /\
  (forall name, ~ In name (map pname (splates a)) -> get_plate a name = Err IndexError).
Proof. exact (fun V a Hw => conj (get_plate_in a Hw) (find_plate_none (splates a))). Qed.
Print Assumptions C95_plate.

(** get_plate_dim_index finds the dimension of the plate: it has the size of the plate, and is indexed by its samples. Plates of size one have none. *)
Theorem C95_dimension : forall (V : Type) (a : stensor V), wf a ->
  (forall p, In p (splates a) -> 1 < pn p ->
     exists k, get_plate_dim_index a (pname p) = Ok k /\ k < s_plate_dims a /\ nth_error (shape (st a)) k = Some (pn p) /\
       forall s, nth_error (plate_index a s) k = Some (s (pname p))) /\
  (forall name, (forall p, In p (splates a) -> pname p = name -> pn p = 1) -> get_plate_dim_index a name = Err IndexError).
Proof. exact (fun V a Hw => conj (plate_dim a Hw) (plate_dim_none a)). Qed.
Print Assumptions C95_dimension.

(** plate_shape and event_dim_indices divide the dimensions between plates and event. *)
Theorem C95_shapes : forall (V : Type) (a : stensor V), wf a ->
  plate_shape a = map pn (wide (splates a)) /\ map (fun d => nth d (shape (st a)) 0) (event_dim_indices a) = s_event_shape a /\
  seq 0 (ndim (st a)) = seq 0 (List.length (plate_shape a)) ++ event_dim_indices a.
Proof.
  intros V a Hw. split; [now apply plate_shape_spec|]. split; [now apply event_dims_spec|].
  rewrite (plate_shape_spec a Hw), map_length. unfold event_dim_indices, ndim. rewrite (wf_shape a Hw), (wf_dims a Hw), app_length, map_length.
  replace (_ + _ - _) with (List.length (s_event_shape a)) by lia. apply seq_app.
Qed.
Print Assumptions C95_shapes.

(** iterate_plate_indices gives the index of every choice of samples once, in the order of a dictionary. *)
Theorem C95_indices : forall (V : Type) (a : stensor V), wf a ->
  NoDup (iterate_plate_indices a) /\ StronglySorted before (iterate_plate_indices a) /\
  List.length (iterate_plate_indices a) = fold_right Nat.mul 1 (map pn (wide (splates a))) /\
  forall i, In i (iterate_plate_indices a) <-> exists s, in_range s (splates a) /\ plate_index a s = i.
Proof. exact (fun V => @all_indices V). Qed.
Print Assumptions C95_indices.

(** A tensor with plates of sizes 2, 1 and 3 and events of size 4. *)
Definition q_plate (name : string) (n : nat) : plate Z := mkPlate PlainPlate name n (WTorch (tscalar 1%Z)) [].
Definition q_a : stensor Z := mkS 0 (mkten [2; 3; 4] (fun _ => 0%Z)) [q_plate "x" 2; q_plate "y" 1; q_plate "z" 3] 2 [4] [] false.
Example C95_witness : wf q_a /\ get_plate q_a "y" = Ok (q_plate "y" 1) /\ get_plate q_a "w" = Err IndexError /\ get_plate_dim_index q_a "z" = Ok 1 /\
  get_plate_dim_index q_a "y" = Err IndexError /\ plate_shape q_a = [2; 3] /\ event_dim_indices q_a = [2] /\
  iterate_plate_indices q_a = [[0; 0]; [0; 1]; [0; 2]; [1; 0]; [1; 1]; [1; 2]].
Proof.
  split.
  { constructor; try reflexivity.
    - repeat constructor; simpl; intuition discriminate.
    - intros p H. simpl in H. intuition (subst; simpl; lia). }
  repeat split; reflexivity.
Qed.
