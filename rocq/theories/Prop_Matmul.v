(** C61: matrix products of storch tensors. *)
From Coq Require Import String List Arith Lia.
From Verif Require Import Base Torch Plates Wrap Scalar Matmul SpecMatmul SpecTensor SpecWrap SpecReduce MatmulProofs.
Import ListNotations.
Open Scope nat_scope.
Open Scope list_scope.

(** C61, in part: two storch tensors whose events have the same rank of at least two. For every choice of samples the matrices of that
    choice are multiplied, the dimensions before them being broadcast. Missing: vectors and different ranks, for which it is false (below). *)
Theorem C61_matrices_partial : forall (V : Type) (veq : V -> V -> bool) anc_unwrap (o : sops V) (a b : stensor V) base ea eb ec n m k,
  callable veq [a; b] -> s_event_shape a = ea ++ [n; m] -> s_event_shape b = eb ++ [m; k] -> broadcasts ea eb ec ->
  exists r, st_matmul veq anc_unwrap o (PT a) (PT b) base = Ok (PT r) /\ splates r = union (splates a) (splates b) /\ s_event_shape r = ec ++ [n; k] /\
    wf r /\ sparents r = [sid a; sid b] /\
    forall s e i j, in_range s (splates r) -> valid e ec -> i < n -> j < k ->
    den r s (e ++ [i; j]) = inner o m (fun l => den a s (proj ea e ++ [i; l])) (fun l => den b s (proj eb e ++ [l; j])).
Proof. exact (fun V veq au => @matmul_spec V veq au). Qed.
Print Assumptions C61_matrices_partial.

(** A torch matrix on the right: rows of every choice of samples times the matrix. *)
Theorem C61_torch_right : forall (V : Type) (veq : V -> V -> bool) anc_unwrap (o : sops V) (a : stensor V) (w : ten V) base ev m k,
  callable veq [a] -> s_event_shape a = ev ++ [m] -> shape w = [m; k] ->
  exists r, st_matmul veq anc_unwrap o (PT a) (PRaw w) base = Ok (PT r) /\ splates r = splates a /\ s_event_shape r = ev ++ [k] /\ wf r /\ sparents r = [sid a] /\
    forall s e j, in_range s (splates a) -> valid e ev -> den r s (e ++ [j]) = inner o m (fun l => den a s (e ++ [l])) (fun l => el w [l; j]).
Proof. exact (fun V veq au => @matmul_right_spec V veq au). Qed.
Print Assumptions C61_torch_right.

(** A torch vector on the right: the inner products of rows with the vector, without a further dimension. *)
Theorem C61_torch_vector : forall (V : Type) (veq : V -> V -> bool) anc_unwrap (o : sops V) (a : stensor V) (w : ten V) base ev m,
  callable veq [a] -> s_event_shape a = ev ++ [m] -> shape w = [m] ->
  exists r, st_matmul veq anc_unwrap o (PT a) (PRaw w) base = Ok (PT r) /\ splates r = splates a /\ s_event_shape r = ev /\ wf r /\ sparents r = [sid a] /\
    forall s e, in_range s (splates a) -> valid e ev -> den r s e = inner o m (fun l => den a s (e ++ [l])) (fun l => el w [l]).
Proof. exact (fun V veq au => @matmul_vector_spec V veq au). Qed.
Print Assumptions C61_torch_vector.

(** A torch matrix on the left of matrices. *)
Theorem C61_torch_left : forall (V : Type) (veq : V -> V -> bool) anc_unwrap (o : sops V) (a : stensor V) (w : ten V) base ev n m k,
  callable veq [a] -> s_event_shape a = ev ++ [m; k] -> shape w = [n; m] ->
  exists r, st_matmul veq anc_unwrap o (PRaw w) (PT a) base = Ok (PT r) /\ splates r = splates a /\ s_event_shape r = ev ++ [n; k] /\ wf r /\ sparents r = [sid a] /\
    forall s e i j, in_range s (splates a) -> valid e ev -> i < n -> j < k ->
    den r s (e ++ [i; j]) = inner o m (fun l => el w [i; l]) (fun l => den a s (e ++ [l; j])).
Proof. exact (fun V veq au => @matmul_left_spec V veq au). Qed.
Print Assumptions C61_torch_left.

(** C61 is false for vectors with a common plate: instead of one inner product per sample, the first operand's row is multiplied with
    all samples of the second. This raises, unless the number of samples happens to be the length of the vectors. *)
Theorem C61_vectors_refuted : forall (V : Type) (veq : V -> V -> bool) anc_unwrap (o : sops V) (a b : stensor V) base p m,
  callable veq [a; b] -> splates a = [p] -> splates b = [p] -> 1 < pn p -> s_event_shape a = [m] -> s_event_shape b = [m] ->
  (pn p <> m -> st_matmul veq anc_unwrap o (PT a) (PT b) base = Err RuntimeError) /\
  (pn p = m -> exists r, st_matmul veq anc_unwrap o (PT a) (PT b) base = Ok (PT r) /\ splates r = [p] /\ s_event_shape r = [m] /\
     forall s j, in_range s [p] -> j < m ->
     den r s [j] = inner o m (fun l => den a s [l]) (fun l => den b (set_to s (pname p) l) [j])).
Proof. exact (fun V veq au => @matmul_vectors V veq au). Qed.
Print Assumptions C61_vectors_refuted.

(** C61 is false for a matrix and a vector: the result is a matrix of one column instead of a vector, also without plates. *)
Theorem C61_matrix_vector_refuted : forall (V : Type) (veq : V -> V -> bool) anc_unwrap (o : sops V) (a b : stensor V) base n m,
  callable veq [a; b] -> s_event_shape a = [n; m] -> s_event_shape b = [m] ->
  exists r, st_matmul veq anc_unwrap o (PT a) (PT b) base = Ok (PT r) /\ s_event_shape r = [n; 1] /\ s_event_shape r <> [n].
Proof. intros V veq au o a b base n m HC H1 H2. destruct (matmul_matrix_vector veq au o a b base n m HC H1 H2) as [r [E S]]. exists r. split; [exact E|]. split; [exact S|]. rewrite S. discriminate. Qed.
Print Assumptions C61_matrix_vector_refuted.

(** A vector and a matrix that torch would multiply are rejected. *)
Theorem C61_vector_matrix_refuted : forall (V : Type) (veq : V -> V -> bool) anc_unwrap (o : sops V) (a b : stensor V) base m k,
  callable veq [a; b] -> s_event_shape a = [m] -> s_event_shape b = [m; k] -> m <> 1 -> st_matmul veq anc_unwrap o (PT a) (PT b) base = Err RuntimeError.
Proof. exact (fun V veq au => @matmul_vector_matrix V veq au). Qed.
Print Assumptions C61_vector_matrix_refuted.

Section Witness.
Let no_anc : plate nat -> stensor nat -> res (stensor nat) := fun _ _ => Err NotImplementedError.
Let nat_ops : sops nat := mkOps 0 1 Nat.add Nat.mul Nat.sub (fun x => x) (fun x => x).
Let digits (l : list nat) : nat := fold_left (fun n i => 2 * n + i) l 1.
Let px : plate nat := mkPlate PlainPlate "x" 2 (WTorch (tscalar 1)) [].
Let py : plate nat := mkPlate PlainPlate "y" 4 (WTorch (tscalar 1)) [].
Let ma : stensor nat := mkS 1 (mkten [2; 3; 2] digits) [px] 1 [3; 2] [] false.
Let mb : stensor nat := mkS 2 (mkten [4; 2; 5] digits) [py] 1 [2; 5] [] false.
Let va : stensor nat := mkS 1 (mkten [2; 2] digits) [px] 1 [2] [] false.
Let vb : stensor nat := mkS 2 (mkten [2; 2] digits) [px] 1 [2] [] false.
Ltac callable_tac := split; [repeat constructor; cbn; try (intros p Hp; intuition (subst; cbn; lia)); intuition congruence|
  split; [intros p q Hp Hq E; cbn in Hp, Hq; intuition (subst; cbn in *; try discriminate; auto)|intros p Hp; cbn in Hp; intuition (subst; reflexivity)]].

(** A matrix per sample of x times a matrix per sample of y. *)
Example C61_witness : callable Nat.eqb [ma; mb] /\ s_event_shape ma = [] ++ [3; 2] /\ s_event_shape mb = [] ++ [2; 5] /\
  exists r, st_matmul Nat.eqb no_anc nat_ops (PT ma) (PT mb) 50 = Ok (PT r) /\ shape (st r) = [2; 4; 3; 5] /\
    el (st r) [1; 3; 2; 4] = 16 * 24 + 17 * 26.
Proof. split; [callable_tac|]. split; [reflexivity|]. split; [reflexivity|]. eexists. split; [reflexivity|]. split; vm_compute; reflexivity. Qed.
(** Two samples of vectors of two numbers: the inner product of sample 0 would be 4 * 4 + 5 * 5. *)
Example C61_vectors_witness : callable Nat.eqb [va; vb] /\ 1 < pn px /\
  exists r, st_matmul Nat.eqb no_anc nat_ops (PT va) (PT vb) 50 = Ok (PT r) /\ el (st r) [0; 0] = 4 * 4 + 5 * 6 /\ el (st r) [0; 1] = 4 * 5 + 5 * 7.
Proof. split; [callable_tac|]. split; [cbn; lia|]. eexists. split; [reflexivity|]. split; vm_compute; reflexivity. Qed.
Example C61_right_witness : callable Nat.eqb [va] /\ exists r, st_matmul Nat.eqb no_anc nat_ops (PT va) (PRaw (mkten [2; 3] digits)) 50 = Ok (PT r) /\ shape (st r) = [2; 3].
Proof. split; [callable_tac|]. eexists. split; reflexivity. Qed.
Example C61_torch_vector_witness : callable Nat.eqb [ma] /\ s_event_shape ma = [3] ++ [2] /\
  exists r, st_matmul Nat.eqb no_anc nat_ops (PT ma) (PRaw (mkten [2] digits)) 50 = Ok (PT r) /\ shape (st r) = [2; 3] /\ el (st r) [1; 2] = 16 * 2 + 17 * 3.
Proof. split; [callable_tac|]. split; [reflexivity|]. eexists. split; [reflexivity|]. split; vm_compute; reflexivity. Qed.
End Witness.
