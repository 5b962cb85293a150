(** The estimators of the other exported methods: storch/method/arm.py, relax.py, unordered.py, and the base class. *)
From Coq Require Import String List Arith Bool ZArith Lia.
From Verif Require Import Base Torch Plates Wrap OrderPlates Scalar Reduce Graph Surrogate.
Import ListNotations.

(** Indexing "t[(slice(None),) * k + (slice(lo, hi),)]". *)
Definition slice_shape (k lo hi : nat) (shp : list nat) : res (list nat) :=
  match nth_error shp k with
  | None => Err IndexError
  | Some d => Ok (upd k (Nat.min hi d - lo) shp)
  end.
Definition slice_get {A} (k lo hi : nat) (t : ten A) : res (ten A) :=
  do shp <- slice_shape k lo hi (shape t);
  Ok (mkten shp (fun i => el t (upd k (lo + nth k i 0) i))).
(** "t[index] = u" for the same index: [u] is expanded to the shape of the slice. *)
Definition slice_set {A} (k lo hi : nat) (t u : ten A) : res (ten A) :=
  do shp <- slice_shape k lo hi (shape t);
  do u <- expand shp u;
  Ok (mkten (shape t) (fun i => if (lo <=? nth k i 0) && (nth k i 0 <? hi) then el u (upd k (nth k i 0 - lo) i) else el t i)).

(** Indexing "t[(None,) * k + (slice(lo, hi),)]": [k] new dimensions in front, then a slice of the first dimension. *)
Definition none_get {A} (k lo hi : nat) (t : ten A) : res (ten A) :=
  do u <- slice_get 0 lo hi t;
  Ok (mkten (repeat 1 k ++ shape u) (fun i => el u (skipn k i))).
Definition none_set {A} (k lo hi : nat) (t u : ten A) : res (ten A) :=
  do shp <- slice_shape 0 lo hi (shape t);
  do u <- expand (repeat 1 k ++ shp) u;
  slice_set 0 lo hi t (mkten shp (fun i => el u (repeat 0 k ++ i))).

Section EstimatorModel.
Context {V S : Type}.
Variable veq : V -> V -> bool.
Variable anc_unwrap : plate V -> stensor V -> res (stensor V).
Variable o : sops V.
Variable o_exp : V -> V.

Notation op1 := (torch_op1 veq anc_unwrap top_ctx).
Notation op2 := (torch_op2 veq anc_unwrap top_ctx).
Notation sample := (@sample V).

(** What an estimator returns: any Python value. *)
Definition pyest : Type := sample -> stensor V -> string -> S -> nat -> res (pyval V * S).
Definition pair_of (g cv : pyval V) : pyval V := PTuple [g; cv].
Definition as_term (v : pyval V) : option (pyval V) := match v with PNone => None | _ => Some v end.
(** "gradient_function, control_variate = parent.method._estimator(...)" (storch/inference.py:179-181): iterating over a
    storch tensor raises (storch/tensor.py:639-641). Other values an estimator cannot return here are a TypeError. *)
Definition unpack2 (v : pyval V) : res (option (pyval V) * option (pyval V)) :=
  match v with
  | PTuple [g; cv] => Ok (as_term g, as_term cv)
  | PTuple _ => Err ValueError
  | PT _ => Err NotImplementedError
  | _ => Err TypeError
  end.
Definition method_of (pathwise : nat -> nat -> res bool) (e : pyest) : @meth V S :=
  mkMeth pathwise (fun x c nm sg base => do (v, sg) <- e x c nm sg base; do (g, cv) <- unpack2 v; Ok (g, cv, sg)).

(** Method.estimator (storch/method/method.py:201-222), used by Expect. *)
Definition base_estimator : pyest := fun _ _ _ sg _ => Ok (pair_of PNone PNone, sg).

(** ARM.comp_estimator (storch/method/arm.py:66-81). [lgp loc z] is the log-density of Logistic(loc, 1) at [z];
    [half] is 0.5. *)
Variable half : V.
Variable lgp : V -> V -> V.
Definition zeros_like (t : ten V) : ten V := mkten (shape t) (fun _ => o_zero o).
Definition arm_comp (k n : nat) (args : list (pyval V)) (kwargs : list (string * pyval V)) : res (pyval V) :=
  match args, kwargs with
  | [PRaw t; PRaw c; PRaw logits], [] =>
      do z <- slice_get k 0 n t;
      do c1 <- slice_get k 0 n c;
      do c2 <- slice_get k n (2 * n) c;
      do s <- elementwise2 (o_add o) c1 c2;
      do b <- slice_set k 0 n (zeros_like c) (tmap (o_mul o half) s);
      do l <- elementwise2 lgp logits (tmap (o_det o) z);
      do lp <- slice_set k 0 n (zeros_like t) l;
      Ok (PTuple [PRaw lp; PRaw b])
  | _, _ => Err TypeError
  end.
Definition unpair (v : pyval V) : res (pyval V * pyval V) :=
  match v with PTuple [x; y] => Ok (x, y) | _ => Err TypeError end.
(** ARM.estimator (storch/method/arm.py:83-95). [logits] is the attribute of the distribution of the sample. *)
Definition arm_estimator (logits : pyval V) : pyest := fun x c _ sg base =>
  do p <- get_plate (sm_t x) (sm_name x);
  do k <- get_plate_dim_index (sm_t x) (pname p);
  do v <- handle_deterministic veq anc_unwrap top_ctx (arm_comp k (pn p / 2)) [PT (sm_t x); PT c; logits] [] [] default_opts base;
  do (lp, b) <- unpair v;
  do mb <- magic_box veq anc_unwrap o o_exp lp (base + 4);
  do d <- op2 (o_sub o) (PRaw (tscalar (o_one o))) mb (base + 14);
  do cv <- op2 (o_mul o) d b (base + 16);
  Ok (pair_of lp cv, sg).

(** DisARM.comp_estimator (storch/method/arm.py:138-156). [dw b b' l] is "(-1) ** b' * ~b.eq(b') * sigmoid(|l|)". *)
Variable dw : V -> V -> V -> V.
Definition disarm_comp (k n : nat) (args : list (pyval V)) (kwargs : list (string * pyval V)) : res (pyval V) :=
  match args, kwargs with
  | [PRaw t; PRaw c; PRaw logits], [] =>
      do f <- none_get k n (2 * n) c;
      do b <- none_get k 0 n t;
      do b' <- none_get k n (2 * n) t;
      do bb <- elementwise2 pair b b';
      do w <- elementwise2 (fun p l => dw (fst p) (snd p) l) bb logits;
      do l <- elementwise2 (o_mul o) (tmap (o_det o) w) logits;
      do lp <- none_set k 0 n (zeros_like t) l;
      do bl <- none_set k 0 n (zeros_like c) f;
      Ok (PTuple [PRaw lp; PRaw bl])
  | _, _ => Err TypeError
  end.
(** "x.sum(dim=x.event_dim_indices)": an empty list of dimensions makes torch reduce all of them. A [range] is taken as a
    list of dimensions. *)
Definition sum_event (v : pyval V) (base : nat) : res (pyval V) :=
  do a <- as_tensor v;
  let pd := s_plate_dims a in
  let dims := seq pd (ndim (st a) - pd) in
  sum_dims veq anc_unwrap o top_ctx (match dims with [] => seq 0 (ndim (st a)) | _ => dims end) v base.
(** DisARM.estimator (storch/method/arm.py:158-173): the baseline is returned as it is. *)
Definition disarm_estimator (logits : pyval V) : pyest := fun x c _ sg base =>
  do p <- get_plate (sm_t x) (sm_name x);
  do k <- get_plate_dim_index (sm_t x) (pname p);
  do v <- handle_deterministic veq anc_unwrap top_ctx (disarm_comp k (pn p / 2)) [PT (sm_t x); PT c; logits] [] [] default_opts base;
  do (m, b) <- unpair v;
  do m <- sum_event m (base + 4);
  do m <- op2 (o_mul o) (PRaw (tscalar half)) m (base + 6);
  Ok (pair_of m b, sg).

(** RELAX.estimator, also REBAR (storch/method/relax.py:307-333). [comp] is RELAX.compute_estimator (262-305): the
    log-probability and the two control variates, which come from a neural network and conditional Gumbel samples and are
    not modelled here (Relax.v has them). [eta] and the 2 are numbers. *)
Variable comp : sample -> stensor V -> nat -> res (pyval V * pyval V * pyval V).
Variable eta : V.
Definition relax_terms (lp cz ct : pyval V) (base : nat) : res (pyval V) :=
  do cz <- op2 (o_mul o) (PRaw (tscalar eta)) cz (base + 2);
  do ct <- op2 (o_mul o) (PRaw (tscalar eta)) ct (base + 4);
  do dz <- op1 (o_det o) cz (base + 6);
  do x <- op2 (o_sub o) cz dz (base + 8);
  do x <- op2 (o_sub o) x ct (base + 10);
  do mb <- magic_box veq anc_unwrap o o_exp lp (base + 12);
  do y <- op2 (o_sub o) (PRaw (tscalar (o_add o (o_one o) (o_one o)))) mb (base + 18);
  do dt <- op1 (o_det o) ct (base + 20);
  do y <- op2 (o_mul o) y dt (base + 22);
  op2 (o_add o) x y (base + 24).
Definition relax_estimator : pyest := fun x c _ sg base =>
  do p <- get_plate (sm_t x) (sm_name x);
  do _ <- (if 1 <? pn p then do _ <- get_plate_dim_index (sm_t x) (pname p); Ok tt else Ok tt);
  do (lp, cz, ct) <- comp x c base;
  do lp <- sum_event lp (base + 1);
  do cv <- relax_terms lp cz ct base;
  Ok (pair_of lp cv, sg).

(** LAX.estimator (storch/method/relax.py:84-124): [derivs] is not defined anywhere, so the loop at 101 raises. *)
Variable c_phi : stensor V -> nat -> res (pyval V).
Definition lax_estimator : pyest := fun x c _ sg base =>
  do ob <- c_phi (sm_t x) base;
  do d <- op1 (o_det o) (PT (sm_t x)) (base + 1);
  do d <- as_tensor d;
  do lp <- sm_log_prob x d (base + 3);
  do lp <- sum_event lp (base + 5);
  do diff <- op2 (o_sub o) (PT c) ob (base + 7);
  Err NameError.

(** UnorderedSetEstimator.estimator (storch/method/unordered.py:57-83). [log_probs] and [log_snd] are the attributes of the
    ancestral plate; [plate_name] is that of the method. *)
Variables log_probs log_snd : plate V -> stensor V.
Definition unordered_estimator (plate_name : string) (use_baseline : bool) : pyest := fun x c _ sg base =>
  match find (fun p => String.eqb (pname p) plate_name) (splates c) with
  | None => Err AttributeError
  | Some p =>
      if negb use_baseline then
        do d <- op1 (o_det o) (PT c) base;
        do r <- op2 (o_mul o) (PT (log_probs p)) d (base + 2);
        Ok (r, sg)
      else
        do l <- op2 (o_add o) (PT (log_probs p)) (PT (log_snd p)) base;
        do e <- op1 o_exp l (base + 2);
        do m <- op2 (o_mul o) e (PT c) (base + 4);
        do m <- as_tensor m;
        do b <- st_sum veq anc_unwrap o top_ctx m [DPlate (pname p)] (base + 6);
        do b <- as_tensor b;
        do b <- mk_tensor (base + 8) (st b) [sid b] (splates b ++ [p]) false;
        do b <- op1 (o_det o) (PT b) (base + 10);
        do mb <- magic_box veq anc_unwrap o o_exp (PT (log_probs p)) (base + 12);
        do d <- op2 (o_sub o) (PRaw (tscalar (o_one o))) mb (base + 18);
        do cv <- op2 (o_mul o) d b (base + 20);
        Ok (pair_of (PT (log_probs p)) cv, sg)
  end.

End EstimatorModel.
