(** Sampling without replacement by stochastic beam search: SampleWithoutReplacement (storch/sampling/swor.py:11-225), its
    use in IterDecoding.decode (storch/sampling/seq.py) and SequenceDecoding.sample, and the selection of
    RaoBlackwellizedSample (storch/sampling/mapo.py:41-102).

    Everything here is for one choice of the other plates: the code does the same along the last dimensions for each of
    them. Log-probabilities are real numbers (no option has probability zero); perturbed log-probabilities are real
    numbers or minus infinity ([None]). Samples are represented by their index in the support. *)
From Coq Require Import Reals List Arith Bool.
From Verif Require Import Base Torch Gumbel.
Import ListNotations.

(** torch.gather along one dimension. *)
Definition pick {A} (d : A) (l : list A) (idx : list nat) : list A := map (fun i => nth i l d) idx.

(** Assignment to one element, and "sampled_support_indices[(slice(0, amt_samples),) + indices] = vals"
    (storch/sampling/swor.py:128-129, 150-151): rows without a value are left alone. *)
Definition upd (e v : nat) (r : list nat) : list nat := firstn e r ++ v :: skipn (S e) r.
Fixpoint write_col (e : nat) (vals : list nat) (rows : list (list nat)) : list (list nat) :=
  match vals, rows with
  | v :: vs, r :: rs => upd e v r :: write_col e vs rs
  | _, _ => rows
  end.

Section SworModel.
(** torch.topk along the last dimension: the indices; and torch.max: the index. What is assumed about them is stated in
    the specification (is_topk, is_argmax in SpecSwor.v). *)
Variable topk_pert : list (option R) -> nat -> list nat.
Variable topk_prob : list R -> nat -> list nat.
Variable argmax_pert : list (option R) -> nat.

(** SampleWithoutReplacement.select_samples (storch/sampling/swor.py:154-173): the indices; the two other results are
    gathered with them. *)
Definition select_swor (k : nat) (pert : list (option R)) (joint : list R) : list nat :=
  topk_pert pert (Nat.min k (length pert)).

(** torch.scatter of a constant. *)
Definition scatter {A} (l : list A) (idx : list nat) (v : A) : list A :=
  map (fun i => if existsb (Nat.eqb i) idx then v else nth i l v) (seq 0 (length l)).

(** RaoBlackwellizedSample.select_samples (storch/sampling/mapo.py:55-81). *)
Definition select_rb (k : nat) (pert : list (option R)) (joint : list R) : list nat :=
  let amt := Nat.min k (length pert) in
  let top := topk_prob joint (Nat.min (k - 1) amt) in
  if amt =? k then top ++ [argmax_pert (scatter pert top (Some (- (10 ^ 10))%R))] else top.

Variable select : list (option R) -> list R -> list nat.

(** Conditional Gumbel samples below a parent whose perturbed log-probability may be minus infinity: then all of them are
    (storch/sampling/swor.py:248-251). *)
Definition cond_gumbel_inf (T : option R) (gs : list R) : list (option R) :=
  match T with Some T => map Some (cond_gumbel T gs) | None => map (fun _ => None) gs end.

(** The replacement for finished samples (storch/sampling/swor.py:93-108). *)
Definition finished_vec (eos : nat) (T : option R) (d : nat) : list (option R) :=
  map (fun i => if i =? eos then T else None) (seq 0 d).

(** The state of the decoding of one variable: sampled_support_indices, joint_log_probs, perturbed_log_probs,
    parent_indexing and amt_samples. *)
Record beam : Type := mkBeam {
  b_rows : list (list nat); b_joint : option (list R); b_pert : list (option R); b_parent : option (list nat); b_amt : nat }.

(** decode_step (storch/sampling/swor.py:34-152) for the event with number [e]. [yv i] are the log-probabilities of the
    options given sample [i] of the previous variables if the distribution depends on them ([cond]); otherwise they are
    [yv 0]. [noise j] are the Gumbel samples torch draws for row [j]. [fin] is [finished_samples] with [eos]. *)
Definition decode_step (cond : bool) (fin : option (nat * list bool)) (e : nat) (yv : nat -> list R) (noise : nat -> list R)
  (b : beam) : beam :=
  match b_joint b with
  | None =>
      let g := map Some (cond_gumbel 0 (noise 0)) in
      let arg := select g (yv 0) in
      mkBeam (write_col e arg (b_rows b)) (Some (pick 0%R (yv 0) arg)) (pick None g arg) (b_parent b) (length arg)
  | Some joint =>
      let row j := if cond then yv (nth j (match b_parent b with Some p => p | None => [] end) 0) else yv 0 in
      let d := length (row 0) in
      let all := flat_map (fun j => map (fun l => Rplus (nth j joint 0%R) l) (row j)) (seq 0 (b_amt b)) in
      let g := flat_map (fun j => let T := nth j (b_pert b) None in
                                  match fin with
                                  | Some (eos, f) => if nth j f false then finished_vec eos T d else cond_gumbel_inf T (noise j)
                                  | None => cond_gumbel_inf T (noise j)
                                  end) (seq 0 (b_amt b)) in
      let arg := select g all in
      let parents := map (fun i => i / d) arg in
      mkBeam (write_col e (map (fun i => i mod d) arg) (pick [] (b_rows b) parents)) (Some (pick 0%R all arg)) (pick None g arg)
             (option_map (fun p => pick 0 p parents) (b_parent b)) (length arg)
  end.

(** One sampled variable: the shape of its conditionally independent events, whether it depends on the earlier samples,
    its log-probabilities (per event and earlier sample) and the noise (per event and row). *)
Record var : Type := mkVar {
  v_events : list nat; v_cond : bool; v_lp : nat -> nat -> list R; v_noise : nat -> nat -> list R }.

(** The loop over the events in itertools.product order, i.e. numbered in row-major order (storch/sampling/seq.py:584-602). *)
Definition decode_events (fin : option (nat * list bool)) (x : var) (b : beam) : beam :=
  fold_left (fun b e => decode_step (v_cond x) fin e (v_lp x e) (v_noise x e) b) (seq 0 (lprod (v_events x))) b.

(** "sampled_support_indices[(...,) + (slice(amt_samples),)]" (storch/sampling/seq.py:604-608): a slice of the last
    dimension, which is the dimension of the samples only if there is no event dimension. *)
Definition last_slice (events : list nat) (amt : nat) (rows : list (list nat)) : list nat * list (list nat) :=
  match rev events with
  | [] => (events, firstn amt rows)
  | m :: r => (rev r ++ [Nat.min m amt],
               map (fun row => map (fun e => nth e row 0) (filter (fun e => e mod m <? amt) (seq 0 (lprod events)))) rows)
  end.

(** IterDecoding.decode (storch/sampling/seq.py:381-611) from the joint log-probabilities, the perturbed log-probabilities
    and [k]. The result is the shape of the events of the sample, its rows, and the new state. *)
Definition decode (k : nat) (fin : option (nat * list bool)) (x : var) (joint : option (list R)) (pert : list (option R))
  : list nat * beam :=
  let parent := option_map (fun l => seq 0 (length l) ++ repeat 0 (k - length l)) joint in
  let amt := match joint with Some l => length l | None => 0 end in
  let b := decode_events fin x (mkBeam (repeat (repeat 0 (lprod (v_events x))) k) joint pert parent amt) in
  if b_amt b <? k then
    let '(ev, rows) := last_slice (v_events x) (b_amt b) (b_rows b) in (ev, mkBeam rows (b_joint b) (b_pert b) (b_parent b) (b_amt b))
  else (v_events x, b).

(** The state of the sampling method between variables: joint_log_probs, perturbed_log_probs, finished_samples. *)
Record sstate : Type := mkSState { ss_joint : option (list R); ss_pert : list (option R); ss_fin : option (list nat * list (list bool)) }.
Definition sstart : sstate := mkSState None [] None.

(** SequenceDecoding.sample (storch/sampling/seq.py:175-269) as far as it concerns the samples: the rows of the sampled
    variable and, from the second variable on, parent_indexing. [eos]: "if self.eos" ignores an eos of 0 (201-202). The mask
    of finished samples has the shape of the sample, so that indexing the perturbed log-probabilities with it raises
    IndexError if there are event dimensions (storch/sampling/swor.py:98-100). The plate has as many elements as the sample
    (storch/sampling/seq.py:214), and creating it raises ValueError if the joint log-probabilities have another number
    (storch/sampling/seq.py:34-39). *)
Definition sample_var (k : nat) (eos : option nat) (x : var) (s : sstate)
  : res (list (list nat) * option (list nat) * sstate) :=
  do fin <- match ss_fin s with
            | None => Ok None
            | Some (ev, f) => match ev, eos with
                              | [], Some t => Ok (Some (t, map (fun r => nth 0 r false) f))
                              | _, _ => Err IndexError
                              end
            end;
  let '(ev, b) := decode k fin x (ss_joint s) (ss_pert s) in
  let joint := match b_joint b with Some l => l | None => [] end in
  if negb (length (b_rows b) =? 1) && negb (length joint =? length (b_rows b)) then Err ValueError
  else
    let f := match eos with
             | Some (S t) => Some (ev, map (map (Nat.eqb (S t))) (b_rows b))
             | _ => ss_fin s
             end in
    Ok (b_rows b, b_parent b, mkSState (b_joint b) (b_pert b) f).

(** Sampling one variable after the other with one method. *)
Fixpoint sample_vars (k : nat) (eos : option nat) (xs : list var) (s : sstate)
  : res (list (list (list nat) * option (list nat)) * sstate) :=
  match xs with
  | [] => Ok ([], s)
  | x :: r => do (rows, p, s) <- sample_var k eos x s;
              do (l, s) <- sample_vars k eos r s;
              Ok ((rows, p) :: l, s)
  end.

End SworModel.
