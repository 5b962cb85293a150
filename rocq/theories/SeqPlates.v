(** The plates of variables sampled in a sequence: SequenceDecoding.sample (storch/sampling/seq.py:175-269), MCDecoder.decode
    (341-368) and the plates IterDecoding.decode gives its sample (436-459, 528-543, 603-611), called by Method.sample
    (storch/method/method.py:96-190). Which values are drawn is in Swor.v. *)
From Coq Require Import String List Arith Bool.
From Verif Require Import Base Torch Plates Wrap Inference Sampling.
Import ListNotations.

Section SeqPlatesModel.
Context {V : Type}.
Variable veq : V -> V -> bool.
Variable recip : nat -> V.

(** The two families of decoders: MCDecoder with ImportanceSampleDecoder, and SampleWithoutReplacement with its subclasses. *)
Inductive decoder : Type := DAncestral | DWithoutReplacement.

(** on_plate_already_present for the variable number [vi] (storch/sampling/method.py:100-105, storch/sampling/swor.py:209-215). *)
Definition on_present (d : decoder) (k vi : nat) (p : plate V) : res unit :=
  match d with
  | DAncestral => Err ValueError
  | DWithoutReplacement => match pcls p with
                           | PlainPlate => Err ValueError
                           | Ancestral v _ => if (vi <? v) || (k <? pn p) then Err ValueError else Ok tt
                           end
  end.
Fixpoint check_present (d : decoder) (k vi : nat) (name : string) (plates : list (plate V)) : res unit :=
  match plates with
  | [] => Ok tt
  | p :: r => do _ <- (if String.eqb (pname p) name then on_present d k vi p else Ok tt); check_present d k vi name r
  end.

(** What decode returns: a torch tensor or a storch tensor. *)
Inductive drawn : Type := DrawnTorch (t : ten V) | DrawnStorch (a : stensor V).

(** MCDecoder.decode (storch/sampling/seq.py:341-368) without finished samples; [mc] is mc_sample. squeeze(0) leaves a tensor
    alone whose first dimension is not of size one. *)
Definition mc_decode (name : string) (k : nat) (mc : nat -> res (ten V)) (plates : list (plate V)) : res drawn :=
  if existsb (fun p => String.eqb (pname p) name) plates
  then do t <- mc 1; Ok (DrawnTorch (match shape t with 1 :: _ => squeeze0 t | _ => t end))
  else do t <- mc k; Ok (DrawnTorch t).

(** all_multi_dim_plates of IterDecoding.decode (storch/sampling/seq.py:436-459): [prev] are the plates of the joint
    log-probabilities of the variables sampled before, empty for the first. *)
Definition iter_plates (name : string) (plates prev : list (plate V)) : list (plate V) :=
  let distr := filter (fun p => (1 <? pn p) && negb (String.eqb (pname p) name)) plates in
  distr ++ filter (fun p => negb (pin veq p distr)) (mdp prev).
(** The sample of IterDecoding.decode: the support, a storch tensor with these plates (storch/sampling/seq.py:543), gathered at
    the chosen options [t] (609-611). *)
Definition iter_decode (name : string) (t : ten V) (prev plates : list (plate V)) (id : nat) : res drawn :=
  do a <- mk_tensor id t [] (iter_plates name plates prev) false; Ok (DrawnStorch a).

(** AncestralPlate.__init__ (storch/sampling/seq.py:17-42) without weight; [prev] is parent_plate. *)
Definition new_ancestral (name : string) (n : nat) (parents : list (plate V)) (vi : nat) (prev : option (plate V)) : res (plate V) :=
  do ok <- match prev with
           | None => if vi =? 0 then Ok true else Err AttributeError
           | Some q => Ok ((pn q <=? n) && (match pcls q with Ancestral v _ => v <? vi | PlainPlate => false end))
           end;
  if ok : bool then Ok (mkPlate (Ancestral vi false) name n (WTorch (tscalar (recip n))) parents) else Err AssertionError.

(** "plate_names.index(self.plate_name) if self.plate_name in plate_names else 0" (storch/sampling/seq.py:209-210), and the
    removal of the plate (217-224). *)
Fixpoint name_index (name : string) (l : list (plate V)) : option nat :=
  match l with
  | [] => None
  | p :: r => if String.eqb (pname p) name then Some 0 else option_map S (name_index name r)
  end.
Fixpoint remove_named (name : string) (l : list (plate V)) : list (plate V) :=
  match l with
  | [] => []
  | p :: r => if String.eqb (pname p) name then r else p :: remove_named name r
  end.

(** SequenceDecoding.sample after decode (storch/sampling/seq.py:204-246): the sample and its plate. *)
Definition place (name : string) (vi : nat) (prev : option (plate V)) (d : drawn) (parents : list nat) (plates : list (plate V)) (id : nat)
  : res (stensor V * plate V) :=
  let '(t, k, plates) := match d with
                         | DrawnStorch a => (st a, s_plate_dims a, splates a)
                         | DrawnTorch t => (t, match name_index name plates with Some i => i | None => 0 end, plates)
                         end in
  match nth_error (shape t) k with
  | None => Err IndexError
  | Some size =>
      let plates := remove_named name plates in
      do p <- new_ancestral name size plates vi prev;
      do x <- mk_tensor id t parents (insert_at k p plates) true;
      Ok (x, p)
  end.

(** Method.sample (storch/method/method.py:96-190) with a sequence decoder, up to the weights and hooks. [decode] is the decode
    of the decoder, given the plates of the distribution. *)
Definition seq_sample (d : decoder) (name : string) (k vi : nat) (prev : option (plate V)) (decode : list (plate V) -> res drawn)
  (params : list (@param V)) (parents0 : list nat) (plates0 : list (plate V)) (id : nat) : res (stensor V * plate V) :=
  let '(parents, plates, _) := collect_params veq params parents0 plates0 false in
  do _ <- check_present d k vi name plates;
  do s <- decode plates;
  place name vi prev s parents plates id.

(** What SequenceDecoding.sample leaves in joint_log_probs (storch/sampling/seq.py:189-196, 249-256), for one sequence: [new]
    is the second result of decode (None for MCDecoder), [s] the log-probability of the sampled value. The old joint
    log-probabilities are forgotten before the sum. *)
Definition joint_step (old new : option V) (add : V -> V -> V) (s : V) : option V :=
  let joint := match new with Some l => Some l | None => None end in
  match new with
  | Some _ => joint
  | None => match joint with Some l => Some (add l s) | None => Some s end
  end.
End SeqPlatesModel.
