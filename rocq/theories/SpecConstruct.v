(** What it means that the settings given to a constructor reach the object that uses them. *)
From Coq Require Import List String ZArith QArith Bool.
From Verif Require Import Base Construct.
Import ListNotations.
Open Scope string_scope.
Open Scope list_scope.

(** The caller gives parameter [x] the value [v]: by position, by keyword, or by leaving it out when its default is [v]. *)
Definition given (s : sig) (pos : list val) (kw : env) (x : string) (v : val) : Prop :=
  exists i kwonly d, nth_error s i = Some (x, kwonly, d) /\
    ((kwonly = false /\ nth_error pos i = Some v)
     \/ In (x, v) kw
     \/ ((kwonly = true \/ (List.length pos <= i)%nat) /\ ~ In x (map fst kw) /\ d = Some v)).

(** "o.a.b.c" is [v]; the value of an attribute is the last one assigned to it, the first in the list. *)
Inductive reads : env -> list string -> val -> Prop :=
| reads_here l1 x v l2 : ~ In x (map fst l1) -> reads (l1 ++ (x, v) :: l2) [x] v
| reads_there l1 x c o l2 p v : ~ In x (map fst l1) -> reads o p v -> reads (l1 ++ (x, VObj c o) :: l2) (x :: p) v.

(** Where the code that samples and estimates looks for each setting. Third component: the setting is only used if this other
    parameter is None, as documented for n_samples. *)
Definition settings (k : kls) : list (string * list string * option string) :=
  let sm := "sampling_method" in
  let n := [("n_samples", [sm; "n_samples"], Some sm); ("plate_name", [sm; "plate_name"], Some sm);
            ("plate_name", ["plate_name"], None)] in
  let temps := [("straight_through", ["straight_through"], None); ("initial_temperature", ["temperature"], None);
                ("min_temperature", ["min_temperature"], None); ("annealing_rate", ["annealing_rate"], None)] in
  let seq := [("plate_name", ["plate_name"], None); ("k", ["k"], None); ("eos", ["eos"], None)] in
  let inner := [("plate_name", ["plate_name"], None); ("plate_name", [sm; "plate_name"], None); ("k", [sm; "k"], None)] in
  match k with
  | KMonteCarlo => [("plate_name", ["plate_name"], None); ("n_samples", ["n_samples"], None)]
  | KEnumerate => [("plate_name", ["plate_name"], None); ("budget", ["budget"], None)]
  | KMCDecoder => seq
  | KSwor => seq ++ [("biased_iw", ["biased_iw"], None)]
  | KUnorderedSet => seq ++ [("comp_leave_two_out", ["comp_leave_two_out"], None);
                             ("exact_integration", ["exact_integration"], None);
                             ("num_int_points", ["num_int_points"], None); ("a", ["a"], None)]
  | KGumbelWOR => seq ++ [("initial_temperature", ["temperature"], None); ("min_temperature", ["min_temperature"], None);
                          ("annealing_rate", ["annealing_rate"], None)]
  | KRao => seq
  | KMapo => [("plate_name", ["plate_name"], None); ("buffer_size", ["buffer_size"], None); ("eos", ["eos"], None)]
  | KSumAndSample => [("plate_name", ["plate_name"], None); ("sum_size", ["sum_size"], None);
                      ("sample_size", ["sample_size"], None); ("eos", ["eos"], None);
                      ("without_replacement", ["without_replacement"], None)]
  | KISDecoder => seq ++ [("is_callback", ["is_callback"], None); ("epsilon", ["epsilon"], None)]
  | KScore | KReparam | KARM | KDisARM => n
  | KGumbelSoftmax | KSparsemax => n ++ temps
  | KEntmax => n ++ temps ++ [("alpha", ["alpha"], None); ("adaptive", ["adaptive"], None)]
  | KExpect => [("plate_name", ["plate_name"], None); ("plate_name", [sm; "plate_name"], None);
                ("budget", [sm; "budget"], None)]
  | KLAX => n
  | KRELAX => n ++ [("rebar", ["rebar"], None)]
  | KREBAR => [("plate_name", ["plate_name"], None); ("n_samples", [sm; "n_samples"], None)]
  | KScoreWOR => inner ++ [("biased", ["biased"], None); ("biased", [sm; "biased_iw"], None);
                           ("use_baseline", ["use_baseline"], None)]
  | KUnordered => inner ++ [("eos", [sm; "eos"], None); ("use_baseline", ["use_baseline"], None);
                            ("use_baseline", [sm; "comp_leave_two_out"], None);
                            ("exact_integration", [sm; "exact_integration"], None);
                            ("num_int_points", [sm; "num_int_points"], None); ("a", [sm; "a"], None)]
  | KUnorderedGumbel => inner ++ [("eos", [sm; "eos"], None); ("initial_temperature", [sm; "temperature"], None);
                                  ("min_temperature", [sm; "min_temperature"], None);
                                  ("annealing_rate", [sm; "annealing_rate"], None)]
  | KRaoSF => [("plate_name", ["plate_name"], None); ("plate_name", [sm; "plate_name"], None);
               ("n_samples", [sm; "k"], None)]
  end.

(** The settings the code loses (the refutations show that it does). *)
Definition lost (k : kls) : list string :=
  match k with
  | KRao | KMapo => ["eos"]
  | KSumAndSample => ["without_replacement"]
  | KGumbelWOR | KUnorderedGumbel => ["min_temperature"; "annealing_rate"]
  | _ => []
  end.

(** A call Python accepts: not too many positional arguments, no unknown keywords and none that is also given by position,
    and everything without default is given. *)
Definition positional (s : sig) : nat := List.length (filter (fun p => negb (snd (fst p))) s).
Record fits (s : sig) (pos : list val) (kw : env) : Prop := {
  fits_pos : (List.length pos <= positional s)%nat;
  fits_known : forall x, In x (map fst kw) -> exists ko d, In (x, ko, d) s;
  fits_once : forall i x ko d, nth_error s i = Some (x, ko, d) -> (i < List.length pos)%nat -> ~ In x (map fst kw);
  fits_all : forall i x ko, nth_error s i = Some (x, ko, None) -> (ko = false /\ (i < List.length pos)%nat) \/ In x (map fst kw)
}.
