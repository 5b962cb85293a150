(** Which functions an estimator installs in its sampling method. *)
From Coq Require Import List String.
From Verif Require Import Construct.
Import ListNotations.
Open Scope string_scope.

(** The estimators that can be given a sampling method. *)
Definition takes_sampler : list kls := [KScore; KReparam; KGumbelSoftmax; KEntmax; KSparsemax; KARM; KDisARM; KLAX; KRELAX].

(** Attribute of the sampling method and method of the estimator that it is set to. *)
Definition installed (k : kls) : list (string * string) :=
  match k with
  | KReparam | KLAX => [("mc_sample", "reparam_sample")]
  | KGumbelSoftmax => [("mc_sample", "sample_gumbel")]
  | KEntmax | KSparsemax => [("mc_sample", "sample_gumbel_entmax")]
  | KARM => [("mc_sample", "sample_arm"); ("mc_weighting_function", "weighting_function")]
  | KDisARM => [("mc_sample", "sample_disarm")]
  | KRELAX | KREBAR => [("mc_sample", "sample_gumbel"); ("mc_weighting_function", "plate_weighting")]
  | _ => []
  end.
