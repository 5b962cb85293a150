(** The constructors of sampling methods and estimators: which settings arrive where (storch/sampling, storch/method).
    Python's binding of arguments to parameters is modelled; torch.nn.Module, buffers and parameters are plain attributes
    that hold the number they are made from. *)
From Coq Require Import List String ZArith QArith Bool.
From Verif Require Import Base.
Import ListNotations.
Open Scope string_scope.

(** Python values in argument lists and attributes. [VFun] is a function or a method, known by its name. *)
Inductive val : Type :=
| VNone
| VBool (b : bool)
| VInt (z : Z)
| VFloat (q : Q)
| VStr (s : string)
| VFun (s : string)
| VObj (cls : string) (attrs : list (string * val)).

(** A parameter: its name, whether it is keyword-only (after a star) and its default. *)
Definition param : Type := string * bool * option val.
Definition sig : Type := list param.
Definition env : Type := list (string * val).

Fixpoint get (e : env) (x : string) : option val :=
  match e with
  | [] => None
  | (y, v) :: r => if String.eqb x y then Some v else get r x
  end.

(** Reading a local variable or an attribute that is known to exist. *)
Definition the (e : env) (x : string) : val := match get e x with Some v => v | None => VNone end.

Definition has (e : env) (x : string) : bool := match get e x with Some _ => true | None => false end.

(** Python's call rule: positional arguments in order, then keywords, then defaults. TypeError for a missing argument, for
    one given twice, for too many positional arguments and for unknown keywords (unless there is a double-starred parameter,
    [varkw]). *)
Fixpoint bind_params (s : sig) (pos : list val) (kw : env) : res env :=
  match s with
  | [] => match pos with [] => Ok [] | _ => Err TypeError end
  | (x, kwonly, d) :: r =>
      match kwonly, pos with
      | false, v :: pos' => if has kw x then Err TypeError else do e <- bind_params r pos' kw; Ok ((x, v) :: e)
      | _, _ => match get kw x, d with
                | Some v, _ => do e <- bind_params r pos kw; Ok ((x, v) :: e)
                | None, Some v => do e <- bind_params r pos kw; Ok ((x, v) :: e)
                | None, None => Err TypeError
                end
      end
  end.

Definition known (s : sig) (x : string) : bool := existsb (fun p => String.eqb x (fst (fst p))) s.

Definition bind_args (varkw : bool) (s : sig) (pos : list val) (kw : env) : res env :=
  if varkw || forallb (fun p => known s (fst p)) kw then bind_params s pos kw else Err TypeError.

(** Python's numbers. *)
Definition num (v : val) : option Q :=
  match v with
  | VBool b => Some (if b then 1 else 0)%Q
  | VInt z => Some (inject_Z z)
  | VFloat q => Some q
  | _ => None
  end.

Definition py_lt (a b : val) : res bool :=
  match num a, num b with
  | Some x, Some y => Ok (negb (Qle_bool y x))
  | _, _ => Err TypeError
  end.

Definition py_add (a b : val) : res val :=
  match a, b with
  | VInt x, VInt y => Ok (VInt (x + y))
  | _, _ => match num a, num b with Some x, Some y => Ok (VFloat (x + y)) | _, _ => Err TypeError end
  end.

(** Equality of names (objects compare by identity, which is not modelled: they count as different). *)
Definition py_eq (a b : val) : bool :=
  match a, b with
  | VNone, VNone => true
  | VStr x, VStr y => String.eqb x y
  | _, _ => match num a, num b with Some x, Some y => Qeq_bool x y | _, _ => false end
  end.

(** "if v": torch modules and functions are true. *)
Definition truthy (v : val) : bool :=
  match v with
  | VNone => false
  | VStr s => negb (String.eqb s "")
  | VFun _ | VObj _ _ => true
  | _ => match num v with Some q => negb (Qeq_bool q 0) | None => true end
  end.

(** "torch.tensor(v)" of a number. *)
Definition torch_tensor (v : val) : res val := match num v with Some _ => Ok v | None => Err RuntimeError end.

Definition attrs_of (v : val) : env := match v with VObj _ l => l | _ => [] end.

(** "self.x = v": a new binding hides the old one. *)
Definition set_attr (x : string) (v : val) (o : env) : env := (x, v) :: o.

(** SamplingMethod.__init__ (storch/sampling/method.py:12-15). *)
Definition sampling_init (plate_name : val) : env := [("plate_name", plate_name)].

(** MonteCarlo.__init__ (storch/sampling/method.py:117-119). *)
Definition sig_montecarlo : sig := [("plate_name", false, None); ("n_samples", false, Some (VInt 1))].
Definition init_montecarlo (pos : list val) (kw : env) : res env :=
  do e <- bind_args false sig_montecarlo pos kw;
  Ok (set_attr "n_samples" (the e "n_samples") (sampling_init (the e "plate_name"))).

(** Enumerate.__init__ (storch/sampling/expect.py:12-14). *)
Definition sig_enumerate : sig := [("plate_name", false, None); ("budget", false, Some (VInt 10000))].
Definition init_enumerate (pos : list val) (kw : env) : res env :=
  do e <- bind_args false sig_enumerate pos kw;
  Ok (set_attr "budget" (the e "budget") (sampling_init (the e "plate_name"))).

(** SequenceDecoding.__init__ and reset (storch/sampling/seq.py:153-173). "eos: None" is an annotation: there is no default. *)
Definition sig_seq : sig := [("plate_name", false, None); ("k", false, None); ("eos", false, None)].
Definition init_seq (pos : list val) (kw : env) : res env :=
  do e <- bind_args false sig_seq pos kw;
  Ok (set_attr "plate_first" (VBool true)
     (set_attr "finished_samples" VNone
     (set_attr "joint_log_probs" VNone
     (set_attr "eos" (the e "eos")
     (set_attr "k" (the e "k") (sampling_init (the e "plate_name"))))))).

(** IterDecoding.__init__ (storch/sampling/seq.py:376-378). *)
Definition init_iter (pos : list val) (kw : env) : res env :=
  do e <- bind_args false sig_seq pos kw;
  do o <- init_seq [the e "plate_name"; the e "k"; the e "eos"] [];
  Ok (set_attr "plate_first" (VBool false) o).

(** SampleWithoutReplacement.__init__ (storch/sampling/swor.py:21-27). *)
Definition sig_swor : sig :=
  [("plate_name", false, None); ("k", false, None); ("biased_iw", false, Some (VBool false)); ("eos", false, Some VNone)].
Definition init_swor (pos : list val) (kw : env) : res env :=
  do e <- bind_args false sig_swor pos kw;
  do o <- init_iter [the e "plate_name"; the e "k"; the e "eos"] [];
  do small <- py_lt (the e "k") (VInt 2);
  if small then Err ValueError else Ok (set_attr "biased_iw" (the e "biased_iw") o).

(** UnorderedSet.__init__ (storch/sampling/unordered_set.py:12-26). *)
Definition sig_unordered_set : sig :=
  [("plate_name", false, None); ("k", false, None); ("comp_leave_two_out", false, Some (VBool false));
   ("exact_integration", false, Some (VBool false)); ("num_int_points", false, Some (VInt 1000));
   ("a", false, Some (VFloat 5)); ("eos", false, Some VNone)].
Definition init_unordered_set (pos : list val) (kw : env) : res env :=
  do e <- bind_args false sig_unordered_set pos kw;
  do o <- init_swor [the e "plate_name"; the e "k"] [("eos", the e "eos")];
  Ok (set_attr "a" (the e "a")
     (set_attr "num_int_points" (the e "num_int_points")
     (set_attr "exact_integration" (the e "exact_integration")
     (set_attr "comp_leave_two_out" (the e "comp_leave_two_out") o)))).

(** The default temperatures. *)
Definition def_temperature : option val := Some (VFloat 1).
Definition def_min_temperature : option val := Some (VFloat (1 # 10000)).
Definition def_annealing : option val := Some (VFloat (1 # 100000)).

(** GumbelSoftmaxWOR.__init__ (storch/sampling/unordered_set.py:114-124). *)
Definition sig_gumbel_wor : sig :=
  [("plate_name", false, None); ("k", false, None); ("initial_temperature", false, def_temperature);
   ("min_temperature", false, def_min_temperature); ("annealing_rate", false, def_annealing); ("eos", false, Some VNone)].
Definition init_gumbel_wor (pos : list val) (kw : env) : res env :=
  do e <- bind_args false sig_gumbel_wor pos kw;
  do o <- init_unordered_set [the e "plate_name"; the e "k"] [("comp_leave_two_out", VBool false); ("eos", the e "eos")];
  Ok (set_attr "temperature" (the e "initial_temperature") o).

(** RaoBlackwellizedSample.__init__ (storch/sampling/mapo.py:46-53). *)
Definition sig_rao : sig := [("plate_name", false, None); ("k", false, None); ("eos", false, Some VNone)].
Definition init_rao (pos : list val) (kw : env) : res env :=
  do e <- bind_args false sig_rao pos kw;
  init_swor [the e "plate_name"; the e "k"; the e "eos"] [].

(** MAPOSample.__init__ (storch/sampling/mapo.py:12-38); the function select_samples it defines is local and never used. *)
Definition sig_mapo : sig := [("plate_name", false, None); ("buffer_size", false, None); ("eos", false, Some VNone)].
Definition init_mapo (pos : list val) (kw : env) : res env :=
  do e <- bind_args false sig_mapo pos kw;
  do k <- py_add (the e "buffer_size") (VInt 1);
  do o <- init_swor [the e "plate_name"; k; the e "eos"] [];
  Ok (set_attr "buffer" VNone (set_attr "buffer_size" (the e "buffer_size") o)).

(** SumAndSample.__init__ (storch/sampling/swor.py:260-272). *)
Definition sig_sum_and_sample : sig :=
  [("plate_name", false, None); ("sum_size", false, None); ("sample_size", false, Some (VInt 1));
   ("without_replacement", false, Some (VBool false)); ("eos", false, Some VNone)].
Definition init_sum_and_sample (pos : list val) (kw : env) : res env :=
  do e <- bind_args false sig_sum_and_sample pos kw;
  do k <- py_add (the e "sum_size") (the e "sample_size");
  do o <- init_swor [the e "plate_name"; k] [("eos", the e "eos")];
  let o := set_attr "sample_size" (the e "sample_size") (set_attr "sum_size" (the e "sum_size") o) in
  do a <- py_lt (the e "sum_size") (VInt 1);
  if a then Err ValueError else
  do b <- py_lt (the e "sample_size") (VInt 1);
  if b then Err ValueError else Ok o.

(** ImportanceSampleDecoder.__init__ (storch/sampling/importance_sampling.py:72-86). *)
Definition sig_is_decoder : sig :=
  [("plate_name", false, None); ("k", false, None); ("is_callback", false, None); ("eos", false, Some VNone);
   ("epsilon", false, Some (VFloat (1 # 10000000)))].
Definition init_is_decoder (pos : list val) (kw : env) : res env :=
  do e <- bind_args false sig_is_decoder pos kw;
  do o <- init_seq [the e "plate_name"; the e "k"; the e "eos"] [];
  do eps <- torch_tensor (the e "epsilon");
  Ok (set_attr "epsilon" eps (set_attr "is_callback" (the e "is_callback") o)).

(** "sampling_method.set_mc_sample(f)" and "set_mc_weighting_function(f)" (storch/sampling/method.py:65-93). *)
Definition set_in (x : string) (f : val) (m : val) : res val :=
  match m with VObj c l => Ok (VObj c (set_attr x f l)) | _ => Err AttributeError end.

(** "if not sampling_method: sampling_method = MonteCarlo(plate_name, n_samples)". *)
Definition or_montecarlo (m plate_name n_samples : val) : res val :=
  if truthy m then Ok m else do o <- init_montecarlo [plate_name; n_samples] []; Ok (VObj "MonteCarlo" o).

(** Method.__init__ (storch/method/method.py:38-47). *)
Definition init_method (plate_name m : val) : res env :=
  match m with
  | VObj _ l => match get l "plate_name" with
                | Some n => if py_eq n plate_name
                            then Ok [("sampling_method", m); ("plate_name", plate_name); ("iterations", VInt 0)]
                            else Err ValueError
                | None => Err AttributeError
                end
  | _ => Err AttributeError
  end.

Definition sig_n_samples : sig :=
  [("plate_name", false, None); ("sampling_method", false, Some VNone); ("n_samples", false, Some (VInt 1))].

(** Reparameterization.__init__ (storch/method/method.py:315-323). *)
Definition init_reparam (pos : list val) (kw : env) : res env :=
  do e <- bind_args false sig_n_samples pos kw;
  do m <- or_montecarlo (the e "sampling_method") (the e "plate_name") (the e "n_samples");
  do m <- set_in "mc_sample" (VFun "reparam_sample") m;
  init_method (the e "plate_name") m.

(** ARM.__init__ (storch/method/arm.py:29-39) and DisARM.__init__ (103-113). *)
Definition init_arm (pos : list val) (kw : env) : res env :=
  do e <- bind_args false sig_n_samples pos kw;
  do m <- or_montecarlo (the e "sampling_method") (the e "plate_name") (the e "n_samples");
  do m <- set_in "mc_sample" (VFun "sample_arm") m;
  do m <- set_in "mc_weighting_function" (VFun "weighting_function") m;
  init_method (the e "plate_name") m.
Definition init_disarm (pos : list val) (kw : env) : res env :=
  do e <- bind_args false sig_n_samples pos kw;
  do m <- or_montecarlo (the e "sampling_method") (the e "plate_name") (the e "n_samples");
  do m <- set_in "mc_sample" (VFun "sample_disarm") m;
  init_method (the e "plate_name") m.

(** The buffers of the relaxations (storch/method/method.py:373-376 and 424-427). *)
Definition temperature_buffers (e : env) (o : env) : res env :=
  do t <- torch_tensor (the e "initial_temperature");
  do r <- torch_tensor (the e "annealing_rate");
  do m <- torch_tensor (the e "min_temperature");
  Ok (set_attr "min_temperature" m
     (set_attr "annealing_rate" r
     (set_attr "temperature" t
     (set_attr "straight_through" (the e "straight_through") o)))).

(** GumbelSoftmax.__init__ (storch/method/method.py:357-376). *)
Definition sig_gumbel_softmax : sig :=
  (sig_n_samples ++ [("straight_through", false, Some (VBool false)); ("initial_temperature", false, def_temperature);
                    ("min_temperature", false, def_min_temperature); ("annealing_rate", false, def_annealing)])%list.
Definition init_gumbel_softmax (pos : list val) (kw : env) : res env :=
  do e <- bind_args false sig_gumbel_softmax pos kw;
  do m <- or_montecarlo (the e "sampling_method") (the e "plate_name") (the e "n_samples");
  do m <- set_in "mc_sample" (VFun "sample_gumbel") m;
  do o <- init_method (the e "plate_name") m;
  temperature_buffers e o.

(** GumbelEntmax.__init__ (storch/method/method.py:407-446); which function of the package entmax is used is the attribute
    entmax; an adaptive alpha becomes a parameter that holds alpha. *)
Definition sig_entmax : sig :=
  [("plate_name", false, None); ("sampling_method", false, Some VNone); ("alpha", false, Some (VFloat (3 # 2)));
   ("adaptive", false, Some (VBool false)); ("n_samples", false, Some (VInt 1));
   ("straight_through", false, Some (VBool false)); ("initial_temperature", false, def_temperature);
   ("min_temperature", false, def_min_temperature); ("annealing_rate", false, Some (VFloat 0))].
Definition init_entmax (pos : list val) (kw : env) : res env :=
  do e <- bind_args false sig_entmax pos kw;
  do m <- or_montecarlo (the e "sampling_method") (the e "plate_name") (the e "n_samples");
  do m <- set_in "mc_sample" (VFun "sample_gumbel_entmax") m;
  do o <- init_method (the e "plate_name") m;
  do o <- temperature_buffers e (set_attr "adaptive" (the e "adaptive") o);
  let adaptive := truthy (the e "adaptive") in
  do alpha <- (if adaptive then torch_tensor (the e "alpha") else Ok (the e "alpha"));
  let f := if negb adaptive && py_eq (the e "alpha") (VFloat (3 # 2)) then "entmax15"
           else if negb adaptive && py_eq (the e "alpha") (VFloat 2) then "sparsemax"
           else "entmax_bisect" in
  Ok (set_attr "entmax" (VFun f) (set_attr "alpha" alpha o)).

(** GumbelSparseMax.__init__ (storch/method/method.py:487-506). *)
Definition sig_sparsemax : sig :=
  (sig_n_samples ++ [("straight_through", false, Some (VBool false)); ("initial_temperature", false, def_temperature);
                    ("min_temperature", false, def_min_temperature); ("annealing_rate", false, Some (VFloat 0))])%list.
Definition init_sparsemax (pos : list val) (kw : env) : res env :=
  do e <- bind_args false sig_sparsemax pos kw;
  init_entmax [the e "plate_name"; the e "sampling_method"; VFloat 2]
              [("n_samples", the e "n_samples"); ("straight_through", the e "straight_through");
               ("initial_temperature", the e "initial_temperature"); ("min_temperature", the e "min_temperature");
               ("annealing_rate", the e "annealing_rate")].

(** ScoreFunction.__init__ (storch/method/method.py:527-552); a baseline factory is the baseline it makes, with the keywords
    it passes on. *)
Definition sig_score : sig := (sig_n_samples ++ [("baseline_factory", false, Some VNone)])%list.
Definition rest_kw (s : sig) (kw : env) : env := filter (fun p => negb (known s (fst p))) kw.
Definition init_score (pos : list val) (kw : env) : res env :=
  do e <- bind_args true sig_score pos kw;
  do m <- or_montecarlo (the e "sampling_method") (the e "plate_name") (the e "n_samples");
  do o <- init_method (the e "plate_name") m;
  do b <- match the e "baseline_factory" with
          | VStr s => if String.eqb s "moving_average" then Ok (VObj "MovingAverageBaseline" (rest_kw sig_score kw))
                      else if String.eqb s "batch_average"
                      then match get (attrs_of m) "n_samples" with
                           | None => Err AttributeError
                           | Some n => do many <- py_lt (VInt 1) n;
                                       if many then Ok (VObj "BatchAverageBaseline" []) else Err ValueError
                           end
                      else if String.eqb s "none" || String.eqb s "None" then Ok VNone
                      else Err ValueError
          | v => Ok v
          end;
  Ok (set_attr "baseline_factory" b o).

(** Infer.__init__ (storch/method/method.py:263-286); [rsample] is distribution_type.has_rsample and [relaxable] whether it is
    a subclass of OneHotCategorical or Bernoulli. The parameter distribution_type itself is not stored. A sampling method that
    is passed is one object that both inner methods hold: setting its mc_sample in one of them shows in the other, which is not
    modelled (the attribute mc_sample is never read below). *)
Definition sig_infer : sig :=
  [("plate_name", false, None); ("distribution_type", false, None); ("sampling_method", false, Some VNone);
   ("n_samples", false, Some (VInt 1))].
Definition init_infer (rsample relaxable : bool) (pos : list val) (kw : env) : res env :=
  do e <- bind_args false sig_infer pos kw;
  let args := [the e "plate_name"; the e "sampling_method"; the e "n_samples"] in
  do m <- (if rsample then do o <- init_reparam args []; Ok (VObj "Reparameterization" o)
           else if relaxable then do o <- init_gumbel_softmax args []; Ok (VObj "GumbelSoftmax" o)
           else do o <- init_score args [("baseline_factory",
                          VStr (if py_eq (the e "n_samples") (VInt 1) then "moving_average" else "batch_average"))];
                Ok (VObj "ScoreFunction" o));
  do o <- init_method (the e "plate_name") (the (attrs_of m) "sampling_method");
  do s <- init_score args [];
  Ok (set_attr "_method" m (set_attr "_score_method" (VObj "ScoreFunction" s) o)).

(** Infer.estimator (storch/method/method.py:288-291) is that of "self._score_method"; the baseline it uses
    (ScoreFunction.estimator, 569-575). *)
Definition infer_baseline (o : env) : val := the (attrs_of (the o "_score_method")) "baseline_factory".

(** Expect.__init__ (storch/method/method.py:579-580). *)
Definition init_expect (pos : list val) (kw : env) : res env :=
  do e <- bind_args false sig_enumerate pos kw;
  do m <- init_enumerate [the e "plate_name"; the e "budget"] [];
  init_method (the e "plate_name") (VObj "Enumerate" m).

(** RELAX.__init__ (storch/method/relax.py:174-213); the network Baseline(in_dim) is known by its in_dim, control_params are
    not modelled. *)
Definition sig_relax : sig :=
  [("plate_name", false, None); ("sampling_method", true, Some VNone); ("n_samples", true, Some (VInt 1));
   ("c_phi", true, Some VNone); ("in_dim", true, Some VNone); ("rebar", true, Some (VBool false));
   ("train_eta", true, Some (VBool true))].
Definition init_relax (pos : list val) (kw : env) : res env :=
  do e <- bind_args false sig_relax pos kw;
  do m <- or_montecarlo (the e "sampling_method") (the e "plate_name") (the e "n_samples");
  do m <- set_in "mc_sample" (VFun "sample_gumbel") m;
  do m <- set_in "mc_weighting_function" (VFun "plate_weighting") m;
  do o <- init_method (the e "plate_name") m;
  do c <- (if truthy (the e "c_phi") then Ok (the e "c_phi")
           else if truthy (the e "in_dim") then Ok (VObj "Baseline" [("in_dim", the e "in_dim")]) else Err ValueError);
  Ok (set_attr "rebar" (the e "rebar")
     (set_attr "temperature" (VFloat 1)
     (set_attr "c_phi" c o))).

(** REBAR.__init__ (storch/method/relax.py:372-382). *)
Definition sig_rebar : sig :=
  [("plate_name", false, None); ("c_phi", true, Some VNone); ("n_samples", true, Some (VInt 1))].
Definition init_rebar (pos : list val) (kw : env) : res env :=
  do e <- bind_args false sig_rebar pos kw;
  let c := if truthy (the e "c_phi") then the e "c_phi" else VFun "zero" in
  init_relax [the e "plate_name"] [("n_samples", the e "n_samples"); ("c_phi", c); ("rebar", VBool true)].

(** LAX.__init__ (storch/method/relax.py:53-74); Baseline(None) raises TypeError. *)
Definition sig_lax : sig :=
  [("plate_name", false, None); ("sampling_method", true, Some VNone); ("n_samples", true, Some (VInt 1));
   ("c_phi", true, Some VNone); ("in_dim", true, Some VNone)].
Definition init_lax (pos : list val) (kw : env) : res env :=
  do e <- bind_args false sig_lax pos kw;
  do o <- init_reparam [the e "plate_name"; the e "sampling_method"; the e "n_samples"] [];
  do c <- (if truthy (the e "c_phi") then Ok (the e "c_phi")
           else match the e "in_dim" with VNone => Err TypeError | d => Ok (VObj "Baseline" [("in_dim", d)]) end);
  Ok (set_attr "c_phi" c o).

(** ScoreFunctionWOR.__init__ (storch/method/multi_sample_reinforce.py:38-44). *)
Definition sig_score_wor : sig :=
  [("plate_name", false, None); ("k", false, None); ("biased", false, Some (VBool true));
   ("use_baseline", false, Some (VBool true))].
Definition init_score_wor (pos : list val) (kw : env) : res env :=
  do e <- bind_args false sig_score_wor pos kw;
  do m <- init_swor [the e "plate_name"; the e "k"; the e "biased"] [];
  do o <- init_method (the e "plate_name") (VObj "SampleWithoutReplacement" m);
  Ok (set_attr "use_baseline" (the e "use_baseline") (set_attr "biased" (the e "biased") o)).

(** UnorderedSetEstimator.__init__ (storch/method/unordered.py:22-55). *)
Definition sig_unordered : sig :=
  [("plate_name", false, None); ("k", false, None); ("use_baseline", false, Some (VBool true));
   ("exact_integration", false, Some (VBool false)); ("num_int_points", false, Some (VInt 1000));
   ("a", false, Some (VFloat 5)); ("eos", false, Some VNone)].
Definition init_unordered (pos : list val) (kw : env) : res env :=
  do e <- bind_args false sig_unordered pos kw;
  do m <- init_unordered_set [the e "plate_name"; the e "k"; the e "use_baseline"; the e "exact_integration";
                              the e "num_int_points"; the e "a"] [("eos", the e "eos")];
  do o <- init_method (the e "plate_name") (VObj "UnorderedSet" m);
  Ok (set_attr "use_baseline" (the e "use_baseline") o).

(** UnorderedSetGumbelSoftmax.__init__ (storch/method/unordered.py:84-98). *)
Definition init_unordered_gumbel (pos : list val) (kw : env) : res env :=
  do e <- bind_args false sig_gumbel_wor pos kw;
  do m <- init_gumbel_wor [the e "plate_name"; the e "k"; the e "initial_temperature"; the e "min_temperature";
                           the e "annealing_rate"; the e "eos"] [];
  init_method (the e "plate_name") (VObj "GumbelSoftmaxWOR" m).

(** RaoBlackwellSF.__init__ (storch/method/rao_blackwell.py:14-15). *)
Definition sig_rao_sf : sig := [("plate_name", false, None); ("n_samples", false, None)].
Definition init_rao_sf (pos : list val) (kw : env) : res env :=
  do e <- bind_args false sig_rao_sf pos kw;
  do m <- init_rao [the e "plate_name"; the e "n_samples"] [];
  init_method (the e "plate_name") (VObj "RaoBlackwellizedSample" m).

(** The classes and their constructors; MCDecoder inherits that of SequenceDecoding. *)
Inductive kls : Type :=
| KMonteCarlo | KEnumerate | KMCDecoder | KSwor | KUnorderedSet | KGumbelWOR | KRao | KMapo | KSumAndSample | KISDecoder
| KScore | KReparam | KGumbelSoftmax | KEntmax | KSparsemax | KExpect | KARM | KDisARM | KLAX | KRELAX | KREBAR
| KScoreWOR | KUnordered | KUnorderedGumbel | KRaoSF.

Definition sig_of (k : kls) : sig :=
  match k with
  | KMonteCarlo => sig_montecarlo | KEnumerate => sig_enumerate | KMCDecoder => sig_seq | KSwor => sig_swor
  | KUnorderedSet => sig_unordered_set | KGumbelWOR => sig_gumbel_wor | KRao => sig_rao | KMapo => sig_mapo
  | KSumAndSample => sig_sum_and_sample | KISDecoder => sig_is_decoder
  | KScore => sig_score | KReparam => sig_n_samples | KGumbelSoftmax => sig_gumbel_softmax | KEntmax => sig_entmax
  | KSparsemax => sig_sparsemax | KExpect => sig_enumerate | KARM => sig_n_samples | KDisARM => sig_n_samples
  | KLAX => sig_lax | KRELAX => sig_relax | KREBAR => sig_rebar
  | KScoreWOR => sig_score_wor | KUnordered => sig_unordered | KUnorderedGumbel => sig_gumbel_wor | KRaoSF => sig_rao_sf
  end.

Definition construct (k : kls) : list val -> env -> res env :=
  match k with
  | KMonteCarlo => init_montecarlo | KEnumerate => init_enumerate | KMCDecoder => init_seq | KSwor => init_swor
  | KUnorderedSet => init_unordered_set | KGumbelWOR => init_gumbel_wor | KRao => init_rao | KMapo => init_mapo
  | KSumAndSample => init_sum_and_sample | KISDecoder => init_is_decoder
  | KScore => init_score | KReparam => init_reparam | KGumbelSoftmax => init_gumbel_softmax | KEntmax => init_entmax
  | KSparsemax => init_sparsemax | KExpect => init_expect | KARM => init_arm | KDisARM => init_disarm
  | KLAX => init_lax | KRELAX => init_relax | KREBAR => init_rebar
  | KScoreWOR => init_score_wor | KUnordered => init_unordered | KUnorderedGumbel => init_unordered_gumbel
  | KRaoSF => init_rao_sf
  end.
