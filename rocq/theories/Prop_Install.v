(** C93: what estimators do to the sampling method they are given. More of C87: control variates and entmax functions. *)
From Coq Require Import List String ZArith QArith Bool Lia.
From Verif Require Import Base Construct SpecConstruct SpecInstall ConstructProofs InstallProofs.
Import ListNotations.
Open Scope string_scope.
Open Scope list_scope.

(** C93. An estimator that is constructed has a sampling method in which its own functions are installed; if the caller gave a sampling
    method, everything else of it is as it was. *)
Theorem C93_installed : forall k pos kw o, In k takes_sampler -> NoDup (map fst kw) -> construct k pos kw = Ok o ->
  exists c a, get o "sampling_method" = Some (VObj c a) /\
    (forall x f, In (x, f) (installed k) -> get a x = Some (VFun f)) /\
    (forall c0 a0, given (sig_of k) pos kw "sampling_method" (VObj c0 a0) -> c = c0 /\ forall x, ~ In x (map fst (installed k)) -> get a x = get a0 x).
Proof. exact install. Qed.
Print Assumptions C93_installed.

(** A sampling method for another plate is rejected. *)
Theorem C93_other_plate : forall k pos kw s s' c a, In k takes_sampler -> NoDup (map fst kw) -> fits (sig_of k) pos kw ->
  given (sig_of k) pos kw "plate_name" (VStr s) -> given (sig_of k) pos kw "sampling_method" (VObj c a) -> get a "plate_name" = Some (VStr s') -> s <> s' ->
  construct k pos kw = Err ValueError.
Proof. exact other_plate. Qed.
Print Assumptions C93_other_plate.

(** ARM with a sampling method of its own and another function in it. *)
Definition w_sampler : val := VObj "MonteCarlo" [("n_samples", VInt 4); ("mc_sample", VFun "old"); ("plate_name", VStr "x")].
Example C93_witness : let pos := [VStr "x"; w_sampler] in
  In KARM takes_sampler /\ given (sig_of KARM) pos [] "sampling_method" w_sampler /\
  (exists o, construct KARM pos [] = Ok o /\ reads o ["sampling_method"; "mc_sample"] (VFun "sample_arm") /\ reads o ["sampling_method"; "n_samples"] (VInt 4)) /\
  (fits (sig_of KARM) [VStr "y"; w_sampler] [] /\ construct KARM [VStr "y"; w_sampler] [] = Err ValueError).
Proof.
  split; [cbn; tauto|]. split; [exists 1%nat, false, (Some VNone); split; [reflexivity|]; left; split; reflexivity|]. split.
  - eexists. split; [vm_compute; reflexivity|]. split; apply read_reads; reflexivity.
  - split; [|vm_compute; reflexivity]. constructor.
    + cbn. lia.
    + intros x [].
    + intros i x ko d _ _ [].
    + intros [|[|[|i]]] x ko Hi; try discriminate; [|now destruct i]. left. injection Hi as <- <-. split; [reflexivity|cbn; lia].
Qed.

(** C87 for the control variates: the function that is given, otherwise a network for the dimension that is given; without both RELAX and
    LAX are not constructed. REBAR is RELAX with the constant zero. *)
Theorem C87_control : forall k pos kw o v d, In k [KRELAX; KLAX] -> NoDup (map fst kw) -> construct k pos kw = Ok o ->
  given (sig_of k) pos kw "c_phi" v -> given (sig_of k) pos kw "in_dim" d ->
  get o "c_phi" = Some (if truthy v then v else VObj "Baseline" [("in_dim", d)]) /\ (truthy v = false -> d <> VNone).
Proof. exact control. Qed.
Print Assumptions C87_control.
Theorem C87_rebar : forall pos kw o v, NoDup (map fst kw) -> construct KREBAR pos kw = Ok o -> given (sig_of KREBAR) pos kw "c_phi" v ->
  get o "c_phi" = Some (if truthy v then v else VFun "zero") /\ get o "rebar" = Some (VBool true).
Proof. exact rebar_control. Qed.
Print Assumptions C87_rebar.

(** C87 for alpha: entmax15 is used exactly for a fixed alpha of 1.5, sparsemax exactly for a fixed alpha of 2. *)
Theorem C87_entmax : forall pos kw o a d, NoDup (map fst kw) -> construct KEntmax pos kw = Ok o ->
  given (sig_of KEntmax) pos kw "alpha" a -> given (sig_of KEntmax) pos kw "adaptive" d ->
  exists f, get o "entmax" = Some (VFun f) /\
    (f = "entmax15" <-> truthy d = false /\ exists q, num a = Some q /\ q == 3 # 2) /\
    (f = "sparsemax" <-> truthy d = false /\ exists q, num a = Some q /\ q == 2) /\
    In f ["entmax15"; "sparsemax"; "entmax_bisect"].
Proof. exact entmax_chosen. Qed.
Print Assumptions C87_entmax.
Theorem C87_sparsemax : forall pos kw o, construct KSparsemax pos kw = Ok o -> get o "entmax" = Some (VFun "sparsemax") /\ get o "alpha" = Some (VFloat 2).
Proof. exact sparsemax_chosen. Qed.
Print Assumptions C87_sparsemax.

Example C87_control_witness : (exists o, construct KRELAX [VStr "x"] [("in_dim", VInt 3)] = Ok o) /\
  given (sig_of KRELAX) [VStr "x"] [("in_dim", VInt 3)] "c_phi" VNone /\ given (sig_of KRELAX) [VStr "x"] [("in_dim", VInt 3)] "in_dim" (VInt 3) /\
  (exists o, construct KREBAR [VStr "x"] [("c_phi", VFun "f")] = Ok o) /\
  given (sig_of KREBAR) [VStr "x"] [("c_phi", VFun "f")] "c_phi" (VFun "f") /\
  (exists o, construct KEntmax [VStr "x"] [("alpha", VInt 2)] = Ok o /\ get o "entmax" = Some (VFun "sparsemax")) /\
  given (sig_of KEntmax) [VStr "x"] [("alpha", VInt 2)] "alpha" (VInt 2) /\ (exists o, construct KSparsemax [VStr "x"] [] = Ok o).
Proof.
  split; [eexists; vm_compute; reflexivity|]. split.
  { exists 3%nat, true, (Some VNone). split; [reflexivity|]. right; right. split; [now left|]. split; [cbn; intuition discriminate|reflexivity]. }
  split. { exists 4%nat, true, (Some VNone). split; [reflexivity|]. right; left. now left. }
  split; [eexists; vm_compute; reflexivity|]. split. { exists 1%nat, true, (Some VNone). split; [reflexivity|]. right; left. now left. }
  split; [eexists; split; [vm_compute; reflexivity|reflexivity]|]. split. { exists 2%nat, false, (Some (VFloat (3 # 2))). split; [reflexivity|]. right; left. now left. }
  eexists. vm_compute. reflexivity.
Qed.

(** SumAndSample needs at least one value in its sum and one sample. *)
Theorem C87_sum_sizes : forall pos kw a b, NoDup (map fst kw) -> fits (sig_of KSumAndSample) pos kw ->
  given (sig_of KSumAndSample) pos kw "sum_size" (VInt a) -> given (sig_of KSumAndSample) pos kw "sample_size" (VInt b) ->
  ((1 <= a /\ 1 <= b)%Z -> exists o, construct KSumAndSample pos kw = Ok o) /\ ((a < 1 \/ b < 1)%Z -> construct KSumAndSample pos kw = Err ValueError).
Proof. exact sum_sizes. Qed.
Print Assumptions C87_sum_sizes.
Example C87_sum_sizes_witness : fits (sig_of KSumAndSample) [VStr "x"; VInt 0; VInt 4] [] /\ given (sig_of KSumAndSample) [VStr "x"; VInt 0; VInt 4] [] "sum_size" (VInt 0) /\
  given (sig_of KSumAndSample) [VStr "x"; VInt 0; VInt 4] [] "sample_size" (VInt 4) /\ construct KSumAndSample [VStr "x"; VInt 0; VInt 4] [] = Err ValueError.
Proof.
  split; [|split; [|split; [|vm_compute; reflexivity]]].
  - constructor.
    + cbn. lia.
    + intros x [].
    + intros i x ko d _ _ [].
    + intros [|[|[|[|[|i]]]]] x ko Hi; try discriminate; [..|now destruct i]; left; injection Hi as <- <-; (split; [reflexivity|cbn; lia]).
  - exists 1%nat, false, None. split; [reflexivity|]. left. split; reflexivity.
  - exists 2%nat, false, (Some (VInt 1)). split; [reflexivity|]. left. split; reflexivity.
Qed.
