(** C17, C19, C46: reductions over plates and named dimensions, and variance. *)
From Coq Require Import String List Arith Bool ZArith Lia.
From Verif Require Import Base Torch Plates Wrap OrderPlates Scalar Reduce SpecTensor SpecWrap SpecOrder SpecReduce OrderProofs
  ReduceProofs ReduceProofs2 VarianceProofs RejectProofs.
Import ListNotations.
Open Scope string_scope.
Open Scope nat_scope.
Open Scope list_scope.

(** C46. Reducing with any torch reduction over a list of plates and event dimensions: exactly those dimensions go, the
    other plates stay in order, and the elements combined are the ones that differ in these dimensions only. *)
Theorem C46_named_reduction : forall (V : Type) (veq : V -> V -> bool) anc_unwrap (red : list V -> V) (a : stensor V) ds ts base,
  callable veq [a] -> Forall2 (dim_means a) ds ts -> NoDup ts -> ts <> [] ->
  exists r, reduce_with veq anc_unwrap top_ctx red a ds base = Ok (PT r) /\
    splates r = filter (fun p => negb (named ts (pname p))) (splates a) /\
    s_event_shape r = pick false (event_mask a ts) (s_event_shape a) /\
    wf r /\ sparents r = [sid a] /\ s_stochastic r = false /\
    forall s e, in_range s (splates r) -> valid e (s_event_shape r) -> den r s e = red (group a ts s e).
Proof. exact (fun V veq anc => @reduce_with_spec V veq anc). Qed.
Print Assumptions C46_named_reduction.

(** An absent plate, a singleton plate or an integer that does not denote an event dimension is an IndexError. *)
Theorem C46_bad_dimension : forall (V : Type) (veq : V -> V -> bool) anc_unwrap (red : list V -> V) (a : stensor V) ds base,
  callable veq [a] -> shape (st a) <> [] -> (exists d, In d ds /\ forall t, ~ dim_means a d t) ->
  reduce_with veq anc_unwrap top_ctx red a ds base = Err IndexError.
Proof. exact (fun V veq anc => @reduce_with_err V veq anc). Qed.
Print Assumptions C46_bad_dimension.

Lemma ok_elim : forall {A} (x : res A) (P : A -> Prop), match x with Ok r => P r | Err _ => False end -> exists r, x = Ok r /\ P r.
Proof. intros A [r|e] P H; [eauto|destruct H]. Qed.

(** Integers; detach leaves the number as it is. *)
Definition zops : sops Z := mkOps 0%Z 1%Z Z.add Z.mul Z.sub Z.opp (fun x => x).
Lemma zops_ring : is_ring zops.
Proof. exact InitialRing.Zth. Qed.
Definition no_anc (p : plate Z) (a : stensor Z) : res (stensor Z) := Ok a.

(** Plates x (2 samples, weight 3 each), y (2 samples, weights 5 and 7, child of x), z (3 samples, weighted per sample of
    x and z, child of x), w (1 sample). *)
Definition r_x : plate Z := mkPlate PlainPlate "x" 2 (WTorch (tscalar 3%Z)) [].
Definition r_y : plate Z := mkPlate PlainPlate "y" 2 (WTorch (mkten [2] (fun i => (5 + 2 * Z.of_nat (nth 0%nat i 0%nat))%Z))) [r_x].
Definition r_z : plate Z := mkPlate PlainPlate "z" 3
  (WStorch 7 (mkten [2; 3] (fun i => (1 + Z.of_nat (nth 0%nat i 0%nat) * 10 + Z.of_nat (nth 1%nat i 0%nat))%Z)) ["x"; "z"]) [r_x].
Definition r_w : plate Z := mkPlate PlainPlate "w" 1 (WTorch (tscalar 2%Z)) [].
Definition r_a : stensor Z := mkS 0 (mkten [2; 2; 3; 2] (fun i => fold_left (fun n d => (10 * n + Z.of_nat d)%Z) i 0%Z))
  [r_y; r_x; r_z; r_w] 3 [2] [] false.

Lemma r_sound : sound Z.eqb (splates r_a).
Proof.
  assert (A : forall p, ancestry (splates r_a) p -> In p (splates r_a)).
  { intros p Hp. apply ancestry_ups in Hp. simpl in Hp. simpl. intuition. }
  constructor.
  - split; [|split].
    + repeat constructor; simpl; intuition discriminate.
    + intros p Hp. simpl in Hp. destruct Hp as [<-|[<-|[<-|[<-|[]]]]]; repeat constructor; simpl; intuition discriminate.
    + intros p q Hp Hq E. apply A in Hp. apply A in Hq. simpl in Hp, Hq. intuition (subst; simpl in *; try discriminate; reflexivity).
  - intros p q Hp Hq E. apply A in Hp. apply A in Hq. simpl in Hp, Hq. intuition (subst; simpl in *; try discriminate; reflexivity).
  - intros p Hp. apply A in Hp. simpl in Hp. intuition (subst; reflexivity).
  - intros p Hp. apply A in Hp. simpl in Hp. intuition (subst; simpl; lia).
Qed.
Lemma r_wf : wf r_a.
Proof.
  constructor; try reflexivity; simpl.
  - repeat constructor; simpl; intuition discriminate.
  - intros p H. intuition (subst; simpl; lia).
Qed.
Lemma r_fits : forall p, In p (splates r_a) -> weight_fits (splates r_a) p.
Proof.
  intros p Hp. simpl in Hp. destruct Hp as [<-|[<-|[<-|[<-|[]]]]].
  - right. split; [exact (le_n 2)|reflexivity].
  - left. reflexivity.
  - split; [exact (le_S 2 2 (le_n 2))|]. split; [repeat constructor; simpl; intuition discriminate|].
    split; [simpl; auto|]. split; [simpl; intros x H; intuition|]. split; [simpl; intros q H; intuition (subst; simpl; auto)|reflexivity].
  - left. reflexivity.
Qed.
Lemma r_no_gaps : no_gaps (splates r_a) /\ ~ cyclic (splates r_a).
Proof.
  split.
  - intros p Hp. left. simpl in Hp. destruct Hp as [<-|[<-|[<-|[<-|[]]]]]; simpl; intuition (subst; simpl; auto).
  - intros [c [Hne [Hi Hp]]]. assert (Hx : ~ In r_x c). { intros C. destruct (Hp _ C) as [p [_ H]]. destruct H. }
    destruct c as [|q c]; [congruence|]. destruct (Hp q (or_introl eq_refl)) as [p [Hpc H]].
    assert (Hp' := Hi p Hpc). assert (Hq' := Hi q (or_introl eq_refl)). simpl in Hp', Hq'. unfold parent_of in H.
    destruct Hp' as [<-|[<-|[<-|[<-|[]]]]]; try contradiction;
      destruct Hq' as [<-|[<-|[<-|[<-|[]]]]]; simpl in H; intuition discriminate.
Qed.

(** Summing the plate y and the event dimension (as -1) of this tensor. *)
Example C46_witness : callable Z.eqb [r_a] /\ Forall2 (dim_means r_a) [DPlate "y"; DInt (-1)] [inl "y"; inr 0] /\
  NoDup [@inl string nat "y"; inr 0] /\
  exists r, reduce_with Z.eqb no_anc top_ctx (osum zops) r_a [DPlate "y"; DInt (-1)] 50 = Ok (PT r) /\
    splates r = [r_x; r_z; r_w] /\ shape (st r) = [2; 3] /\ el (st r) [1; 2] = (120 + 121 + 1120 + 1121)%Z.
Proof.
  split; [apply (sound_callable Z.eqb (splates r_a)); [exact r_sound|constructor; [exact r_wf|constructor]|intros t p [<-|[]] Hp; now left]|].
  split; [|split; [repeat constructor; simpl; intuition discriminate|eexists; split; [reflexivity|repeat split; reflexivity]]].
  constructor; [exact (M_plate r_a r_y (or_introl eq_refl) (le_n 2))|]. constructor; [exact (M_right r_a 0 (le_n 1))|constructor].
Qed.
Example C46_witness_bad : reduce_with Z.eqb no_anc top_ctx (osum zops) r_a [DPlate "w"] 50 = Err IndexError /\
  (forall t, ~ dim_means r_a (DPlate "w") t) /\ reduce_with Z.eqb no_anc top_ctx (osum zops) r_a [DInt 0] 50 = Err IndexError.
Proof.
  split; [reflexivity|]. split; [|reflexivity]. intros t H. inversion H as [p Hp Hn E1 E2| |]; subst.
  simpl in Hp. intuition (subst; simpl in *; try discriminate; lia).
Qed.

(** C17. For plates whose weight is a number, a number per sample, or (for plates of more than one sample) a storch tensor
    over the plate and its direct parents: reduce_plates removes the requested plates and yields the weighted sum. Missing
    for the full claim: singleton plates with storch weights, lists with gaps in the ancestry, both of which the code does
    not reduce, and the event shape when a storch weight has one dimension. *)
Theorem C17_reduce_plates_partial : forall (V : Type) (veq : V -> V -> bool) anc_unwrap (o : sops V), is_ring o ->
  forall v args (a : stensor V) (ps : list (plate V)) detach base,
  asks v args a ps -> wf a -> sound veq (splates a) -> NoDup (map pname ps) -> no_gaps ps -> ~ cyclic ps ->
  (forall p, In p ps -> weight_fits (splates a) p) ->
  exists r k, reduce_plates veq anc_unwrap o top_ctx v args detach base = Ok r /\
    splates r = filter (fun q => negb (has ps (pname q))) (splates a) /\
    s_event_shape r = s_event_shape a ++ repeat 1 k /\ wf r /\ ((forall p, In p ps -> ~ padded (splates a) p) -> k = 0) /\
    forall s e, in_range s (splates r) -> valid e (s_event_shape a) ->
      den r s (e ++ repeat 0 k) = weighted_sum o detach (splates a) ps (fun s' => den a s' e) s.
Proof. exact (fun V veq anc o H => @reduce_plates_top V veq anc o H). Qed.
Print Assumptions C17_reduce_plates_partial.

Example C17_witness : asks (PT r_a) [] r_a (splates r_a) /\ wf r_a /\ sound Z.eqb (splates r_a) /\ NoDup (map pname (splates r_a)) /\
  no_gaps (splates r_a) /\ ~ cyclic (splates r_a) /\ (forall p, In p (splates r_a) -> weight_fits (splates r_a) p) /\
  (forall p, In p (splates r_a) -> ~ padded (splates r_a) p) /\
  match reduce_plates Z.eqb no_anc zops top_ctx (PT r_a) [] true 100 with
  | Ok r => (splates r, s_event_shape r, el (st r) [1]) = ([], [2], 2059344%Z)
  | Err _ => False
  end.
Proof.
  split; [constructor|]. split; [exact r_wf|]. split; [exact r_sound|]. split; [apply r_wf|]. split; [apply r_no_gaps|].
  split; [apply r_no_gaps|]. split; [exact r_fits|]. split.
  - intros p Hp. simpl in Hp. destruct Hp as [<-|[<-|[<-|[<-|[]]]]]; vm_compute; auto. discriminate.
  - vm_compute. reflexivity.
Qed.

(** A plate whose weighting depends on a parent plate cannot be reduced once the parent is gone. *)
Theorem C17_missing_parent : forall (V : Type) (veq : V -> V -> bool) anc_unwrap (o : sops V) (L : list (plate V)) p (a : stensor V) detach base obj w names,
  sound veq L -> In p L -> weight_fits L p -> pweight p = WStorch obj w names -> 2 <= length (shape w) ->
  (exists q, In q (pparents p) /\ pin veq q (splates a) = false) -> plate_reduce veq anc_unwrap o top_ctx p a detach base = Err ValueError.
Proof. exact (fun V veq anc o => @reduce_missing_parent V veq anc o). Qed.
Print Assumptions C17_missing_parent.
Definition r_e : stensor Z := mkS 0 (mkten [3] (fun i => 1%Z)) [r_z] 1 [] [] false.
Example C17_missing_parent_witness : sound Z.eqb (splates r_a) /\ weight_fits (splates r_a) r_z /\ pin Z.eqb r_x (splates r_e) = false /\
  plate_reduce Z.eqb no_anc zops top_ctx r_z r_e true 100 = Err ValueError.
Proof. split; [exact r_sound|]. split; [apply r_fits; simpl; auto|]. split; vm_compute; reflexivity. Qed.

(** The claim is false for a singleton plate with a storch weight: the plate stays. *)
Definition r_s : plate Z := mkPlate PlainPlate "s" 1 (WStorch 3 (mkten [] (fun _ => 5%Z)) ["s"]) [].
Definition r_b : stensor Z := mkS 0 (mkten [2] (fun i => Z.of_nat (nth 0%nat i 0%nat))) [r_s] 0 [2] [] false.
Theorem C17_singleton_refuted : exists a : stensor Z, wf a /\ sound Z.eqb (splates a) /\
  exists r, reduce_plates Z.eqb no_anc zops top_ctx (PT a) [] true 100 = Ok r /\ splates r = splates a /\ splates a <> [].
Proof.
  exists r_b. split; [constructor; try reflexivity; simpl|split].
  - repeat constructor; simpl; tauto.
  - intros p [<-|[]]. simpl. lia.
  - assert (A : forall p, ancestry (splates r_b) p -> p = r_s) by (intros p Hp; apply ancestry_ups in Hp; simpl in Hp; intuition).
    constructor.
    + split; [repeat constructor; simpl; tauto|]. split; [intros p [<-|[]]; constructor|].
      intros p q Hp Hq _. rewrite (A _ Hp), (A _ Hq). reflexivity.
    + intros p q Hp Hq _. now rewrite (A _ Hp), (A _ Hq).
    + intros p Hp. now rewrite (A _ Hp).
    + intros p Hp. rewrite (A _ Hp). simpl. lia.
  - apply ok_elim. vm_compute. split; [reflexivity|discriminate].
Qed.
Print Assumptions C17_singleton_refuted.

(** The event shape changes for a one-dimensional storch weight of a plate that is not the last one. *)
Definition r_t : plate Z := mkPlate PlainPlate "t" 2 (WStorch 3 (mkten [2] (fun i => Z.of_nat (nth 0%nat i 0%nat))) ["t"]) [].
Definition r_c : stensor Z := mkS 0 (mkten [2; 2] (fun i => 1%Z)) [r_t; r_x] 2 [] [] false.
Theorem C17_event_shape_refuted : exists a : stensor Z, wf a /\ sound Z.eqb (splates a) /\
  exists r, reduce_plates Z.eqb no_anc zops top_ctx (PT a) [] true 100 = Ok r /\ s_event_shape a = [] /\ s_event_shape r = [1].
Proof.
  exists r_c. split; [constructor; try reflexivity; simpl|split].
  - repeat constructor; simpl; intuition discriminate.
  - intros p H. intuition (subst; simpl; lia).
  - assert (A : forall p, ancestry (splates r_c) p -> p = r_t \/ p = r_x) by (intros p Hp; apply ancestry_ups in Hp; simpl in Hp; intuition).
    constructor.
    + split; [repeat constructor; simpl; intuition discriminate|]. split; [intros p [<-|[<-|[]]]; constructor|].
      intros p q Hp Hq E. destruct (A _ Hp), (A _ Hq); subst; try reflexivity; discriminate.
    + intros p q Hp Hq E. destruct (A _ Hp), (A _ Hq); subst; try reflexivity; discriminate.
    + intros p Hp. destruct (A _ Hp); subst; reflexivity.
    + intros p Hp. destruct (A _ Hp); subst; simpl; lia.
  - apply ok_elim. vm_compute. split; reflexivity.
Qed.
Print Assumptions C17_event_shape_refuted.

(** With a gap in the ancestry a requested plate is silently not reduced. *)
Definition g_y : plate Z := mkPlate PlainPlate "y" 2 (WTorch (tscalar 1%Z)) [r_x].
Definition g_z : plate Z := mkPlate PlainPlate "z" 2 (WTorch (tscalar 1%Z)) [r_x; g_y].
Definition r_d : stensor Z := mkS 0 (mkten [2; 2; 2] (fun i => 1%Z)) [r_x; g_y; g_z] 3 [] [] false.
Theorem C17_gap_refuted : exists (a : stensor Z) p, wf a /\ sound Z.eqb (splates a) /\ In p (splates a) /\
  exists r, reduce_plates Z.eqb no_anc zops top_ctx (PT a) [ByName "x"; ByName (pname p)] true 100 = Ok r /\ In p (splates r).
Proof.
  exists r_d, g_z. split; [constructor; try reflexivity; simpl|split].
  - repeat constructor; simpl; intuition discriminate.
  - intros p H. intuition (subst; simpl; lia).
  - assert (A : forall p, ancestry (splates r_d) p -> p = r_x \/ p = g_y \/ p = g_z) by (intros p Hp; apply ancestry_ups in Hp; simpl in Hp; intuition).
    constructor.
    + split; [repeat constructor; simpl; intuition discriminate|]. split; [intros p [<-|[<-|[<-|[]]]]; repeat constructor; simpl; intuition discriminate|].
      intros p q Hp Hq E. destruct (A _ Hp) as [|[|]], (A _ Hq) as [|[|]]; subst; try reflexivity; discriminate.
    + intros p q Hp Hq E. destruct (A _ Hp) as [|[|]], (A _ Hq) as [|[|]]; subst; try reflexivity; discriminate.
    + intros p Hp. destruct (A _ Hp) as [|[|]]; subst; reflexivity.
    + intros p Hp. destruct (A _ Hp) as [|[|]]; subst; simpl; lia.
  - split; [simpl; auto|]. apply ok_elim. vm_compute. auto.
Qed.
Print Assumptions C17_gap_refuted.

(** C19. The value of variance. *)
Theorem C19_variance_partial : forall (V : Type) (veq : V -> V -> bool) anc_unwrap (o : sops V), is_ring o ->
  forall v vp args (a : stensor V) (ps : list (plate V)) p detach base,
  asks v args a ps -> wf a -> sound veq (splates a) -> resolves a vp p -> In p ps ->
  no_gaps (splates a) -> ~ cyclic (splates a) -> (forall q, In q (splates a) -> weight_fits (splates a) q) ->
  exists r k, variance veq anc_unwrap o top_ctx v vp args detach base = Ok r /\ splates r = [] /\
    s_event_shape r = repeat 1 k /\ ((forall q, In q (splates a) -> ~ padded (splates a) q) -> k = 0) /\
    forall s, den r s (repeat 0 k) = mean_deviation2 o detach a p s.
Proof. exact (fun V veq anc o H => @variance_spec V veq anc o H). Qed.
Print Assumptions C19_variance_partial.

(** The documentation calls the last argument the plates to reduce, but it has no effect beyond the check: for every choice of
    plates, also if only the plate of the variance is passed, no plate is left. *)
Theorem C19_plates_refuted : forall (V : Type) (veq : V -> V -> bool) anc_unwrap (o : sops V), is_ring o ->
  forall vp args (a : stensor V) (ps : list (plate V)) p detach base,
  asks (PT a) args a ps -> wf a -> sound veq (splates a) -> resolves a vp p -> In p ps ->
  no_gaps (splates a) -> ~ cyclic (splates a) -> (forall q, In q (splates a) -> weight_fits (splates a) q) ->
  (forall q, In q (splates a) -> ~ padded (splates a) q) ->
  exists r, variance veq anc_unwrap o top_ctx (PT a) vp args detach base = Ok r /\ splates r = [] /\ s_event_shape r = [] /\
    el (st r) [] = mean_deviation2 o detach a p (fun _ => 0).
Proof.
  intros V veq anc o H vp args a ps p detach base Ha Hwf Hs Hr Hp Hg Hc Hw Hn.
  destruct (C19_variance_partial V veq anc o H (PT a) vp args a ps p detach base Ha Hwf Hs Hr Hp Hg Hc Hw) as [r [k [E [E1 [E2 [E3 E4]]]]]].
  rewrite (E3 Hn) in E2, E4. exists r. split; [exact E|]. split; [exact E1|]. split; [exact E2|].
  rewrite <- (E4 (fun _ => 0)). unfold den, wide. rewrite E1. reflexivity.
Qed.
Print Assumptions C19_plates_refuted.
Example C19_plates_witness : asks (PT r_a) [ByName "y"] r_a [r_y] /\
  exists r, variance Z.eqb no_anc zops top_ctx (PT r_a) (ByName "y") [ByName "y"] true 100 = Ok r /\ splates r = [] /\ shape (st r) = [].
Proof.
  split; [constructor; [discriminate|]; constructor; [|constructor]; apply (V_name r_a r_y); simpl; auto|].
  apply ok_elim. vm_compute. split; reflexivity.
Qed.

(** That value is non-negative for non-negative weights. *)
Theorem C19_non_negative : forall (V : Type) (o : sops V) le detach (a : stensor V) p, ordered o le -> wf a ->
  (forall q, In q (splates a) -> non_negative o le detach (splates a) q) ->
  forall s, le (o_zero o) (mean_deviation2 o detach a p s).
Proof. exact (fun V o => @mean_deviation2_nonneg V o). Qed.
Print Assumptions C19_non_negative.

(** It does not change when a constant is added. *)
Theorem C19_shift : forall (V : Type) (o : sops V), is_ring o -> forall detach (a b : stensor V) p c s, wf a -> In p (splates a) ->
  splates b = splates a -> s_event_shape b = s_event_shape a -> normalised o detach (splates a) p ->
  (forall s' e, in_range s' (splates a) -> valid e (s_event_shape a) -> den b s' e = o_add o (den a s' e) c) ->
  mean_deviation2 o detach b p s = mean_deviation2 o detach a p s.
Proof. exact (fun V o => @mean_deviation2_shift V (fun _ a => Ok a) o). Qed.
Print Assumptions C19_shift.

(** It is zero when the tensor does not vary along the plate. *)
Theorem C19_constant : forall (V : Type) (o : sops V), is_ring o -> forall detach (a : stensor V) p s, wf a -> In p (splates a) ->
  normalised o detach (splates a) p ->
  (forall s' s'' e, in_range s' (splates a) -> in_range s'' (splates a) -> (forall x, x <> pname p -> s' x = s'' x) ->
     valid e (s_event_shape a) -> den a s' e = den a s'' e) ->
  mean_deviation2 o detach a p s = o_zero o.
Proof. exact (fun V o => @mean_deviation2_constant V (fun _ a => Ok a) o). Qed.
Print Assumptions C19_constant.

(** A plate with weights 3 and -2 (summing to one) is normalised; values 1 and 5 have weighted mean -7 and mean squared
    deviation 3*64 - 2*144 = -96: with a negative weight the result is negative. With weights 1 and 0 it is 0. *)
Definition v_p (u w : Z) : plate Z := mkPlate PlainPlate "p" 2 (WTorch (mkten [2] (fun i => if nth 0 i 0 =? 0 then u else w))) [].
Definition v_a (u w : Z) : stensor Z := mkS 0 (mkten [2] (fun i => (1 + 4 * Z.of_nat (nth 0%nat i 0%nat))%Z)) [v_p u w] 1 [] [] false.
Lemma v_ordered : ordered zops Z.le.
Proof.
  constructor; simpl; intros; try lia; try apply Z.square_nonneg.
Qed.
Example C19_witness : normalised zops true [v_p 3 (-2)] (v_p 3 (-2)) /\ normalised zops true [v_p 1 0] (v_p 1 0) /\
  non_negative zops Z.le true [v_p 1 0] (v_p 1 0) /\
  match variance Z.eqb no_anc zops top_ctx (PT (v_a 3 (-2))) (ByName "p") [] true 100 with
  | Ok r => (splates r, el (st r) []) = ([], (-96)%Z)
  | Err _ => False
  end.
Proof.
  split; [intros s Hs; reflexivity|]. split; [intros s Hs; reflexivity|]. split.
  - intros s Hs. unfold weight_at. simpl. destruct (s "p" =? 0); lia.
  - vm_compute. reflexivity.
Qed.

(** A variance plate that is not among the plates is rejected. *)
Theorem C19_other_plate : forall (V : Type) (veq : V -> V -> bool) anc_unwrap (o : sops V) v vp args (a : stensor V) (ps : list (plate V)) detach base,
  asks v args a ps -> wf a -> (forall p, In p ps -> pname p <> match vp with ByName n => n | ByPlate q => pname q end) ->
  variance veq anc_unwrap o top_ctx v vp args detach base = Err ValueError.
Proof. exact (fun V veq anc o => @variance_other_plate V veq anc o). Qed.
Print Assumptions C19_other_plate.
Example C19_other_plate_witness : asks (PT r_a) [ByName "y"] r_a [r_y] /\
  variance Z.eqb no_anc zops top_ctx (PT r_a) (ByPlate r_z) [ByName "y"] true 100 = Err ValueError.
Proof.
  split; [|vm_compute; reflexivity]. constructor; [discriminate|]. constructor; [|constructor].
  apply (V_name r_a r_y). simpl. auto.
Qed.
