(** A constant baseline, at second order; and the one-variable program as an instance of the general theorems. *)
From Coq Require Import String List Arith Bool ZArith Lia Permutation Reals Lra FunctionalExtensionality.
From Verif Require Import Base Torch Plates Wrap OrderPlates Scalar Reduce Graph Surrogate SpecTensor SpecWrap SpecOrder SpecReduce SpecGraph
  SpecSurrogate SpecProgram Dual Curves OpProofs OrderProofs ReduceProofs2 SurrogateProofs SurrogateProofs2 SurrogateProofs3 ProgramProofs ProgramWitness
  BiasProofs BiasProofs2.
Import ListNotations.
Open Scope string_scope.
Open Scope nat_scope.
Open Scope list_scope.

(** ** The constant baseline *)
Section Constant.
Variable t0 : R.
Variable f : bool -> C.
Let ops : sops C := curve_ops t0.
Definition k_half : C := fun _ => (/ 2)%R.
Definition k_lgp (v : C) : C := bern v (fun t => t).
Definition k_val (b : bool) : C := fun _ => num b.
Definition k_prog : program C bool :=
  mkProgram [0] (fun _ => [b_plate k_half]) (fun _ => []) (fun _ _ _ => [true; false]) (fun _ _ r => k_lgp (k_val (r 0))).
(** The probabilities of one and zero, and the expected cost. *)
Definition k_p (b : bool) (t : R) : R := if b then sig t else (1 - sig t)%R.
Definition k_F (t : R) : R := (k_p true t * f true t + k_p false t * f false t)%R.
Lemma k_pos : forall b t, (0 < k_p b t)%R.
Proof. intros b t. destruct (sig_pos t). destruct b; simpl; lra. Qed.
Lemma k_lg : forall b, k_lgp (k_val b) = fun t => ln (k_p b t).
Proof.
  intros b. apply functional_extensionality. intros t. unfold k_lgp, k_val, bern. destruct b; cbn [num k_p]; ring.
Qed.
Lemma k_box : forall b t, bx ops curve_exp k_lgp k_val b t = (k_p b t / k_p b t0)%R.
Proof.
  intros b t. unfold bx, box. rewrite k_lg. unfold curve_exp, ops, curve_ops. cbn [o_sub o_det].
  unfold Rminus. rewrite exp_plus, exp_Ropp, !exp_ln by apply k_pos. reflexivity.
Qed.
Lemma k_sampled : forall w (g : bool -> bool -> C) t, sampled ops curve_exp k_prog w (fun w => g (w 0 [0]) (w 0 [1])) t =
  let e := fun b b' => (k_p b t0 * k_p b' t0)%R in
  (e true true * g true true t + e true false * g true false t + e false true * g false true t + e false false * g false false t)%R.
Proof.
  intros w g t. unfold sampled. cbn -[curve_exp ops k_lgp k_val k_p].
  change (SpecProgram.prob curve_exp k_prog 0) with (fun (s : assignment) (r : nat -> bool) x => curve_exp (k_lgp (k_val (put r 0 x 0)))). cbv beta.
  rewrite !put_same, !k_lg. unfold ops, curve_ops, curve_exp. cbn [o_add o_mul o_det o_zero]. rewrite !exp_ln by apply k_pos. ring.
Qed.
Theorem constant_baseline : forall b : R, exists loss : @world bool -> C,
  (forall w, exists t, backward_value c_eq c_anc ops curve_exp 20 b_heap
     (b_nodes c_eq c_anc ops curve_exp k_half k_lgp k_val (Some (b_const (fun _ => b))) (b_cost k_half f w) w) [1] tt 100 = Ok t /\ el t [] = loss w) /\
  forall w t, sampled ops curve_exp k_prog w loss t = (k_F t - b * ((sig t - sig t0) * (sig t - sig t0) / (sig t0 * (1 - sig t0))))%R.
Proof.
  intros b. set (g := with_baseline ops curve_exp k_half k_lgp k_val f (fun _ => b)).
  exists (fun w : @world bool => g (w 0 [0]) (w 0 [1])). split.
  - intros w. exact (const_loss c_eq c_anc ops curve_exp (curve_ring t0) k_half k_lgp k_val f (fun _ => b) w).
  - intros w t. rewrite (k_sampled w g). unfold g, with_baseline.
    assert (E : forall x y, o_mul ops k_half (o_add ops
       (o_mul ops (bx ops curve_exp k_lgp k_val x) (o_add ops (f x) (o_mul ops (o_sub ops (o_one ops) (bx ops curve_exp k_lgp k_val x)) (fun _ => b))))
       (o_mul ops (bx ops curve_exp k_lgp k_val y) (o_add ops (f y) (o_mul ops (o_sub ops (o_one ops) (bx ops curve_exp k_lgp k_val y)) (fun _ => b))))) t =
      (/ 2 * ((k_p x t / k_p x t0) * (f x t + (1 - k_p x t / k_p x t0) * b) + (k_p y t / k_p y t0) * (f y t + (1 - k_p y t / k_p y t0) * b)))%R).
    { intros x y. unfold ops at 1 2 3 4 5 6 7. cbn [curve_ops o_mul o_add o_sub o_one]. rewrite <- !k_box. reflexivity. }
    cbv zeta. rewrite !E. unfold k_F. destruct (sig_pos t0). cbn [k_p]. field. lra.
Qed.
End Constant.

(** The second derivative of the difference. *)
Lemma sig_deriv : forall t, derivable_pt_lim sig t (sig t * (1 - sig t))%R.
Proof.
  intros t. assert (P : forall u, (0 < 1 + exp (- u))%R) by (intros u; assert (H := exp_pos (- u)); lra).
  assert (D : derivable_pt_lim (fun u => / (1 + exp (- u)))%R t (- (- exp (- t)) / ((1 + exp (- t)) * (1 + exp (- t))))%R).
  { assert (D1 : derivable_pt_lim (fun u => 1 + exp (- u))%R t (- exp (- t))%R).
    { replace (- exp (- t))%R with (0 + exp (- t) * - (1))%R by ring.
      apply (derivable_pt_lim_plus (fct_cte 1) (fun u => exp (- u))); [apply derivable_pt_lim_const|].
      apply (derivable_pt_lim_comp Ropp exp); [apply derivable_pt_lim_opp, derivable_pt_lim_id|apply derivable_pt_lim_exp]. }
    pose proof (derivable_pt_lim_div (fct_cte 1) (fun u => 1 + exp (- u))%R t 0 _ (derivable_pt_lim_const 1 t) D1) as D2.
    assert (N : (1 + exp (- t) <> 0)%R) by (specialize (P t); lra). specialize (D2 N).
    intros eps He. destruct (D2 eps He) as [d Hd]. exists d. intros h Hh Hl. specialize (Hd h Hh Hl).
    unfold div_fct, fct_cte, Rsqr in Hd. replace (/ (1 + exp (- (t + h))))%R with (1 / (1 + exp (- (t + h))))%R by (unfold Rdiv; ring).
    replace (/ (1 + exp (- t)))%R with (1 / (1 + exp (- t)))%R by (unfold Rdiv; ring).
    replace (- - exp (- t) / ((1 + exp (- t)) * (1 + exp (- t))))%R with ((0 * (1 + exp (- t)) - - exp (- t) * 1) / ((1 + exp (- t)) * (1 + exp (- t))))%R; [exact Hd|].
    field. lra. }
  unfold sig at 1. replace (sig t * (1 - sig t))%R with (- - exp (- t) / ((1 + exp (- t)) * (1 + exp (- t))))%R; [exact D|].
  unfold sig. specialize (P t). field. lra.
Qed.
Theorem constant_second : forall t0 b : R,
  let gap t := (- b * ((sig t - sig t0) * (sig t - sig t0) / (sig t0 * (1 - sig t0))))%R in
  let gap' t := (- b * (2 * (sig t - sig t0) * (sig t * (1 - sig t)) / (sig t0 * (1 - sig t0))))%R in
  (forall t, derivable_pt_lim gap t (gap' t)) /\ gap' t0 = 0%R /\ derivable_pt_lim gap' t0 (- (2 * b * (sig t0 * (1 - sig t0))))%R.
Proof.
  intros t0 b gap gap'. destruct (sig_pos t0) as [P1 P2].
  assert (D0 : forall t, derivable_pt_lim (fun t => sig t - sig t0)%R t (sig t * (1 - sig t))%R).
  { intros t. replace (sig t * (1 - sig t))%R with (sig t * (1 - sig t) - 0)%R by ring.
    apply (derivable_pt_lim_minus sig (fct_cte (sig t0))); [apply sig_deriv|apply derivable_pt_lim_const]. }
  set (k := (- b / (sig t0 * (1 - sig t0)))%R).
  split; [|split].
  - intros t. assert (E : gap = mult_real_fct k (mult_fct (fun t => sig t - sig t0)%R (fun t => sig t - sig t0)%R)).
    { apply functional_extensionality. intros u. unfold gap, mult_real_fct, mult_fct, k. field. lra. }
    rewrite E. replace (gap' t) with (k * (sig t * (1 - sig t) * (sig t - sig t0) + (sig t - sig t0) * (sig t * (1 - sig t))))%R by (unfold gap', k; field; lra).
    apply derivable_pt_lim_scal. exact (derivable_pt_lim_mult _ _ t _ _ (D0 t) (D0 t)).
  - unfold gap'. field. lra.
  - assert (D1 : derivable_pt_lim (fun t => 1 - sig t)%R t0 (- (sig t0 * (1 - sig t0)))%R).
    { replace (- (sig t0 * (1 - sig t0)))%R with (0 - sig t0 * (1 - sig t0))%R by ring.
      apply (derivable_pt_lim_minus (fct_cte 1) sig); [apply derivable_pt_lim_const|apply sig_deriv]. }
    assert (E : gap' = mult_real_fct (2 * k) (mult_fct (fun t => sig t - sig t0)%R (mult_fct sig (fun t => 1 - sig t)%R))).
    { apply functional_extensionality. intros u. unfold gap', mult_real_fct, mult_fct, k. field. lra. }
    rewrite E. pose proof (derivable_pt_lim_mult _ _ t0 _ _ (D0 t0) (derivable_pt_lim_mult _ _ t0 _ _ (sig_deriv t0) D1)) as D2.
    pose proof (derivable_pt_lim_scal _ (2 * k) _ _ D2) as D3.
    match type of D3 with derivable_pt_lim _ _ ?x => replace (- (2 * b * (sig t0 * (1 - sig t0))))%R with x; [exact D3|] end.
    unfold mult_fct, k. field. lra.
Qed.

(** ** The one-variable program, with dual numbers, meets the hypotheses of the theorems about baselines *)
Lemma unary_log_prob : forall {V} veq anc_unwrap (FP : list (plate V)) a f, sound veq FP -> over FP a ->
  has_log_prob a (fun x base => torch_op1 veq anc_unwrap top_ctx f (PT x) base) (s_event_shape a) (fun s e => f (den a s e)).
Proof.
  intros V veq anc_unwrap FP a f HS [Wa Ia Ca] b base [Wb Pb Eb Db].
  assert (Ib : incl (splates b) FP) by (intros x Hx; apply Ia; exact (Permutation_in _ (Permutation_sym Pb) Hx)).
  assert (HC : callable veq [b]) by (apply (over_callable veq FP HS); [constructor; [exact Wb|constructor]|intros t [<-|[]]; auto]).
  destruct (op1_spec veq anc_unwrap f b base HC) as [r [R1 [R2 [R3 [R4 [R5 [R6 [R7 R8]]]]]]]].
  exists r. split; [exact R1|]. split; [exact R4|]. split; [rewrite R2; now apply Permutation_sym|]. split; [congruence|].
  intros s e Hs He. rewrite R8; [f_equal; now apply Db| |now rewrite Eb]. exact (in_range_perm s _ _ Pb Hs).
Qed.
Section Instance.
Variable t0 : R.
Variable f : bool -> RD.
Variable S : Type.
Variable bl : option (@baseline RD S).
Notation world := (@world bool).
Let nodes (w : world) := b_nodes rd_eq rd_anc rd_ops rd_exp d_half (d_lgp t0) d_val bl (b_cost d_half f w) w.
Lemma rd_eq_refl : forall x, rd_eq x x = true.
Proof. intros x. unfold rd_eq. destruct (Req_EM_T (fst x) (fst x)), (Req_EM_T (snd x) (snd x)); auto; congruence. Qed.
Lemma d_sound : sound rd_eq [d_plate].
Proof.
  assert (A : forall p, ancestry [d_plate] p -> p = d_plate).
  { intros p Hp. apply ancestry_ups in Hp. simpl in Hp. intuition. }
  assert (E : peq rd_eq d_plate d_plate = true) by (unfold peq, d_plate, b_plate; cbn; try rewrite rd_eq_refl; reflexivity).
  constructor.
  - split; [|split].
    + repeat constructor; simpl; intuition discriminate.
    + intros p [<-|[]]; repeat constructor; simpl; intuition discriminate.
    + intros p q Hp Hq _. apply A in Hp. apply A in Hq. subst. exact E.
  - intros p q Hp Hq _. apply A in Hp. apply A in Hq. now subst.
  - intros p Hp. apply A in Hp. now subst.
  - intros p Hp. apply A in Hp. subst. simpl. lia.
Qed.
Lemma d_plates_ok : plates_ok rd_eq [d_plate].
Proof.
  constructor; [exact d_sound| |intros p [<-|[]]; left; reflexivity].
  intros [c [Hne [Hi Hp]]]. destruct c as [|q c]; [congruence|]. destruct (Hp q (or_introl eq_refl)) as [p [Hpc H]].
  specialize (Hi q (or_introl eq_refl)). destruct Hi as [<-|[]]. exact H.
Qed.
Lemma d_closed : closed_under (h_parents b_heap) [0; 1].
Proof. intros v u d Hv Hw. simpl in Hv. destruct Hv as [<-|[<-|[]]]; cbv in Hw; repeat (destruct Hw as [Hw|Hw]); try contradiction; injection Hw; intros; subst; simpl; auto. Qed.
Lemma d_reach : forall a, reachable (h_parents b_heap) false 1 a -> a = 0 \/ a = 1.
Proof.
  assert (G : forall x y, reachable (h_parents b_heap) false x y -> x <= 1 -> y <= 1).
  { intros x y H. induction H as [x|x y z Hxy Hyz IH]; auto. intros Hx. apply IH. clear IH Hyz.
    destruct Hxy as [b [Hin _]]. destruct x as [|[|x]]; [..|lia]; cbv in Hin; repeat (destruct Hin as [Hin|Hin]); try contradiction; injection Hin; intros; lia. }
  intros a H. apply G in H; lia.
Qed.
Lemma d_over : forall a : stensor RD, splates a = [d_plate] -> shape (st a) = [2] -> s_event_shape a = [] -> s_plate_dims a = 1 -> wf a -> over [d_plate] a.
Proof. intros a E _ _ _ W. constructor; auto; rewrite E; [apply incl_refl|]. intros p q [<-|[]] Hq. destruct Hq. Qed.
Ltac wf_conc := constructor; try reflexivity; simpl; [repeat constructor; simpl; intuition discriminate|intros p H; intuition (subst; simpl; lia)].
Lemma d_setup : forall w, score_setup rd_eq rd_anc rd_ops rd_exp (nodes w) b_heap 1 [d_plate] [0] (fun _ => bl)
  (fun a s => pg_logp (d_prog t0 d_plate) a s (along (d_prog t0 d_plate) w s)).
Proof.
  intros w.
  assert (Sc : scored (nodes w) 1 0 true).
  { exact (Sc_path (nodes w) 1 0 2 (b_lp rd_eq rd_anc (d_lgp t0)) (score_method rd_eq rd_anc rd_ops rd_exp bl) false eq_refl eq_refl). }
  assert (Ox : over [d_plate] (b_x d_half d_val w)) by (apply d_over; try reflexivity; wf_conc).
  constructor.
  - exact d_plates_ok.
  - apply d_over; try reflexivity. wf_conc.
  - reflexivity.
  - intros p Hp. left. simpl in Hp. destruct Hp as [<-|[]]. intros q Hq. destruct Hq.
  - repeat constructor; simpl; intuition discriminate.
  - intros a. split.
    + intros [<-|[]]. split; [|exact Sc].
      apply (Relation_Operators.rt1n_trans _ _ 1 0); [|constructor]. exists false. split; [left; reflexivity|discriminate].
    + intros [Hr Hs]. apply d_reach in Hr. destruct Hr as [-> | ->]; simpl; auto. inversion Hs; discriminate.
  - intros a Hr. apply d_reach in Hr. destruct Hr as [-> | ->].
    + exists true. exact Sc.
    + exists false. now apply Sc_det.
  - intros a [<-|[]]. exact Ox.
  - intros a [<-|[]].
    exists 2, (b_lp rd_eq rd_anc (d_lgp t0)), (score_method rd_eq rd_anc rd_ops rd_exp bl), [], (fun s e => d_lgp t0 (den (b_x d_half d_val w) s e)).
    split; [reflexivity|]. split; [reflexivity|]. split.
    * apply (unary_log_prob rd_eq rd_anc [d_plate] (b_x d_half d_val w) (d_lgp t0) d_sound Ox).
    * intros s _. unfold d_prog, along, den. cbn. apply injective_projections; cbn; ring.
  - intros p Hp. left. exact Hp.
Qed.
Lemma d_sums : forall b : bool, osum rd_ops (map (fun b => rd_exp (d_lgp t0 (d_val b))) [true; false]) = o_one rd_ops.
Proof.
  intros _. cbn [map]. rewrite !d_prob. unfold osum, rd_ops, dual_ops, real_ops. cbn. f_equal; ring.
Qed.
Lemma d_program_ok : program_ok rd_ops rd_exp (d_prog t0 d_plate).
Proof.
  constructor.
  - repeat constructor; simpl; intuition discriminate.
  - intros l a r E. intros b Hb. destruct Hb.
  - intros a _; repeat constructor; simpl; intuition discriminate.
  - intros a b _ Hb. destruct Hb.
  - intros a s s' r r' [<-|[]] Hs Hd; (split; [reflexivity|]); intros E; cbn; rewrite E; auto.
  - intros a s r [<-|[]]. exact (d_sums true).
Qed.
Lemma d_depends : depends_on rd_ops rd_exp (d_prog t0 d_plate) [d_plate] [0] [0] (fun _ r => f (r 0)).
Proof.
  constructor.
  - apply incl_refl.
  - intros a [<-|[]] b Hb; destruct Hb.
  - intros a p [<-|[]] Hp; exact Hp.
  - apply incl_refl.
  - intros s r r' H. rewrite (H 0) by (simpl; auto). reflexivity.
  - intros a s r Ha Hn. contradiction.
Qed.
Lemma d_den : forall w s, den (nd_t (nodes w 1)) s [] = f (along (d_prog t0 d_plate) w s 0).
Proof. reflexivity. Qed.
End Instance.
