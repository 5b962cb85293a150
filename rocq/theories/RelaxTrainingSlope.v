(** The derivative of the objective of the control variate with respect to one number. *)
From Coq Require Import String List Arith Bool ZArith Lia Reals Lra FunctionalExtensionality.
From Coquelicot Require Import Coquelicot.
From Verif Require Import Base Torch Plates Wrap Scalar Reduce Curves RelaxTraining SpecTensor SpecWrap SpecOrder SpecReduce SpecRelaxTraining ListLemmas IndexLemmas.
Import ListNotations.
Open Scope string_scope.
Open Scope nat_scope.
Open Scope list_scope.

Section Slope.
Variable t0 : R.
Notation V := (R -> R).
Notation o := (curve_ops t0).
Notation N l := (map (@pname V) l).

Lemma slope_osum : forall (A : Type) (l : list A) (f : A -> V) (f' : A -> R), (forall x, In x l -> is_derive (f x) t0 (f' x)) ->
  is_derive (osum o (map f l)) t0 (osum o (map (fun x (_ : R) => f' x) l) t0).
Proof.
  induction l as [|a l IH]; intros f f' H; cbn [map osum fold_right].
  - apply (is_derive_const 0%R).
  - apply (is_derive_plus (V := R_NormedModule) (f a) (osum o (map f l))); [apply H; simpl; auto|apply IH; intros x Hx; apply H; simpl; auto].
Qed.

Lemma slope_sum_over : forall ps (f : assignment -> V) (f' : assignment -> R) s, NoDup (N ps) ->
  (forall s', (forall p, In p ps -> s' (pname p) < pn p) -> is_derive (f s') t0 (f' s')) ->
  is_derive (sum_over o ps f s) t0 (sum_over o ps (fun s' _ => f' s') s t0).
Proof.
  assert (G : forall ps (f : assignment -> V) (f' : assignment -> R) s, NoDup (N ps) ->
    (forall s', (forall x, ~ In x (N ps) -> s' x = s x) -> (forall p, In p ps -> s' (pname p) < pn p) -> is_derive (f s') t0 (f' s')) ->
    is_derive (sum_over o ps f s) t0 (sum_over o ps (fun s' _ => f' s') s t0)).
  { induction ps as [|p ps IH]; intros f f' s ND H; cbn [sum_over].
    - apply H; [auto|intros p []].
    - simpl in ND. inversion ND as [|? ? Hn ND']; subst.
      assert (E : osum o (map (fun i => sum_over o ps (fun (s' : assignment) (_ : R) => f' s') (set_to s (pname p) i)) (seq 0 (pn p))) t0 =
                  osum o (map (fun i (_ : R) => sum_over o ps (fun (s' : assignment) (_ : R) => f' s') (set_to s (pname p) i) t0) (seq 0 (pn p))) t0).
      { generalize (seq 0 (pn p)). induction l as [|a l IHl]; [reflexivity|]. cbn [map osum fold_right]. cbn. f_equal. exact IHl. }
      rewrite E. apply slope_osum. intros i Hi. apply in_seq in Hi. apply IH; auto. intros s' H1 H2. apply H.
      + intros x Hx. simpl in Hx. rewrite H1 by tauto. unfold set_to. destruct (String.eqb_spec x (pname p)); subst; tauto.
      + intros q [<-|Hq]; auto. rewrite H1 by auto. unfold set_to. rewrite String.eqb_refl. lia. }
  intros ps f f' s ND H. apply G; auto.
Qed.

Definition wt (L ps : list (plate V)) (s : assignment) : V := oprod o (map (fun p => o_det o (weight_at L p s)) ps).
Lemma det_prod : forall L (ps : list (plate V)) s, exists c, wt L ps s = fun _ => c.
Proof.
  intros L ps s. unfold wt. induction ps as [|p ps [c IH]].
  - exists 1%R. reflexivity.
  - eexists. cbn [map oprod fold_right]. unfold oprod in IH. rewrite IH. cbn. reflexivity.
Qed.
Lemma weighted_wt : forall L ps (f : assignment -> V) s, weighted_sum o true L ps f s = sum_over o ps (fun s' => o_mul o (wt L ps s') (f s')) s.
Proof. reflexivity. Qed.

Lemma slope_weighted : forall L ps (f : assignment -> V) (f' : assignment -> R) s, NoDup (N ps) ->
  (forall s', (forall p, In p ps -> s' (pname p) < pn p) -> is_derive (f s') t0 (f' s')) ->
  is_derive (weighted_sum o true L ps f s) t0 (weighted_sum o true L ps (fun s' _ => f' s') s t0).
Proof.
  intros L ps f f' s ND H. rewrite !weighted_wt.
  assert (E : (fun s' => o_mul o (wt L ps s') (fun _ : R => f' s')) = (fun s' (_ : R) => (wt L ps s' t0 * f' s')%R)).
  { apply functional_extensionality. intros s'. destruct (det_prod L ps s') as [c ->]. reflexivity. }
  rewrite E. apply slope_sum_over; auto. intros s' Hs'. destruct (det_prod L ps s') as [c ->]. cbn [o_mul curve_ops].
  apply (is_derive_scal (f s') t0 c (f' s')). auto.
Qed.

(** The derivative of the objective is the weighted mean of twice the gradient times its derivative. *)
Lemma slope_variance : forall d : stensor V, wf d ->
  (forall s e, in_range s (splates d) -> valid e (s_event_shape d) -> ex_derive (den d s e) t0) ->
  Derive (gradient_variance o d) t0 =
  weighted_sum o true (splates d) (splates d)
    (fun s => osum o (map (fun e (_ : R) => (2 * (den d s e t0 * Derive (den d s e) t0))%R) (indices (s_event_shape d)))) (fun _ => 0) t0.
Proof.
  intros d Wd H. unfold gradient_variance.
  set (F := fun s => osum o (map (fun e (_ : R) => (2 * (den d s e t0 * Derive (den d s e) t0))%R) (indices (s_event_shape d))) t0).
  rewrite (is_derive_unique _ _ _ (slope_weighted (splates d) (splates d) (squared_norm o d) F (fun _ => 0) (wf_names d Wd)
    ltac:(intros s Hs; apply slope_osum; intros e He; apply in_indices in He; specialize (H s e Hs He); apply Derive_correct in H;
          replace (2 * (den d s e t0 * Derive (den d s e) t0))%R with (Derive (den d s e) t0 * den d s e t0 + den d s e t0 * Derive (den d s e) t0)%R by ring;
          apply (is_derive_mult (den d s e) (den d s e) t0 _ _ H H Rmult_comm)))).
  rewrite !weighted_wt. f_equal. f_equal. apply functional_extensionality. intros s. f_equal. apply functional_extensionality. intros t. unfold F.
  generalize (indices (s_event_shape d)). induction l as [|e l IH]; [reflexivity|]. cbn [map osum fold_right]. cbn. f_equal. exact IH.
Qed.
End Slope.
