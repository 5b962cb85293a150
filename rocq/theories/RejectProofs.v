(** Inputs the reductions reject, and what order_plates may list. *)
From Coq Require Import String List Arith Bool ZArith Lia Permutation.
From Verif Require Import Base Torch Plates Wrap OrderPlates Scalar Reduce SpecTensor SpecWrap SpecOrder SpecReduce OrderProofs
  ReduceProofs ReduceProofs2 VarianceProofs.
Import ListNotations.

Section Reject.
Context {V : Type}.
Variable veq : V -> V -> bool.
Variable anc_unwrap : plate V -> stensor V -> res (stensor V).

Lemma bind_inv : forall {A B} (x : res A) (f : A -> res B) r, bind x f = Ok r -> exists a, x = Ok a /\ f a = Ok r.
Proof. intros A B [a|e] f r H; [eauto|discriminate]. Qed.

Lemma kahn_given : forall fuel (l : list (plate V)) out roots sorted ins r ins',
  kahn veq fuel l out roots sorted ins = Ok (r, ins') -> (forall p, In p sorted -> pin veq p l = true) -> forall p, In p r -> pin veq p l = true.
Proof.
  induction fuel as [|fuel IH]; intros l out roots sorted ins r ins' H Hs.
  - destruct roots; [injection H as <- _; auto|discriminate].
  - destruct roots as [|n rest]; [injection H as <- _; auto|]. cbn [kahn] in H. cbv zeta in H.
    destruct (dget (pname n) out); [|discriminate].
    apply bind_inv in H. destruct H as [[roots' ins1] [_ H]]. eapply IH; [exact H|].
    destruct (pin veq n l) eqn:E; [|exact Hs]. intros p Hp. apply in_app_or in Hp. destruct Hp as [Hp|[<-|[]]]; auto.
Qed.
(** Whatever the list: only given plates are listed. *)
Theorem order_given : forall (l : list (plate V)) b r, order_plates veq l b = Ok r -> forall p, In p r -> pin veq p l = true.
Proof.
  intros l b r H. unfold order_plates in H. apply bind_inv in H. destruct H as [[sorted ins] [K H]].
  destruct (existsb _ ins); [discriminate|]. injection H as <-. intros p Hp.
  apply (kahn_given _ _ _ _ _ _ _ _ K); [intros q []|]. destruct b; auto. now apply in_rev.
Qed.

Variable o : sops V.
Theorem reduce_missing_parent : forall L p (a : stensor V) detach base obj w names, sound veq L -> In p L -> weight_fits L p ->
  pweight p = WStorch obj w names -> 2 <= length (shape w) ->
  (exists q, In q (pparents p) /\ pin veq q (splates a) = false) -> plate_reduce veq anc_unwrap o top_ctx p a detach base = Err ValueError.
Proof.
  intros L p a detach base obj w names HS Hp Hf Ew Hw [q [Hq Hm]]. unfold plate_reduce.
  destruct (storch_weight veq anc_unwrap o L p detach base obj w names HS Hp Ew Hf) as [t [T1 [T2 [T3 [_ [_ [T6 _]]]]]]].
  rewrite T1. cbn [bind]. unfold weight_fits in Hf. rewrite Ew in Hf. destruct Hf as [Hn [_ [_ [_ [_ Hsh]]]]].
  assert (Hd : val_ndim (PT t) = length (shape w)).
  { simpl. unfold ndim. rewrite (wf_shape t T2), T3, app_nil_r, map_length, Hsh, map_length, <- T6. now rewrite map_length. }
  rewrite Hd.
  replace (pn p =? 1) with false by (symmetry; apply Nat.eqb_neq; lia).
  replace (length (shape w) =? 0) with false by (symmetry; apply Nat.eqb_neq; lia).
  replace (length (shape w) =? 1) with false by (symmetry; apply Nat.eqb_neq; lia).
  replace (existsb (fun q => negb (pin veq q (splates a))) (pparents p)) with true; [reflexivity|].
  symmetry. apply existsb_exists. exists q. split; auto. now rewrite Hm.
Qed.

Theorem variance_other_plate : forall v vp args (a : stensor V) (ps : list (plate V)) detach base, asks v args a ps -> wf a ->
  (forall p, In p ps -> pname p <> match vp with ByName n => n | ByPlate q => pname q end) ->
  variance veq anc_unwrap o top_ctx v vp args detach base = Err ValueError.
Proof.
  intros v vp args a ps detach base HA Hw Hn. unfold variance.
  destruct (asks_handle v args a ps base HA Hw) as [a' [E _]]; try exact anc_unwrap. rewrite E. cbn [bind].
  replace (variance_plate veq ps vp) with (@Err (plate V) ValueError); [reflexivity|]. symmetry. clear E HA. destruct vp as [n|q]; simpl.
  - induction ps as [|p ps IH]; auto. simpl. destruct (String.eqb_spec (pname p) n) as [e|e]; [elim (Hn p (or_introl eq_refl) e)|]. apply IH. intros; apply Hn; now right.
  - replace (existsb (fun p => peq veq p q) ps) with false; auto. symmetry. induction ps as [|p ps IH]; auto. simpl.
    replace (peq veq p q) with false; [apply IH; intros; apply Hn; now right|]. symmetry.
    specialize (Hn p (or_introl eq_refl)).
    unfold peq, anc_eq, plate_eq_base.
    destruct (pcls p) as [|vi ov], (pcls q) as [|vi' ov']; auto;
      rewrite ?(proj2 (String.eqb_neq (pname p) (pname q)) Hn), ?(proj2 (String.eqb_neq (pname q) (pname p)) (not_eq_sym Hn)); cbn [negb]; auto.
    destruct (ov || ov'); auto.
Qed.
End Reject.
